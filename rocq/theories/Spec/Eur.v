(** Extended non-negative reals [0,oo]: the mathematical carrier of
    expectations.  This is specification, not a model of any particular piece
    of code: website/docs/stdlib/numbers.md (type EUReal) and
    website/docs/heyvl/expressions.md describe exactly these operations. *)
From Coq Require Import Reals Lra ClassicalEpsilon.
Local Open Scope R_scope.

(** Non-negative reals. *)
Definition nnr := {r : R | 0 <= r}.
Definition nval (x : nnr) : R := proj1_sig x.

Lemma nnr_of_proof (r : R) : 0 <= Rmax 0 r.
Proof. apply Rmax_l. Qed.

(** Truncation to the non-negative reals; the identity on [0 <= r]. *)
Definition nnr_of (r : R) : nnr := exist _ (Rmax 0 r) (nnr_of_proof r).

Global Arguments nval : simpl never.
Global Arguments nnr_of : simpl never.

Inductive eur := Fin (x : nnr) | Inf.

Definition fin (r : R) : eur := Fin (nnr_of r).

(** The order of the lattice [0,oo]. *)
Definition ele (a b : eur) : Prop :=
  match a, b with
  | _, Inf => True
  | Inf, Fin _ => False
  | Fin x, Fin y => nval x <= nval y
  end.

Definition eleb (a b : eur) : bool :=
  match a, b with
  | _, Inf => true
  | Inf, Fin _ => false
  | Fin x, Fin y => if Rle_dec (nval x) (nval y) then true else false
  end.

Definition etop : eur := Inf.
Definition ebot : eur := fin 0.
Definition eone : eur := fin 1.

Definition emin (a b : eur) : eur := if eleb a b then a else b.
Definition emax (a b : eur) : eur := if eleb a b then b else a.

Definition eadd (a b : eur) : eur :=
  match a, b with
  | Fin x, Fin y => fin (nval x + nval y)
  | _, _ => Inf
  end.

(** Multiplication with the usual measure-theoretic convention 0 * oo = 0. *)
Definition emul (a b : eur) : eur :=
  match a, b with
  | Fin x, Fin y => fin (nval x * nval y)
  | Fin x, Inf | Inf, Fin x => if Req_EM_T (nval x) 0 then fin 0 else Inf
  | Inf, Inf => Inf
  end.

(** Truncated subtraction (monus): "a - b" is the least c with a <= b + c. *)
Definition emonus (a b : eur) : eur :=
  match a, b with
  | _, Inf => fin 0
  | Inf, Fin _ => Inf
  | Fin x, Fin y => fin (nval x - nval y)
  end.

(** Suprema and infima of arbitrary sets of values. *)
Definition is_sup (P : eur -> Prop) (s : eur) : Prop :=
  (forall x, P x -> ele x s) /\ (forall u, (forall x, P x -> ele x u) -> ele s u).
Definition is_inf (P : eur -> Prop) (s : eur) : Prop :=
  (forall x, P x -> ele s x) /\ (forall u, (forall x, P x -> ele u x) -> ele u s).

Definition esup (P : eur -> Prop) : eur := epsilon (inhabits Inf) (is_sup P).
Definition einf (P : eur -> Prop) : eur := epsilon (inhabits Inf) (is_inf P).
