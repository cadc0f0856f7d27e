(** Which subexpressions are literal, which of them should be marked, and when the markers are the identity. *)
From Coq Require Import Bool List String ZArith Reals.
From Verif.Model Require Import Syntax Translate Literals.
From Verif.Spec Require Import Exprs.
Import ListNotations.
Local Open Scope list_scope.

(** An expression made of literals, known variables, operators and computable functions. *)
Fixpoint literal (lv : ident -> bool) (cf : string -> bool) (e : expr) : bool :=
  match e with
  | EVar x => lv x
  | ECall _ f args => cf f && forallb (literal lv cf) args
  | EIte _ c a b => literal lv cf c && literal lv cf a && literal lv cf b
  | EBin _ _ a b => literal lv cf a && literal lv cf b
  | EUn _ _ a | ECast _ a => literal lv cf a
  | EQuant _ _ _ | ESubst _ _ _ => false
  | ELit _ _ => true
  end.

Definition children (e : expr) : list expr :=
  match e with
  | EVar _ | ELit _ _ => []
  | ECall _ _ args => args
  | EIte _ c a b => [c; a; b]
  | EBin _ _ a b | ESubst _ a b => [a; b]
  | EUn _ _ a | ECast _ a | EQuant _ _ a => [a]
  end.
(** The subexpression at a position, read from the root. *)
Fixpoint sub_at (p : list nat) (e : expr) : option expr :=
  match p with
  | [] => Some e
  | n :: p => match nth_error (children e) n with Some c => sub_at p c | None => None end
  end.
Definition no_subst (e : expr) : bool := negb (some (fun e => match e with ESubst _ _ _ => true | _ => false end) e).
Definition is_call (e : expr) : bool := match e with ECall _ _ _ => true | _ => false end.

(** Maximal literal subexpressions, and the literal arguments of calls. *)
Definition to_mark (lv : ident -> bool) (cf : string -> bool) (e : expr) (p : list nat) : Prop :=
  exists a, sub_at p e = Some a /\ literal lv cf a = true /\
    forall q n b, p = q ++ [n] -> sub_at q e = Some b -> literal lv cf b = false \/ is_call b = true.

Definition dyn_srt (d : dyn) (s : srt) : Prop :=
  match d, s with DyB _, SB | DyI _, SI | DyR _, SR => True | _, _ => False end.
(** The markers of these sorts are the identity. *)
Definition lit_id (reg : list srt) (M : strct) : Prop :=
  forall s d, In s reg -> dyn_srt d s -> ufn M (lit_name s) [d] = d.
(** Calls are not written with markers. *)
Definition marker_free (fsig : string -> option (list ty * ty)) (ecall : string -> (string -> list dyn -> dyn) -> list dyn -> dyn) : Prop :=
  forall f u u' ds, fsig f <> None -> (forall g, (forall s, g <> lit_name s) -> u g = u' g) -> ecall f u ds = ecall f u' ds.
