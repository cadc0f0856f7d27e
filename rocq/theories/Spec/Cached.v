(** What a translator was asked, and what its answers are to stand for. *)
From Coq Require Import List String QArith.
From Verif.Model Require Import Syntax Translate TranslateCache.
From Verif.Spec Require Import Sem Exprs Translated.
Import ListNotations.

Definition asked (cs : list command) : list expr := flat_map (fun c => match c with Ask e => [e] | Switch _ => [] end) cs.
Definition encodings (ecall : encoding) (cs : list command) : list encoding :=
  ecall :: flat_map (fun c => match c with Ask _ => [] | Switch ec => [ec] end) cs.
(** [M] means what [I] means however calls are written. *)
Definition fits_all (ecs : list encoding) (fsig : string -> option (list ty * ty)) (I : interp) (M : strct) : Prop :=
  Forall (fun ec => fits fsig ec I M) ecs.
(** In [M] every answer has the value that its question has in the state [s]. *)
Definition answers (I : interp) (M : strct) (s : env) (es : list expr) (ys : list symb) : Prop :=
  Forall2 (fun e y => val_dyn (eval I e s) (into_dynamic y M)) es ys.

(** The expressions within an expression, each occurrence once. *)
Fixpoint subexprs (e : expr) : list expr :=
  e :: match e with
       | EVar _ | ELit _ _ => []
       | ECall _ _ args => flat_map subexprs args
       | EIte _ a b c => subexprs a ++ subexprs b ++ subexprs c
       | EBin _ _ a b => subexprs a ++ subexprs b
       | EUn _ _ a | ECast _ a | EQuant _ _ a => subexprs a
       | ESubst _ a b => subexprs a ++ subexprs b
       end.
Definition addr {A} (v : event A) : A := match v with Hit p | Miss p => p end.
(** The addresses that were translated. *)
Definition missed {A} (t : list (event A)) : list A := flat_map (fun v => match v with Miss p => [p] | Hit _ => [] end) t.
(** Neither of type EUReal nor a quantifier. *)
Definition plain_at (e : expr) : Prop := ty_of e <> TEUReal /\ match e with EQuant _ _ _ => False | _ => True end.
(** The pointers of a program: each has its expression, which never changes. *)
Record pointers {A} (same : A -> A -> bool) (ptr : nat -> expr -> A) : Prop := {
  pt_same : forall p q, same p q = true <-> p = q;
  pt_heap : exists heap : A -> expr, forall n e, heap (ptr n e) = e
}.
(** [d (S n)] is [d n + d n]. *)
Fixpoint doubled (t : ty) (n : nat) : expr := match n with O => ELit t (LFrac 1) | S n => EBin t OAdd (doubled t n) (doubled t n) end.
