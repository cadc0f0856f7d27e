(** Syntactic measures of expressions used in statements. *)
From Coq Require Import Bool List String.
From Verif.Model Require Import Syntax.
Import ListNotations.

(** Some node of the expression satisfies [P]. *)
Fixpoint some (P : expr -> bool) (e : expr) : bool :=
  P e ||
  match e with
  | EVar _ | ELit _ _ => false
  | ECall _ _ args => existsb (some P) args
  | EIte _ c a b => some P c || some P a || some P b
  | EBin _ _ a b => some P a || some P b
  | EUn _ _ a | ECast _ a | EQuant _ _ a => some P a
  | ESubst _ b a => some P b || some P a
  end.

(** [<=], [<], [>=] or [>] between Booleans: smt/translate_exprs.rs 221-258 panics on it. *)
Definition bool_cmp (e : expr) : bool :=
  match e with EBin _ (OLe | OLt | OGe | OGt) a _ => ty_eqb (ty_of a) TBool | _ => false end.

(** Number of nodes. *)
Fixpoint nodes (e : expr) : nat :=
  S match e with
  | EVar _ | ELit _ _ => 0
  | ECall _ _ args => fold_right (fun a n => nodes a + n) 0 args
  | EIte _ c a b => nodes c + nodes a + nodes b
  | EBin _ _ a b => nodes a + nodes b
  | EUn _ _ a | ECast _ a | EQuant _ _ a => nodes a
  | ESubst _ b a => nodes b + nodes a
  end.
