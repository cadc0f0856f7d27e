(** Expressions that pGCL can express: without quantifiers and substitutions. *)
From Coq Require Import List.
From Verif.Model Require Import Syntax.
From Verif.Spec Require Import Wp.

Fixpoint simple (e : expr) : Prop :=
  match e with
  | EVar _ | ELit _ _ => True
  | ECall _ _ args => All simple args
  | EIte _ c a b => simple c /\ simple a /\ simple b
  | EBin _ _ a b => simple a /\ simple b
  | EUn _ _ a | ECast _ a => simple a
  | EQuant _ _ _ | ESubst _ _ _ => False
  end.
