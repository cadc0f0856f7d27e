(** C06: substitution elimination. *)
From Coq Require Import Bool List String.
From Verif.Model Require Import Syntax TyCtx AstUtil Subst.
From Verif.Spec Require Import Eur Sem.
From Verif.Proofs Require Import TyCtxProofs SubstProofs.
Import ListNotations.

(** For every well-typed expression all of whose identifiers are declared variables,
    the elimination succeeds, leaves no substitution, keeps the type and well-typedness,
    and keeps the value in every state.  Bound variables that clash with
    substituted terms are covered: the statement has no side condition on names. *)
Theorem C06_apply_subst_correct : forall qs T e,
  wt e = true -> (forall x, In x (ids e) -> is_var T x) ->
  exists e' T', apply_subst qs T e = Ok (e', T') /\ no_subst e' /\ wt e' = true /\ ty_of e' = ty_of e /\
    forall I s, eval I e' s = eval I e s.
Proof. exact apply_subst_correct. Qed.
Print Assumptions C06_apply_subst_correct.

(** A clash: in [(inf x. x + y)[y := x]] the bound x must be renamed. *)
Definition c06_x := mkid "x" 0 TEUReal.
Definition c06_y := mkid "y" 1 TEUReal.
Definition c06_e := ESubst c06_y (EVar c06_x)
  (EQuant QInf [QFresh c06_x] (EBin TEUReal OAdd (EVar c06_x) (EVar c06_y))).
Definition c06_T := mktcx [(c06_x, true); (c06_y, true)] [].
Example C06_nonvacuous : wt c06_e = true /\ (forall x, In x (ids c06_e) -> is_var c06_T x) /\
  exists T', let x0 := mkid "x_0" 5 TEUReal in
  apply_subst (fun _ => 5) c06_T c06_e
  = Ok (EQuant QInf [QShadow x0] (EBin TEUReal OAdd (EVar x0) (EVar c06_x)), T').
Proof.
  split; [reflexivity|]. split.
  - intros x Hx. cbn in Hx. repeat (destruct Hx as [<-|Hx]; [reflexivity|]). destruct Hx.
  - eexists. vm_compute. reflexivity.
Qed.
