(** C10: unfolding with reachability checks preserves values. *)
From Coq Require Import Bool List String.
From Verif.Model Require Import Syntax TyCtx Builder AstUtil Subst Unfolder.
From Verif.Spec Require Import Eur Sem Valid Reach.
From Verif.Proofs Require Import SubstProofs UnfolderProofs UnfolderExamples.
Import ListNotations.
Local Open Scope string_scope.

(** Whatever a solver that never wrongly answers Unsat says, unfolding a well-typed expression over declared variables
    does not fail, leaves no substitution behind, and keeps the type and the value in every state. *)
Theorem C10_unfold : forall orc qspan T e, sound_oracle orc -> wt e = true -> (forall x, In x (ids e) -> is_var T x) ->
  exists e' T' n, unfold_expr orc qspan T e = Ok (e', (T', n)) /\ no_subst e' /\ wt e' = true /\ ty_of e' = ty_of e /\
    forall I s, interp_ok I -> env_ok s -> eval I e' s = eval I e s.
Proof. exact unfold_expr_correct. Qed.
Print Assumptions C10_unfold.

(** A sound solver, and an expression from which unfolding with it drops something under a quantifier. *)
Example C10_unfold_nontrivial : sound_oracle orc0 /\ wt pruned_in = true /\
  (forall x, In x (ids pruned_in) -> is_var T0 x) /\
  exists T' n, unfold_expr orc0 (fun _ => 0) T0 pruned_in = Ok (pruned_out, (T', n)) /\ pruned_out <> pruned_in.
Proof. exact pruned_example. Qed.

(** So the unfolded condition is verified exactly if the original one is. *)
Theorem C10_unfold_verified : forall orc qspan T e e' T' n, sound_oracle orc -> wt e = true ->
  (forall x, In x (ids e) -> is_var T x) -> unfold_expr orc qspan T e = Ok (e', (T', n)) ->
  forall I d, interp_ok I -> verified I d e' <-> verified I d e.
Proof. exact unfold_verified. Qed.
Print Assumptions C10_unfold_verified.

(** With a solver that sometimes wrongly answers Unsat the value can change. *)
Theorem C10_unfold_unsound_solver_refuted : exists orc e T e' T' n, wt e = true /\ (forall x, In x (ids e) -> is_var T x) /\
  unfold_expr orc (fun _ => 0) T e = Ok (e', (T', n)) /\
  exists I s, interp_ok I /\ env_ok s /\ eval I e' s <> eval I e s.
Proof. exact unsound_solver. Qed.
Print Assumptions C10_unfold_unsound_solver_refuted.
