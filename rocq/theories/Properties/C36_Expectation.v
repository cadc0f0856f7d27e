(** C36: sampling is the probability-weighted sum of the post over the outcomes. *)
From Coq Require Import Bool List String NArith QArith Reals.
From Verif.Model Require Import Syntax Builder Dist VcGen.
From Verif.Spec Require Import Eur Sem Wp.
From Verif.Proofs Require Import WpLemmas DistProofs VcGenProofs.
Import ListNotations.

(** For any non-empty well-typed outcome list. *)
Theorem C36_expectation_is_weighted_sum : forall I d x post,
  interp_ok I -> d <> [] -> dist_wt (ity x) d -> wte post ->
  exists e, dist_expectation d x post = Ok e /\ wte e /\
  forall s, env_ok s -> ev I e s = expected (den I s d) (fun v => ev I post (upd s x v)).
Proof. exact dist_expectation_sound. Qed.
Print Assumptions C36_expectation_is_weighted_sum.

(** An assignment, from a distribution in range, a function or any other expression. *)
Theorem C36_assignment : forall T I isd isf A x e post, tcx_ok T isd isf A -> interp_ok I ->
  assign_ok isd isf x e -> is_exp post ->
  exists e', generate_assign T e [x] post = Ok e' /\ is_exp e' /\
    forall X, (forall s, env_ok s -> ev I post s = X s) ->
    forall s, env_ok s -> ev I e' s = assign_sem I isd [x] e X s.
Proof. exact generate_assign_correct. Qed.
Print Assumptions C36_assignment.

Example C36_nonvacuous : exists d, apply_dist "unif" [b_uint 1; b_uint 3] = Ok d /\ d <> [] /\
  dist_wt TUInt d /\ assign_ok is_dist (fun _ => false) (mkid "x" 0 TUInt) (ECall TUInt "unif" [b_uint 1; b_uint 3]).
Proof.
  eexists. split; [vm_compute; reflexivity|]. split; [discriminate|]. split.
  - repeat constructor.
  - cbn. apply dr_unif; reflexivity || discriminate.
Qed.
