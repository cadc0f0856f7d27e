(** C05: verification conditions are monotone; the front end's monotonicity check. *)
From Coq Require Import Bool List String.
From Verif.Model Require Import Syntax Builder VcGen Negations.
From Verif.Spec Require Import Eur Sem Wp.
From Verif.Proofs Require Import VcGenProofs WpLemmas MonoProofs ValidateProofs.
Import ListNotations.

(** Negation-free statements (loops included) are monotone. *)
Theorem C05_negation_free_monotone : forall I isd isf k st,
  interp_ok I -> wts isd isf st -> every not_negate st ->
  forall X Y, exp_le X Y -> exp_le (wp I isd k st X) (wp I isd k st Y).
Proof. exact wp_mono. Qed.
Print Assumptions C05_negation_free_monotone.

(** ... and so are the verification conditions generated for them. *)
Theorem C05_vc_monotone : forall T I isd isf A st p q, tcx_ok T isd isf A -> interp_ok I ->
  wts isd isf st -> every not_while st -> vguard st -> every not_negate st -> every (anns_in A) st ->
  is_exp p -> is_exp q -> exp_le (ev I p) (ev I q) ->
  exists e f, vcgen T st p = Ok e /\ vcgen T st q = Ok f /\ exp_le (ev I e) (ev I f).
Proof. exact vcgen_mono. Qed.
Print Assumptions C05_vc_monotone.

(** A body that the direction walk accepts *and leaves at the direction it started
    with*, and whose branches contain an even number of negations, is monotone.
    Missing: the check demands neither of these (next two theorems). *)
Theorem C05_check_sound_partial : forall I isd isf k d body,
  interp_ok I -> All (wts isd isf) body -> All (every neutral) body ->
  mono_visit_block d body = Ok d -> mono (wp_block I isd k body).
Proof. exact mono_check_sound. Qed.
Print Assumptions C05_check_sound_partial.

(** The check accepts a body that is just [negate]. *)
Theorem C05_check_lone_negate_refuted : exists body, (forall isd isf, All (wts isd isf) body) /\
  mono_check Down body = true /\ forall I isd k s, env_ok s -> ~ mono (wp_block I isd k body).
Proof. exact mono_check_refuted. Qed.
Print Assumptions C05_check_lone_negate_refuted.

(** It accepts negate/conegate in different branches, ending at the initial direction. *)
Theorem C05_check_branches_refuted : exists body, (forall isd isf, All (wts isd isf) body) /\
  mono_visit_block Down body = Ok Down /\ forall I isd k s, env_ok s -> ~ mono (wp_block I isd k body).
Proof. exact mono_check_branch_refuted. Qed.
Print Assumptions C05_check_branches_refuted.

Example C05_nonvacuous : forall isd isf, let body := [SNegate Down; SAssert Down (EVar (mkid "x" 0 TEUReal)); SNegate Up] in
  All (wts isd isf) body /\ All (every neutral) body /\ mono_visit_block Down body = Ok Down.
Proof. intros. repeat split. Qed.
