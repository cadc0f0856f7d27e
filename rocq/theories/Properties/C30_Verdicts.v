(** C30: the overall verdict and the exit code. *)
From Coq Require Import Bool List String Permutation.
From Verif.Model Require Import Syntax Driver.
From Verif.Spec Require Import Verdicts.
From Verif.Proofs Require Import DriverProofs DriverExamples.
Import ListNotations.

(** If the command succeeds, everything was parsed and checked, and every selected unit was proved, by a proof that counts as sound. *)
Theorem C30_success_means_proved : forall P o we, reports_stay P -> o_no_verify o = false -> verify_command P o we = 0 ->
  exists l, p_parse P = inl l /\ (forall u, In u l -> p_declare P u = None /\ p_resolve P u = None /\ p_tycheck P u = None) /\
    p_calculus P (kept_list P o l) = None /\
    forall u, selected P o l u -> p_solve P u = inl RProof /\ sound_proofs (p_sound P (kept_list P o l) u) = true.
Proof. exact verdict_sound. Qed.
Print Assumptions C30_success_means_proved.

(** If nothing else is reported and every selected unit is proved soundly, the command succeeds. *)
Theorem C30_proved_means_success : forall P o we l, o_no_verify o = false -> quiet P o l ->
  (forall u, selected P o l u -> p_solve P u = inl RProof /\ sound_proofs (p_sound P (kept_list P o l) u) = true) ->
  verify_command P o we = 0.
Proof. exact verdict_complete. Qed.
Print Assumptions C30_proved_means_success.

(** A filter selects one of two procedures, the other of which has a counterexample. *)
Example C30_filtered : let P := calm [unit_d; unit_c; unit_p] none proves_c in
  reports_stay P /\ (forall o, quiet P o [unit_d; unit_c; unit_p]) /\
  selected P (mkdopt (Some "c"%string) false false) [unit_d; unit_c; unit_p] unit_c /\
  ~ selected P (mkdopt (Some "c"%string) false false) [unit_d; unit_c; unit_p] unit_p /\
  verify_command P (mkdopt (Some "c"%string) false false) false = 0 /\ verify_command P all_units false = 1.
Proof. exact run_facts. Qed.

(** With --no-verify the command succeeds whatever the units are, but not if some output was asked for. *)
Theorem C30_no_verify : forall P o we l, o_no_verify o = true -> o_output o = false -> quiet P o l -> verify_command P o we = 0.
Proof. exact no_verify_succeeds. Qed.
Print Assumptions C30_no_verify.
Theorem C30_no_verify_output_fails : forall P o we l u, reports_stay P -> o_no_verify o = true -> o_output o = true ->
  p_parse P = inl l -> selected P o l u -> verify_command P o we <> 0.
Proof. exact no_verify_output_fails. Qed.
Print Assumptions C30_no_verify_output_fails.
Theorem C30_no_verify_refuted : exists P l u, quiet P (mkdopt None true false) l /\ selected P (mkdopt None true false) l u /\
  p_solve P u = inl RCounterexample /\ verify_command P (mkdopt None true false) false = 0.
Proof. exact no_verify_refuted. Qed.
Print Assumptions C30_no_verify_refuted.

(** The status shown in the editor is that of a verified span only if all units in it are verified, and a failure is always shown. *)
Theorem C30_shown_verified : forall l, shown l = Some SVerified <-> l <> [] /\ forall s, In s l -> s = SVerified.
Proof. exact shown_verified. Qed.
Print Assumptions C30_shown_verified.
Theorem C30_shown_failed : forall l, In SFailed l -> shown l = Some SFailed.
Proof. exact shown_failed. Qed.
Print Assumptions C30_shown_failed.
(** In general it depends on the order in which the units are processed. *)
Theorem C30_shown_order_refuted : exists l l', Permutation l l' /\ shown l <> shown l'.
Proof. exact shown_order_refuted. Qed.
Print Assumptions C30_shown_order_refuted.
