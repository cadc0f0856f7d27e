(** C24: the search for small error slices, which is also the main call of the solver. *)
From Coq Require Import List String Arith.
From Verif.Model Require Import Syntax Prover SliceSearch.
From Verif.Spec Require Import SliceSpec.
From Verif.Proofs Require Import SliceSearchProofs SliceHistory SliceVerdict.
Import ListNotations.

(** After any answers, the next size that is tried is not yet settled by them, and the search ends only if all are settled. *)
Theorem C24_trial : forall hist a b m, record hist a b = Ok m ->
  match next_trial m with Some n => open_size hist a b n | None => forall n, ~ open_size hist a b n end.
Proof. exact trial_open. Qed.
Print Assumptions C24_trial.
(** The assertions hold exactly for answers that do not contradict monotonicity. *)
Theorem C24_assertions : forall hist a b, (exists m, record hist a b = Ok m) <->
  coherent hist a b /\ NoDup (map fst (filter (fun h => match snd h with TrialUnknown => true | _ => false end) hist)).
Proof. exact record_ok. Qed.
Print Assumptions C24_assertions.
Example C24_case : exists m, record [(2, RejectDownwards); (3, TrialUnknown); (5, AcceptUpwards)] 0 9 = Ok m /\ next_trial m = Some 4.
Proof. eexists. split; reflexivity. Qed.
(** Whatever the solver answers, the search ends. *)
Theorem C24_terminates : forall minl unk check model v, sat_binary_search minl unk check model v <> Panic "fuel".
Proof. exact search_ends. Qed.
Print Assumptions C24_terminates.
(** If all answers are definite and right, there is no panic, and a smallest counterexample is found if there is any. *)
Theorem C24_minimal : forall minl unk check model sizes, sound_search sizes check model -> definite check -> forall v, minl <> AnySlice ->
  (slice_failing minl unk check model v = Ok (Proof, None) /\ forall m, m <= v -> ~ sizes m) \/
  exists m, slice_failing minl unk check model v = Ok (Counterexample, Some m) /\ m <= v /\ least_size sizes m.
Proof. exact definite_verdict. Qed.
Print Assumptions C24_minimal.
(** By default, verdicts are right even if some answers are unknown. *)
Theorem C24_verdict : forall minl unk check model sizes, sound_search sizes check model -> forall v r x,
  unk = Stop -> slice_failing minl unk check model v = Ok (r, x) ->
  match r with
  | Proof => forall m, m <= v -> ~ sizes m
  | Counterexample => exists m, x = Some m /\ m <= v /\ sizes m
  | ProveUnknown => True
  end.
Proof. exact stop_verdict. Qed.
Print Assumptions C24_verdict.
Example C24_search_case : sound_search (fun m => m = 2 \/ m = 3) three_check three_model /\ definite three_check /\
  slice_failing SizeMinimal Stop three_check three_model 5 = Ok (Counterexample, Some 2).
Proof. exact three_case. Qed.

(** With the option to accept inconsistent models, a program with a counterexample is reported as verified. *)
Theorem C24_accept_refuted : exists sizes check model v, sound_search sizes check model /\ (exists m, m <= v /\ sizes m) /\
  slice_failing SizeMinimal Accept check model v = Ok (Proof, None).
Proof. exact accept_proof_refuted. Qed.
Print Assumptions C24_accept_refuted.
(** With default options and a solver that is right, but once does not know: panic. *)
Theorem C24_unknown_panic_refuted : exists sizes check model v, sound_search sizes check model /\
  slice_failing SizeMinimal Stop check model v = Panic "assertion failed: max_reject < min_accept".
Proof. exact (ex_intro _ _ (ex_intro _ _ (ex_intro _ _ (ex_intro _ _ stop_refuted)))). Qed.
Print Assumptions C24_unknown_panic_refuted.
(** An inconsistent model may exceed the bound: panic. *)
Theorem C24_accept_panic_refuted : exists sizes check model v, sound_search sizes check model /\
  slice_failing SizeMinimal Accept check model v = Panic "assertion failed: num_actually_true <= n".
Proof. exact (ex_intro _ _ (ex_intro _ _ (ex_intro _ _ (ex_intro _ _ bound_refuted)))). Qed.
Print Assumptions C24_accept_panic_refuted.
