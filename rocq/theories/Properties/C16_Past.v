(** C16: the rule for positive almost-sure termination. *)
From Coq Require Import List String Reals QArith.
From Verif.Model Require Import Syntax Builder TyCtx Dist ProofRules Procs LoopProcs Encode.
From Verif.Spec Require Import Eur Sem Wp Frame Loops Calls Termination.
From Verif.Proofs Require Import UnrollProofs PastProofs TermExamples TermRefuted PastNested.
Import ListNotations.
Local Open Scope list_scope.
Local Open Scope R_scope.

(** For all loops over assignments, samplings, branches, nondeterminism and further loops, with either fixpoint, and all annotations: when the first two procedures that [@past] generates
    meet their specifications (reading the truth value asserted by the second as its embedding), [eps] is positive and the invariant
    decreases as documented, the expected number of iterations is at most [inv / eps], hence finite where [inv] is.
    Missing: the third procedure says something else, see below; the tool does not check that [eps] is positive or [inv] finite. *)
Theorem C16_sound_partial : forall variant dspan I isd isf k c body inv eps K,
  interp_ok I -> All (wts isd isf) body -> All (every scalable) body -> is_guard c -> is_exp inv -> is_ureal eps -> is_ureal K ->
  forall T base blk ps T', past_transform variant dspan T base [inv; eps; K] c body = Ok (blk, ps, T') ->
  verified I isd k (map coerced (firstn 2 ps)) ->
  forall s0, env_ok s0 -> 0 < uval (eval I eps s0) ->
  (forall s, env_ok s -> holds I c s = true -> ele (wp_block I isd k body (ev I inv) s) (emonus (ev I inv s) (ev I (b_cast TEUReal eps) s))) ->
  ele (iterations I isd k c body s0) (if holds I c s0 then emul (fin (/ uval (eval I eps s0))) (ev I inv s0) else ebot).
Proof. exact past_sound. Qed.
Print Assumptions C16_sound_partial.
(** The documented example: [while 0 < x { if flip(0.5) { x = x - 1 } }] with [x + 1], 0.5 and 1. *)
Example C16_nonvacuous : forall I k, interp_ok I -> exists blk ps T',
  past_transform S 2 T1 "main" [walk_inv; lit (1#2); lit 1] walk_guard walk = Ok (blk, ps, T') /\
  verified I is_dist k (map coerced (firstn 2 ps)) /\
  forall s, env_ok s -> holds I walk_guard s = true ->
    ele (wp_block I is_dist k walk (ev I walk_inv) s) (emonus (ev I walk_inv s) (ev I (b_cast TEUReal (lit (1#2))) s)).
Proof.
  intros I k HI. exists [], walk_past. eexists. split; [reflexivity|]. split; [now apply walk_conditions|]. intros s. apply walk_decreases.
Qed.
(** A body with a loop and a choice. *)
Example C16_nested : forall I, interp_ok I -> exists blk ps T',
  All (wts is_dist (fun _ => false)) nested_coin /\ All (every scalable) nested_coin /\
  past_transform S 2 T0 "main" [nested_inv; lit (1#2); lit 1] (EVar vb) nested_coin = Ok (blk, ps, T') /\
  verified I is_dist Least (map coerced (firstn 2 ps)) /\
  forall s, env_ok s -> holds I (EVar vb) s = true ->
    ele (wp_block I is_dist Least nested_coin (ev I nested_inv) s) (emonus (ev I nested_inv s) (ev I (b_cast TEUReal (lit (1#2))) s)).
Proof. exact nested_past. Qed.

(** False with the generated procedures: [while true {}] is accepted, ... *)
Theorem C16_sound_refuted : exists c body inv eps K blk ps T', past_transform S 2 empty_tcx "main" [inv; eps; K] c body = Ok (blk, ps, T') /\
  is_guard c /\ is_exp inv /\ is_ureal eps /\ is_ureal K /\ (forall I isd k, interp_ok I -> verified I isd k (map coerced ps)) /\
  forall I isd k s, env_ok s -> iterations I isd k c body s = etop.
Proof. exact past_accepts_divergence. Qed.
Print Assumptions C16_sound_refuted.
(** ... and the third procedure of the documented example, where all documented conditions hold (above), does not verify. *)
Theorem C16_complete_refuted : exists blk ps T', past_transform S 2 T1 "main" [walk_inv; lit (1#2); lit 1] walk_guard walk = Ok (blk, ps, T') /\
  forall I k, ~ verified I is_dist k (skipn 2 ps).
Proof. exact walk_refused. Qed.
Print Assumptions C16_complete_refuted.
(** So also where the guard has the same value before and after the iteration: a coin with [2 * [b]], 0.5 and 1. *)
Theorem C16_direction_refuted : exists c body inv eps K blk ps T', past_transform S 2 T0 "main" [inv; eps; K] c body = Ok (blk, ps, T') /\
  forall I k, interp_ok I -> verified I is_dist k (map coerced (firstn 2 ps)) /\
  (forall s, env_ok s -> holds I c s = true -> ele (wp_block I is_dist k body (ev I inv) s) (emonus (ev I inv s) (ev I (b_cast TEUReal eps) s))) /\
  ~ verified I is_dist k (skipn 2 ps).
Proof. exact coin_refused. Qed.
Print Assumptions C16_direction_refuted.
(** The second procedure as generated asserts a truth value, which is no expectation; read strictly it never verifies. *)
Theorem C16_ill_typed : forall variant dspan T base inv eps K c body blk ps T', past_transform variant dspan T base [inv; eps; K] c body = Ok (blk, ps, T') ->
  exists p e, nth_error ps 1 = Some p /\ pbody p = Some [SAssert Down e] /\ ty_of e = TBool.
Proof. exact past_ill_typed. Qed.
Print Assumptions C16_ill_typed.
(** The loop is replaced by nothing; that is claimed to be exact and is not. *)
Theorem C16_exact_refuted : exists c body args ps T', get_approximation Past LFP EXACT (Some Ert) = EXACT /\
  past_transform S 2 empty_tcx "main" args c body = Ok ([], ps, T') /\ (forall I k, interp_ok I -> verified I is_dist k (map coerced ps)) /\
  forall I, interp_ok I -> exists X s, env_ok s /\ wp_block I is_dist Least [] X s = eone /\ wp I is_dist Least (SWhile c body) X s = ebot.
Proof. exact past_not_exact. Qed.
Print Assumptions C16_exact_refuted.
