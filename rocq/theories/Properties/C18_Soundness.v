(** C18: what the soundness checker says about proofs and refutations, compared with the meaning of the loops. *)
From Coq Require Import Bool List String NArith.
From Verif.Model Require Import Syntax Builder Dist ProofRules Procs LoopProcs Encode.
From Verif.Spec Require Import Eur Sem Wp Frame Loops Annotated Calls CallFree Termination Inside.
From Verif.Proofs Require Import InsideProofs UnrollProofs SoundnessProofs SoundnessRefuted.
From Verif.Proofs Require TermExamples OstProofs OstReplace OstProc OstSound SpecCallProofs CallRefuted.
Import ListNotations.
Local Open Scope nat_scope.

(** With a calculus annotation.  [checkable] restricts loops to the rules that replace them by statements, and to
    annotations that are reliable: induction in the direction of the fixpoint, unrolling from the end where iteration
    starts.  The theorems below show that these restrictions are needed. *)
Theorem C18_calculus_proofs_sound_partial : forall variant cspan dspan I isd isf k c p b b' n T v', interp_ok I -> pbody p = Some b ->
  encode_proc variant cspan dspan n T p = Ok (Some b', v') ->
  checkable isd isf (pdir p) (pdir p) (fun _ _ => calculus_fix c) (fun x => Forall (unread (eq x)) (ensures p)) b ->
  sound_proofs (pdir p) (track_block (pdir p) (Some c) b) = true ->
  meets I p (wp_block I isd k b') -> meets I p (wp_block I isd (calculus_fix c) b).
Proof. exact calculus_proofs_sound. Qed.
Print Assumptions C18_calculus_proofs_sound_partial.
Theorem C18_calculus_refutations_sound_partial : forall variant cspan dspan I isd isf k c p b b' n T v', interp_ok I -> pbody p = Some b ->
  encode_proc variant cspan dspan n T p = Ok (Some b', v') ->
  checkable isd isf (toggle_dir (pdir p)) (pdir p) (fun _ _ => calculus_fix c) (fun x => Forall (unread (eq x)) (ensures p)) b ->
  sound_refutations (pdir p) (track_block (pdir p) (Some c) b) = true ->
  meets I p (wp_block I isd (calculus_fix c) b) -> meets I p (wp_block I isd k b').
Proof. exact calculus_refutations_sound. Qed.
Print Assumptions C18_calculus_refutations_sound_partial.

(** Without one, every loop denotes the fixpoint that its proof rule chooses. *)
Theorem C18_proofs_sound_partial : forall variant cspan dspan I isd isf k, interp_ok I -> forall cal p b b' n T v', pbody p = Some b ->
  encode_proc variant cspan dspan n T p = Ok (Some b', v') ->
  checkable isd isf (pdir p) (pdir p) (assumed cal (pdir p)) (fun x => Forall (unread (eq x)) (ensures p)) b ->
  sound_proofs (pdir p) (track_block (pdir p) cal b) = true ->
  meets I p (wp_block I isd k b') -> meets I p (wpr_block I isd (assumed cal (pdir p)) b).
Proof. exact proofs_sound. Qed.
Print Assumptions C18_proofs_sound_partial.
Theorem C18_refutations_sound_partial : forall variant cspan dspan I isd isf k, interp_ok I -> forall cal p b b' n T v', pbody p = Some b ->
  encode_proc variant cspan dspan n T p = Ok (Some b', v') ->
  checkable isd isf (toggle_dir (pdir p)) (pdir p) (assumed cal (pdir p)) (fun x => Forall (unread (eq x)) (ensures p)) b ->
  sound_refutations (pdir p) (track_block (pdir p) cal b) = true ->
  meets I p (wpr_block I isd (assumed cal (pdir p)) b) -> meets I p (wp_block I isd k b').
Proof. exact refutations_sound. Qed.
Print Assumptions C18_refutations_sound_partial.

(** A procedure may end in a loop annotated with @ost, which is checked by procedures of its own.  [verified]: they verify. *)
Theorem C18_ost_proofs_sound_partial : forall variant cspan dspan, (forall a b, variant a = variant b -> a = b) ->
  forall I isd isf cal p before c body inv past_inv cc post, let loop := SAnn "ost" [inv; past_inv; cc; post] (SWhile c body) in
  interp_ok I -> pbody p = Some (before ++ [loop]) ->
  checkable isd isf (pdir p) (pdir p) (assumed cal (pdir p)) (fun x => Forall (unread (eq x)) (ensures p) /\ scoped (eq x) (SWhile c body)) before ->
  proper_loop I isd isf c body -> All (every not_rule) body -> clear_of_inits variant c body [inv; past_inv; post] ->
  is_exp inv -> is_exp past_inv -> is_exp post -> is_ureal cc -> (forall x, ~ fv x cc) ->
  (forall e, In e (post :: ensures p) -> unread (fun x => any (declares x) body) e) ->
  forall n T b' v, encode_proc variant cspan dspan n T p = Ok (Some b', v) -> verified I isd Least (v_new v) ->
  sound_proofs (pdir p) (track_block (pdir p) cal (before ++ [loop])) = true ->
  forall procs variant' k T1 b'' T2, (forall q, In q (v_new v) -> procs (pname q) = Some q) -> All (every (calls_none procs)) before ->
  sc_block procs variant' (pdir p) b' T1 = Ok (b'', T2) ->
  meets I p (wp_block I isd k b'') -> meets I p (wpr_block I isd (assumed cal (pdir p)) (before ++ [loop])).
Proof. exact OstSound.ost_proofs_sound. Qed.
Print Assumptions C18_ost_proofs_sound_partial.

(** * Where the checker is wrong *)
(** A correct procedure whose counterexamples are said to be valid: an @invariant in a proc annotated with wp, in a coproc
    annotated with wlp. *)
Theorem C18_wp_refutation_refuted : exists p b, wrong_refutation Wp p b.
Proof. exact wp_refutation_refuted. Qed.
Print Assumptions C18_wp_refutation_refuted.
Theorem C18_wlp_refutation_refuted : exists p b, wrong_refutation Wlp p b.
Proof. exact wlp_refutation_refuted. Qed.
Print Assumptions C18_wlp_refutation_refuted.
(** Incorrect procedures whose proofs are said to be valid: @unroll ending in infinity, or in zero for wlp ... *)
Theorem C18_wp_proof_refuted : exists p b, wrong_proof Wp p b.
Proof. exact wp_proof_refuted. Qed.
Print Assumptions C18_wp_proof_refuted.
Theorem C18_wlp_proof_refuted : exists p b, wrong_proof Wlp p b.
Proof. exact wlp_proof_refuted. Qed.
Print Assumptions C18_wlp_proof_refuted.
(** ... and, whatever the rule, a loop in a branch of an addition, where the checker does not look. *)
Theorem C18_additive_refuted : sound_proofs Down (track_block Down (Some Wp) (loop "invariant" [num 5] tt_e)) = false /\
  sound_proofs Down (track_block Down (Some Wp) hidden) = true /\ wrong_proof Wp (one_spec Down (num 5) (num 0) hidden) hidden.
Proof. exact additive_refuted. Qed.
Print Assumptions C18_additive_refuted.

(** The hypotheses are met by nested loops with a local variable, and by an unrolled loop with nondeterminism. *)
Example C18_example_proof : forall isd isf c, c <> Wlp ->
  checkable isd isf Up Up (fun _ _ => calculus_fix c) (fun x => Forall (unread (eq x)) (ensures (over_x nested))) nested /\
  sound_proofs Up (track_block Up (Some c) nested) = true /\
  forall variant cspan dspan T, exists b' v, encode_proc variant cspan dspan 9 T (over_x nested) = Ok (Some b', v).
Proof. exact nested_facts. Qed.
Example C18_example_refutation : forall isd isf c, c <> Wlp ->
  checkable isd isf Down Up (fun _ _ => calculus_fix c) (fun x => Forall (unread (eq x)) (ensures (over_x unrolled))) unrolled /\
  sound_refutations Up (track_block Up (Some c) unrolled) = true /\
  forall variant cspan dspan T, exists b' v, encode_proc variant cspan dspan 9 T (over_x unrolled) = Ok (Some b', v).
Proof. exact unrolled_facts. Qed.
(** An unrolled loop before a coin that is tossed until it shows tails. *)
Import Dist OstReplace OstProc OstSound TermExamples CallRefuted.
Example C18_example_ost : exists v, pbody settler = Some (settle ++ [toss_loop]) /\
  encode_proc S dummy dummy 9 T0 settler = Ok (Some settler_body, v) /\ v_new v = ost_procs /\
  sound_proofs Down (track_block Down (Some Wp) (settle ++ [toss_loop])) = true /\
  sc_block (table ost_procs) shift Down settler_body (v_tcx v) = Ok (settler_out, settler_after) /\ All (every (calls_none (table ost_procs))) settle /\
  forall I isf, interp_ok I -> proper_loop I is_dist isf (EVar vb) coin /\ clear_of_inits S (EVar vb) coin (firstn 2 ost_args ++ skipn 3 ost_args) /\
    verified I is_dist Least (v_new v) /\ meets I settler (wp_block I is_dist Least settler_out).
Proof. exact settler_facts. Qed.
Example C18_example_ost_checkable : forall isf, checkable is_dist isf Down Down (assumed (Some Wp) Down)
  (fun x => Forall (unread (eq x)) (ensures settler) /\ scoped (eq x) (SWhile (EVar vb) coin)) settle.
Proof. exact settler_checkable. Qed.

(** Nothing is reported to be sound about a procedure with a negation, or with a rule about termination in a calculus that
    the rule is not about, however deep inside. *)
Theorem C18_unreliable : forall d c b t s, In s b -> inside t s -> unreliable c t ->
  sound_proofs d (track_block d (Some c) b) = false /\ sound_refutations d (track_block d (Some c) b) = false.
Proof. exact unreliable_reported. Qed.
Print Assumptions C18_unreliable.
Example C18_unreliable_case : let t := SAnn "past" [] (SWhile (b_bool true) []) in
  inside t (SIf (b_bool true) [SSeq [t]] []) /\ unreliable Wp t.
Proof.
  split; [|constructor; discriminate].
  eapply in_then; [left; reflexivity|]. eapply in_seq; [left; reflexivity|]. constructor.
Qed.
