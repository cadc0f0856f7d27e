(** C37: the optional stopping rule. *)
From Coq Require Import List String Reals QArith.
From Verif.Model Require Import Syntax TyCtx Dist ProofRules Procs LoopProcs Encode.
From Verif.Spec Require Import Eur Sem Wp Frame Loops Annotated Calls CallFree Termination.
From Verif.Proofs Require Import OstProofs OstReplace CallRefuted TermExamples TermNested TermDemonic OstProc.
Import ListNotations.
Local Open Scope list_scope.

(** For all loops over assignments, samplings, weights, branches and further loops and all annotations: when the six procedures that [@ost] generates meet
    their specifications, the invariant is below the expected value of the post, provided the bound on the differences is constant
    and the names [init_x] are not used.  Missing: bodies with nondeterminism, for which it is false. *)
Theorem C37_lower_bound_partial : forall variant dspan, (forall a b, variant a = variant b -> a = b) ->
  forall I isd isf c body inv past_inv cc post,
  interp_ok I -> proper_loop I isd isf c body -> clear_of_inits variant c body [inv; past_inv; post] ->
  is_exp inv -> is_exp past_inv -> is_exp post -> is_ureal cc -> (forall x, ~ fv x cc) ->
  forall T base blk ps T', ost_transform variant dspan T base [inv; past_inv; cc; post] c body = Ok (blk, ps, T') ->
  verified I isd Least ps -> exp_le (ev I inv) (wp I isd Least (SWhile c body) (ev I post)).
Proof.
  intros variant dspan Vi I isd isf c body inv past_inv cc post HI [G Wb Pb Tb] C Wi Wp Wo [Wc1 Wc2] Fc T base blk ps T' E Vf.
  exact (ost_sound variant dspan Vi I isd isf c body inv past_inv cc post HI Wb Pb Tb G Wi Wp Wo (conj Wc1 (conj Wc2 Fc)) C T base blk ps T' E Vf).
Qed.
Print Assumptions C37_lower_bound_partial.
(** A coin that is tossed until it shows tails ends: invariant 1, bound [2 * [b]] on the number of tosses, post 1. *)
Example C37_nonvacuous : forall I, interp_ok I -> exists c body inv past_inv cc post blk ps T',
  proper_loop I is_dist (fun _ => false) c body /\ clear_of_inits S c body [inv; past_inv; post] /\
  ost_transform S 2 T0 "main" [inv; past_inv; cc; post] c body = Ok (blk, ps, T') /\ verified I is_dist Least ps /\
  List.length ps = 6%nat /\ body <> [].
Proof.
  intros I HI. exists (EVar vb), coin, (elit 1), (EIte TEUReal (EVar vb) (elit 2) (elit 0)), (lit 1), (elit 1). eexists. exists ost_procs. eexists.
  split; [now apply coin_proper|]. split; [apply coin_clear; cbn; intuition (subst; cbn in *; tauto)|].
  split; [reflexivity|]. split; [now apply coin_ost|]. split; [reflexivity | discriminate].
Qed.
(** The loop is replaced by a call of the last of these procedures.  After the call is replaced by its specification, the block is below
    the loop for every post that does not depend on variables declared in the body. *)
Theorem C37_replacement_partial : forall variant dspan, (forall a b, variant a = variant b -> a = b) ->
  forall I isd isf c body inv past_inv cc post,
  interp_ok I -> proper_loop I isd isf c body -> clear_of_inits variant c body [inv; past_inv; post] ->
  is_exp inv -> is_exp past_inv -> is_exp post -> is_ureal cc -> (forall x, ~ fv x cc) ->
  forall T base blk ps T', ost_transform variant dspan T base [inv; past_inv; cc; post] c body = Ok (blk, ps, T') ->
  verified I isd Least ps -> (forall x, fv x post -> ~ any (declares x) body) ->
  forall procs variant' k d T1 blk' T2, (forall p, In p ps -> procs (pname p) = Some p) ->
  sc_block procs variant' d blk T1 = Ok (blk', T2) ->
  d = Down /\ forall X, blind (fun x => any (declares x) body) X -> exp_le (wp_block I isd k blk' X) (wp I isd Least (SWhile c body) X).
Proof.
  intros variant dspan Vi I isd isf c body inv past_inv cc post HI [G Wb Pb Tb] C Wi Wp Wo [Wc1 Wc2] Fc.
  exact (ost_replaces variant dspan Vi I isd isf c body inv past_inv cc post HI Wb Pb Tb G Wi Wp Wo (conj Wc1 (conj Wc2 Fc)) C).
Qed.
Print Assumptions C37_replacement_partial.
Example C37_replacement_nonvacuous : exists blk T' blk' T2, ost_transform S 2 T0 "main" ost_args (EVar vb) coin = Ok (blk, ost_procs, T') /\
  (forall p, In p ost_procs -> table ost_procs (pname p) = Some p) /\ sc_block (table ost_procs) shift Down blk T' = Ok (blk', T2) /\
  blk' <> [] /\ forall x, fv x (elit 1) -> ~ any (declares x) coin.
Proof.
  do 4 eexists. split; [reflexivity|]. split; [cbn [In ost_procs]; intros p H; repeat (destruct H as [<-|H]; [reflexivity|]); destruct H|].
  split; [reflexivity|]. split; [discriminate | cbn; auto].
Qed.
(** The same coin, tossed in a loop that is the body of another. *)
Example C37_nested_nonvacuous : forall I, interp_ok I -> exists c inner inv past_inv cc post blk ps T',
  let body := [SWhile c inner] in
  proper_loop I is_dist (fun _ => false) c body /\ clear_of_inits S c body [inv; past_inv; post] /\
  ost_transform S 2 T0 "main" [inv; past_inv; cc; post] c body = Ok (blk, ps, T') /\ verified I is_dist Least ps /\
  List.length ps = 6%nat /\ inner <> [].
Proof.
  intros I HI. exists (EVar vb), coin, (elit 1), (EIte TEUReal (EVar vb) (elit 2) (elit 0)), (lit 1), (elit 1). eexists. exists ost_nested. eexists.
  split; [now apply tosses_proper|]. split; [apply tosses_clear; cbn; intuition (subst; cbn in *; tauto)|].
  split; [reflexivity|]. split; [now apply tosses_ost|]. split; [reflexivity | discriminate].
Qed.
(** False for bodies with demonic nondeterminism: the lower bound 1 is accepted for [while b { if ⊓ { b = false } else {} }],
    which the demon need not leave. *)
Theorem C37_nondeterminism_refuted : exists c body inv past_inv cc post blk ps T',
  ost_transform S 2 T0 "main" [inv; past_inv; cc; post] c body = Ok (blk, ps, T') /\
  is_guard c /\ All (wts is_dist (fun _ => false)) body /\ clear_of_inits S c body [inv; past_inv; post] /\
  is_exp inv /\ is_exp past_inv /\ is_exp post /\ is_ureal cc /\ (forall x, ~ fv x cc) /\
  (forall I, interp_ok I -> subtotal I is_dist Least body /\ verified I is_dist Least ps) /\
  forall I, interp_ok I -> ~ exp_le (ev I inv) (wp I is_dist Least (SWhile c body) (ev I post)).
Proof. exact ost_nondeterminism. Qed.
Print Assumptions C37_nondeterminism_refuted.

(** Whole procedures: if a procedure that ends in a loop with [@ost] verifies after the loop is replaced by the call and the call by its
    specification, and the generated procedures verify, then the procedure meets its specification.  Missing: statements in front of the
    loop that call procedures, negate or contain annotated loops. *)
Theorem C37_procedure_partial : forall variant cspan dspan, (forall a b, variant a = variant b -> a = b) ->
  forall I isd isf p before c body inv past_inv cc post,
  interp_ok I -> pbody p = Some (before ++ [SAnn "ost" [inv; past_inv; cc; post] (SWhile c body)]) ->
  All (wts isd isf) before -> All (every not_negate) before -> All (every not_while) before -> All (every not_rule) before ->
  proper_loop I isd isf c body -> All (every not_rule) body -> clear_of_inits variant c body [inv; past_inv; post] ->
  is_exp inv -> is_exp past_inv -> is_exp post -> is_ureal cc -> (forall x, ~ fv x cc) ->
  (forall e, In e (post :: ensures p) -> unread (fun x => any (declares x) body) e) ->
  forall n T b' v, encode_proc variant cspan dspan n T p = Ok (Some b', v) -> verified I isd Least (v_new v) ->
  forall procs variant' k T1 b'' T2, (forall q, In q (v_new v) -> procs (pname q) = Some q) -> All (every (calls_none procs)) before ->
  sc_block procs variant' (pdir p) b' T1 = Ok (b'', T2) ->
  meets I p (wp_block I isd k b'') -> meets I p (wp_block I isd Least (before ++ [SAnn "ost" [inv; past_inv; cc; post] (SWhile c body)])).
Proof. exact ost_procedure. Qed.
Print Assumptions C37_procedure_partial.
(** [b = true; while b { b = flip(1/2) }] with pre and post 1. *)
Example C37_procedure_nonvacuous : exists v, pbody (tosser 1) = Some ([SAssign [vb] tt_lit] ++ [SAnn "ost" ost_args (SWhile (EVar vb) coin)]) /\
  encode_proc S dummy dummy 9 T0 (tosser 1) = Ok (Some tosser_body, v) /\ v_new v = ost_procs /\
  sc_block (table ost_procs) shift Down tosser_body (v_tcx v) = Ok (tosser_out, tosser_after) /\
  forall I, interp_ok I -> verified I is_dist Least (v_new v) /\ meets I (tosser 1) (wp_block I is_dist Least tosser_out).
Proof.
  destruct (tosser_encoded 1) as (v & E & En & Et). exists v. split; [reflexivity|]. split; [exact E|]. split; [exact En|]. rewrite Et. split; [exact tosser_replaced|].
  intros I HI. rewrite En. split; [apply coin_ost | apply tosser_meets].
Qed.
(** The loop is said to be encoded exactly, so that a counterexample counts as a refutation.  It is not one: the procedure above with
    pre and post 2 is right, the generated procedures verify, and the procedure fails to verify. *)
Theorem C37_exact_refuted : exists p b b' v procs b'' T2, pbody p = Some b /\
  encode_proc S dummy dummy 9 T0 p = Ok (Some b', v) /\ (forall q, In q (v_new v) -> procs (pname q) = Some q) /\
  sc_block procs shift (pdir p) b' (v_tcx v) = Ok (b'', T2) /\
  sound_refutations (pdir p) (track_block (pdir p) (Some Encode.Wp) b) = true /\
  forall I, interp_ok I -> verified I is_dist Least (v_new v) /\ meets I p (wp_block I is_dist Least b) /\
  forall k, ~ meets I p (wp_block I is_dist k b'').
Proof. exact ost_not_exact. Qed.
Print Assumptions C37_exact_refuted.
