(** C35: the JANI model of a procedure has the procedure's expected reward; where it has not. *)
From Coq Require Import Bool String List ZArith NArith QArith Reals.
From Verif.Model Require Import Syntax Builder Dist Procs Jani.
From Verif.Spec Require Import Eur Sem Wp Frame JaniSem.
From Verif.Proofs Require Import JaniExpr JaniStates JaniProc JaniDet JaniExamples.
Import ListNotations.
Local Open Scope list_scope.

(** The optimal total reward from every initial state is the least-fixed-point semantics of the verification
    task of the procedure, without the quantitative preconditions if they are to be skipped. *)
Theorem C35_reward : forall fbody isf I J o calc p m dir block s,
  interp_ok I -> same_interp fbody I J -> jproc_ok isf fbody p ->
  proc_to_model fbody o calc p = Ok m -> encode_proc_verify p = Some (dir, block) -> env_ok s ->
  jinitial J m (jstate_of (proc_ids p) s) ->
  total_reward J m (jstate_of (proc_ids p) s) =
  wp_block I is_dist Least (if o_skip_quant_pre o then drop_quant_pre block else block) (fun _ => dir_top dir) s.
Proof. exact proc_reward. Qed.
Print Assumptions C35_reward.
Example C35_reward_example : exists m dir block, proc_to_model no_funs opts0 None geo = Ok m /\ encode_proc_verify geo = Some (dir, block) /\
  jproc_ok isf0 no_funs geo /\ env_ok geo_env /\ jinitial J0 m (jstate_of (proc_ids geo) geo_env) /\ m_mdp m = true.
Proof. exact geo_example. Qed.

(** Expressions keep their value, and the value is a JANI value. *)
Theorem C35_expressions : forall ids fbody I J, interp_ok I -> same_interp fbody I J ->
  forall e, wt e = true -> jexp_ok ids fbody e = true -> (forall x, In x ids -> ity x <> TEUReal) ->
  forall j, jtr fbody e = Ok j -> forall s st, env_ok s -> rep ids s st -> jeval J j st = jv (eval I e s) /\ finite (eval I e s).
Proof. exact jtr_sound. Qed.
Print Assumptions C35_expressions.
Example C35_expressions_example : exists j, jtr no_funs (EBin TUInt OSub (EVar vn) (b_uint 1)) = Ok j /\
  wt (EBin TUInt OSub (EVar vn) (b_uint 1)) = true /\ jexp_ok [vn] no_funs (EBin TUInt OSub (EVar vn) (b_uint 1)) = true /\
  env_ok (env_of []) /\ rep [vn] (env_of []) (jstate_of [vn] (env_of [])).
Proof. exact expr_example. Qed.

(** A model that is declared to be a DTMC has no choices. *)
Theorem C35_dtmc : forall fbody o calc p m, proc_to_model fbody o calc p = Ok m -> m_mdp m = false ->
  forall J l t, (length (enabled J m l t) <= 1)%nat.
Proof. exact dtmc. Qed.
Print Assumptions C35_dtmc.
Example C35_dtmc_example : exists m, proc_to_model no_funs opts0 None loopdecl = Ok m /\ m_mdp m = false /\ length (m_edges m) = 12%nat.
Proof. exact dtmc_example. Qed.

(** The translation of expressions panics only for substitutions and big fractions. *)
Theorem C35_no_panic : forall fbody e, wt e = true -> jtr_safe e = true -> forall w, jtr fbody e <> Panic w.
Proof. exact jtr_no_panic. Qed.
Print Assumptions C35_no_panic.
Example C35_no_panic_example : jtr_safe (EBin TUReal OAdd (ELit TUReal (LFrac (1 # 3))) (ELit TUReal (LFrac (7 # 2)))) = true.
Proof. reflexivity. Qed.
Theorem C35_panics_refuted : (exists w, proc_to_model no_funs opts0 None (mkproc Down "p" [] [] [] None) = Panic w) /\
  (exists w, jtr no_funs (ELit TUReal (LFrac (inject_Z (2 ^ 64)))) = Panic w) /\
  (exists w x e, jtr no_funs (ESubst x e (EVar x)) = Panic w).
Proof. exact panics. Qed.
Print Assumptions C35_panics_refuted.

(** A declaration with a literal in a loop: the variable keeps its value between iterations. *)
Theorem C35_loop_declaration_refuted : exists p m block s,
  proc_to_model no_funs opts0 None p = Ok m /\ encode_proc_verify p = Some (Down, block) /\
  jids_ok (proc_ids p) /\ (exists b, pbody p = Some b /\ All (wts is_dist isf0) b /\ All (every (jstmt_ok (proc_ids p) no_funs)) b) /\
  env_ok s /\ jinitial J0 m (jstate_of (proc_ids p) s) /\
  total_reward J0 m (jstate_of (proc_ids p) s) = eone /\
  wp_block I0 is_dist Least block (fun _ => dir_top Down) s = ebot.
Proof. exact loop_declaration_refuted. Qed.
Print Assumptions C35_loop_declaration_refuted.
(** [coassert] with a condition: the reward is 0 instead of infinity. *)
Theorem C35_coassert_refuted : exists p m block s,
  proc_to_model no_funs opts0 None p = Ok m /\ encode_proc_verify p = Some (Up, block) /\
  jids_ok (proc_ids p) /\ (exists b, pbody p = Some b /\ All (wts is_dist isf0) b /\ inits_ok_block b) /\
  env_ok s /\ jinitial J0 m (jstate_of (proc_ids p) s) /\
  total_reward J0 m (jstate_of (proc_ids p) s) = ebot /\
  wp_block I0 is_dist Least block (fun _ => dir_top Up) s = etop.
Proof. exact coassert_refuted. Qed.
Print Assumptions C35_coassert_refuted.
(** Skipping quantitative preconditions also skips assumptions of the body. *)
Theorem C35_skip_refuted : exists p m block s,
  proc_to_model no_funs opts_skip None p = Ok m /\ encode_proc_verify p = Some (Down, block) /\
  jproc_ok isf0 no_funs p /\ requires p = [] /\ env_ok s /\ jinitial J0 m (jstate_of (proc_ids p) s) /\
  total_reward J0 m (jstate_of (proc_ids p) s) <> wp_block I0 is_dist Least block (fun _ => dir_top Down) s.
Proof. exact skip_refuted. Qed.
Print Assumptions C35_skip_refuted.
(** Different variables may get the same name, also that of the reward. *)
Theorem C35_names_refuted : exists p m, proc_to_model no_funs opts0 None p = Ok m /\ NoDup (proc_ids p) /\ ~ NoDup (map fst (jdecls m)).
Proof. exact names_refuted. Qed.
Print Assumptions C35_names_refuted.
Theorem C35_reward_name_refuted : exists p m, proc_to_model no_funs opts0 None p = Ok m /\ NoDup (map iname (proc_ids p)) /\
  In reward_var (map fst (jdecls m)).
Proof. exact reward_refuted. Qed.
Print Assumptions C35_reward_name_refuted.
(** The lattice operators on Booleans become operators on numbers. *)
Theorem C35_bool_min_refuted : exists e j, wt e = true /\ ty_of e = TBool /\ jtr no_funs e = Ok j /\
  forall ids s, env_ok s -> In vb ids -> In vc ids -> NoDup (map iname ids) -> jeval J0 j (jstate_of ids s) = JErr.
Proof. exact bool_min_refuted. Qed.
Print Assumptions C35_bool_min_refuted.
