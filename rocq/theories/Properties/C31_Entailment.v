(** C31: the entailment command. *)
From Coq Require Import Bool List String Arith NArith QArith.
From Verif.Model Require Import Syntax Builder Lits TyCtx AstUtil VcGen Subst Unfolder Pipeline Driver.
From Verif.Spec Require Import Eur Sem Wp Linear Valid Reach Verdicts.
From Verif.Proofs Require Import VcGenProofs SubstProofs QelimProofs UnfolderProofs UnfolderExamples PipelineProofs PipelineExamples DriverProofs EntailProofs DriverExamples.
Import ListNotations.
Local Open Scope nat_scope.

(** The question for a pair is valid exactly if the value of the coproc is at most that of the proc, in all states that agree on the
    parameters.  As for C43, user-written quantifiers are inside of embeddings, comparisons, calls or conditions. *)
Theorem C31_question_partial : forall o orc qs C isd isf A T k m a b,
  tcx_ok C isd isf A -> apart m -> (forall x y, In (x, y) m -> is_var T x /\ is_var T y) ->
  (forall c, c = a \/ c = b -> wts isd isf (SSeq c) /\ every not_while (SSeq c) /\ vguard (SSeq c) /\ every (anns_in A) (SSeq c) /\
     every (fun st => forall x, In x (node_ids st) -> is_var T x) (SSeq c) /\ every guarded_node (SSeq c)) ->
  (strict o = false -> sound_oracle orc) -> opt_rel o = false ->
  exists q, entail_question o orc qs C T m a b = Ok q /\ wt q = true /\ ty_of q = TBool /\
    forall I, interp_ok I ->
      ((forall s, env_ok s -> eval I q s = VBool true) <->
       forall s s', env_ok s -> renames m s s' -> ele (wp I isd k (SSeq a) (fun _ => ebot) s) (wp I isd k (SSeq b) (fun _ => etop) s')).
Proof. exact entail_correct. Qed.
Print Assumptions C31_question_partial.

Example C31_bodies : mapping unit_c unit_p = inl [] /\ apart [] /\ (forall c, c = body_c \/ c = body_p ->
  wts ex_isd ex_isf (SSeq c) /\ every not_while (SSeq c) /\ vguard (SSeq c) /\ every (anns_in ex_A) (SSeq c) /\
  every (fun st => forall x, In x (node_ids st) -> is_var ex_T x) (SSeq c) /\ every guarded_node (SSeq c)).
Proof. exact entail_facts. Qed.

(** A coproc and a proc are compared exactly if their parameters have the same names and types, one after the other; the question is then
    about states that agree on all of them. *)
Theorem C31_mapping : forall a b m, mapping a b = inl m <->
  u_dir a = Up /\ u_dir b = Down /\ m = combine (u_params a) (u_params b) /\
  Forall2 (fun x y => iname x = iname y /\ ity x = ity y) (u_params a) (u_params b).
Proof. exact mapping_spec. Qed.
Print Assumptions C31_mapping.
Theorem C31_mapping_apart : forall a b m, mapping a b = inl m -> NoDup (u_params b) ->
  (forall x, In x (u_params a) -> ~ In x (u_params b)) -> apart m.
Proof. exact mapping_apart. Qed.
Print Assumptions C31_mapping_apart.
Example C31_mapping_nonvacuous : exists a b m, mapping a b = inl m /\ List.length m = 2 /\ NoDup (u_params b) /\
  (forall x, In x (u_params a) -> ~ In x (u_params b)).
Proof. exact mapping_example. Qed.

(** If the command succeeds, the procedures were compared in pairs and no pair ran into a limit. *)
Theorem C31_success : forall P solve o we, entailment_command P solve o we = 0 ->
  exists l new, p_parse P = inl l /\ encode_all P (kept_list P o l) = inl new /\
    Nat.even (List.length (filter has_body (kept_list P o l ++ new))) = true /\
    forall a b, In (a, b) (pairs (filter has_body (kept_list P o l ++ new))) ->
      (exists m, mapping a b = inl m) /\ exists r, solve a b = inl r /\ r <> RUnknown RTimeout /\ r <> RUnknown RInterrupted.
Proof. exact entailment_even. Qed.
Print Assumptions C31_success.

(** But the answers do not matter: a coproc with value 1 is compared with a proc with value 0, the solver has a counterexample, and the
    command succeeds. *)
Theorem C31_verdict_refuted : exists q P solve,
  entail_question default_options orc_unknown (fun _ => 0) ex_C ex_T [] body_c body_p = Ok q /\
  (forall I, interp_ok I -> ~ forall s, env_ok s -> eval I q s = VBool true) /\
  quiet P all_units [unit_c; unit_p] /\ solve unit_c unit_p = inl RCounterexample /\ entailment_command P solve all_units false = 0.
Proof. exact entail_refuted. Qed.
Print Assumptions C31_verdict_refuted.
Theorem C31_answers_ignored : forall P s1 s2 o we, answers s1 -> answers s2 -> entailment_command P s1 o we = entailment_command P s2 o we.
Proof. exact entailment_ignores. Qed.
Print Assumptions C31_answers_ignored.

(** With an odd number of procedures the command panics. *)
Theorem C31_odd_refuted : exists P l, quiet P all_units l /\ List.length (filter has_body l) = 1 /\
  forall solve, entailment_command P solve all_units false = 101.
Proof. exact entailment_odd_refuted. Qed.
Print Assumptions C31_odd_refuted.
(** The units that were generated are looked at without the first one. *)
Theorem C31_generated_refuted : exists l new u, In u new /\ ~ In u (snd (extend l new)).
Proof. exact extend_refuted. Qed.
Print Assumptions C31_generated_refuted.
