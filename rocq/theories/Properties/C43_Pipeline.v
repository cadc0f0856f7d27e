(** C43: the question put to the solver is valid exactly if the procedure's body meets its specification. *)
From Coq Require Import Bool List String NArith QArith.
From Verif.Model Require Import Syntax Builder Lits TyCtx VcGen Unfolder Pipeline.
From Verif.Spec Require Import Eur Sem Wp Linear Valid Reach.
From Verif.Proofs Require Import VcGenProofs SubstProofs QelimProofs UnfolderExamples PipelineProofs PipelineExamples.
Import ListNotations.
Local Open Scope nat_scope.

(** For bodies whose user-written quantifiers are inside of embeddings, comparisons, calls or conditions. *)
Theorem C43_question_partial : forall o orc qs C isd isf A d T k b,
  tcx_ok C isd isf A -> wts isd isf (SSeq b) -> every not_while (SSeq b) -> vguard (SSeq b) -> every (anns_in A) (SSeq b) ->
  every (fun st => forall x, In x (node_ids st) -> is_var T x) (SSeq b) -> every guarded_node (SSeq b) ->
  (strict o = false -> sound_oracle orc) -> opt_rel o = false ->
  exists q, question o orc qs C d T b = Ok q /\ wt q = true /\ ty_of q = TBool /\
    forall I, interp_ok I ->
      ((forall s, env_ok s -> eval I q s = VBool true) <->
       forall s, env_ok s -> wp I isd k (SSeq b) (fun _ => match d with Down => etop | Up => ebot end) s = match d with Down => etop | Up => ebot end).
Proof. exact question_correct. Qed.
Print Assumptions C43_question_partial.

(** The passes after verification condition generation, on any well-typed condition with that property.  Without quantifier
    elimination the property is not needed. *)
Theorem C43_lower_partial : forall o orc qs d T e, (strict o = false -> sound_oracle orc) -> opt_rel o = false ->
  wt e = true -> lattice (ty_of e) = true -> (forall x, In x (all_ids e) -> is_var T x) -> (no_qelim o = false -> guarded d e) ->
  exists q, lower o orc qs d T e = Ok q /\ wt q = true /\ ty_of q = TBool /\
    forall I, interp_ok I -> ((forall s, env_ok s -> eval I q s = VBool true) <-> verified I d e).
Proof. exact lower_spec. Qed.
Print Assumptions C43_lower_partial.

(** Without that property, a program can violate its specification in every state although the question is valid. *)
Theorem C43_question_refuted : exists q, question default_options orc_unknown (fun _ => 0) ex_C Down ex_T ex_prog = Ok q /\
  forall I, interp_ok I -> (forall s, env_ok s -> eval I q s = VBool true) /\
    forall k s, env_ok s -> wp I ex_isd k (SSeq ex_prog) (fun _ => etop) s = ebot.
Proof. exact question_refuted. Qed.
Print Assumptions C43_question_refuted.
Theorem C43_question_refuted_program : sound_oracle orc_unknown /\ tcx_ok ex_C ex_isd ex_isf ex_A /\ wts ex_isd ex_isf (SSeq ex_prog) /\
  every not_while (SSeq ex_prog) /\ vguard (SSeq ex_prog) /\ every (anns_in ex_A) (SSeq ex_prog) /\
  every (fun st => forall x, In x (node_ids st) -> is_var ex_T x) (SSeq ex_prog).
Proof. exact (conj orc_unknown_sound ex_facts). Qed.
Print Assumptions C43_question_refuted_program.

(** Removing parentheses keeps types and values ... *)
Theorem C43_remove_parens : forall e, wt e = true ->
  wt (remove_parens e) = true /\ ty_of (remove_parens e) = ty_of e /\ forall I s, interp_ok I -> env_ok s -> eval I (remove_parens e) s = eval I e s.
Proof. exact (fun e H => remove_parens_sim e H false). Qed.
Print Assumptions C43_remove_parens.
(** ... but does not remove all parentheses. *)
Theorem C43_remove_parens_refuted : exists e, wt e = true /\ remove_parens e = EUn TBool OParens (EVar vb) /\ remove_parens e <> EVar vb.
Proof. exact remove_parens_refuted. Qed.
Print Assumptions C43_remove_parens_refuted.

(** The hypotheses are met by a program with an assumption, a probabilistic choice and a user-written quantifier. *)
Example C43_example : sound_oracle orc_unknown /\ tcx_ok ex_C ex_isd ex_isf ex_A /\ wts ex_isd ex_isf (SSeq ex_good) /\
  every not_while (SSeq ex_good) /\ vguard (SSeq ex_good) /\ every (anns_in ex_A) (SSeq ex_good) /\
  every (fun st => forall x, In x (node_ids st) -> is_var ex_T x) (SSeq ex_good) /\ every guarded_node (SSeq ex_good).
Proof. exact (conj orc_unknown_sound ex_good_facts). Qed.
