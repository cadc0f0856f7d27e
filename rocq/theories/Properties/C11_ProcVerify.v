(** C11: a procedure verifies exactly if its body meets its specification. *)
From Coq Require Import Bool List String NArith QArith.
From Verif.Model Require Import Syntax Builder TyCtx Dist VcGen Procs Unfolder Pipeline.
From Verif.Spec Require Import Eur Sem Wp Linear Valid Reach Calls.
From Verif.Proofs Require Import VcGenProofs SubstProofs QelimProofs PipelineProofs CallProofs ProcVc CallExamples.
Import ListNotations.

(** The verification condition of the encoded procedure is top (bottom for a coproc) in every state iff in every
    state the preconditions are a lower (upper) bound of the value of the postconditions before the body. *)
Theorem C11_vc_iff_meets : forall C I isd isf A k, tcx_ok C isd isf A -> forall p body d b, interp_ok I ->
  proc_wf isd isf A p body -> encode_proc_verify p = Some (d, b) ->
  exists e, vcgen_block C b (terminal d) = Ok e /\ is_exp e /\
    ((forall s, env_ok s -> ev I e s = match d with Down => etop | Up => ebot end) <-> meets I p (wp_block I isd k body)).
Proof. exact proc_vc_correct. Qed.
Print Assumptions C11_vc_iff_meets.

(** The same for the question put to the solver, when user-written quantifiers are inside of embeddings, comparisons,
    calls or conditions (see C43). *)
Theorem C11_question_iff_meets_partial : forall o orc qs C isd isf A T k p body d b,
  tcx_ok C isd isf A -> proc_wf isd isf A p body -> encode_proc_verify p = Some (d, b) ->
  every (fun st => forall x, In x (node_ids st) -> is_var T x) (SSeq b) -> every guarded_node (SSeq b) ->
  (strict o = false -> sound_oracle orc) -> opt_rel o = false ->
  exists q, question o orc qs C d T b = Ok q /\ wt q = true /\ ty_of q = TBool /\
    forall I, interp_ok I -> ((forall s, env_ok s -> eval I q s = VBool true) <-> meets I p (wp_block I isd k body)).
Proof. exact proc_question_correct. Qed.
Print Assumptions C11_question_iff_meets_partial.

(** Procedures with loops: the encoded block has the right value for either fixpoint semantics. *)
Theorem C11_encoding_iff_meets : forall I isd k p d b body, encode_proc_verify p = Some (d, b) -> pbody p = Some body ->
  d = pdir p /\ ((forall s, env_ok s -> wp_block I isd k b (fun _ => match d with Down => etop | Up => ebot end) s = match d with Down => etop | Up => ebot end)
                 <-> meets I p (wp_block I isd k body)).
Proof. exact proc_verified_iff. Qed.
Print Assumptions C11_encoding_iff_meets.

(** Turning an upper-bound question into a lower-bound question keeps its answer. *)
Theorem C11_lower_bounds : forall I isd k d b d' b', to_direction_lower_bounds (d, b) = (d', b') -> d' = Down /\
  forall s, wp_block I isd k b' (fun _ => etop) s = etop <->
            wp_block I isd k b (fun _ => match d with Down => etop | Up => ebot end) s = match d with Down => etop | Up => ebot end.
Proof. exact lower_bounds_correct. Qed.
Print Assumptions C11_lower_bounds.

(** A procedure that meets the hypotheses and verifies: a fair coin with pre 1/2 and post [r]. *)
Example C11_example : tcx_ok coin_tcx is_dist (fun _ => false) msgs /\ proc_wf is_dist (fun _ => false) msgs coin coin_body /\
  forall I, interp_ok I -> meets I coin (wp_block I is_dist Least coin_body).
Proof. exact coin_facts. Qed.
