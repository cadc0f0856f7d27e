(** C07: boolification (src/opt/boolify.rs). *)
From Coq Require Import Bool List String NArith QArith Reals.
From Verif.Model Require Import Syntax Builder Lits Boolify.
From Verif.Spec Require Import Eur Sem Exprs.
From Verif.Proofs Require Import SimLemmas BoolifyProofs.
Import ListNotations.

(** Every result has the type and, in every state, the value of the input; this holds at whatever depth the recursion is cut off. *)
Theorem C07_same_value : forall n e e', visit n e = Ok e' -> wt e = true ->
  wt e' = true /\ ty_of e' = ty_of e /\ forall I s, interp_ok I -> env_ok s -> eval I e' s = eval I e s.
Proof. exact (fun n => proj1 (all_sound n)). Qed.
Print Assumptions C07_same_value.

(** The comparison of two quantities ([visit_leq]) and the comparisons with top and bottom. *)
Theorem C07_verification_question : forall n l r e', visit_leq n l r = Ok e' -> wt l = true -> wt r = true -> ty_of l = ty_of r ->
  wt e' = true /\ ty_of e' = TBool /\
  forall I s, interp_ok I -> env_ok s -> eval I e' s = VBool true <-> vle (eval I l s) (eval I r s) = Some true.
Proof. exact leq_question. Qed.
Print Assumptions C07_verification_question.

Theorem C07_top_question : forall n e e', visit_eq_top n e = Ok e' -> wt e = true ->
  wt e' = true /\ ty_of e' = TBool /\
  forall I s, interp_ok I -> env_ok s ->
    eval I e' s = VBool true <-> (eval I e s = VBool true \/ eval I e s = VEur etop).
Proof. exact top_question. Qed.
Print Assumptions C07_top_question.

Theorem C07_bot_question : forall n e e', visit_eq_bot n e = Ok e' -> wt e = true ->
  wt e' = true /\ ty_of e' = TBool /\
  forall I s, interp_ok I -> env_ok s ->
    eval I e' s = VBool true <-> (eval I e s = VBool false \/ eval I e s = VEur ebot).
Proof. exact bot_question. Qed.
Print Assumptions C07_bot_question.

(** It terminates, without running into an assertion, on every well-typed expression. *)
Theorem C07_total : forall e, wt e = true ->
  exists e', boolify e = Ok e' /\ forall n, (fuel e <= n)%nat -> visit n e = Ok e'.
Proof. exact boolify_total. Qed.
Print Assumptions C07_total.

(** The result can contain a comparison of Booleans although the input has none; the SMT translation panics on it. *)
Theorem C07_bool_comparison_refuted : exists e e', wt e = true /\ some bool_cmp e = false /\
  boolify e = Ok e' /\ some bool_cmp e' = true.
Proof. exact bool_comparison_refuted. Qed.
Print Assumptions C07_bool_comparison_refuted.

(** "the optimizations here do not increase expression size" (boolify.rs 6-7). *)
Theorem C07_size_refuted : exists e e', wt e = true /\ boolify e = Ok e' /\ (nodes e < nodes e')%nat.
Proof. exact size_refuted. Qed.
Print Assumptions C07_size_refuted.

(** [oo == (?(b) -> x)] becomes [b -> (oo == x)]. *)
Example C07_nonvacuous : let b := EVar (mkid "b" 0 TBool) in let x := EVar (mkid "x" 0 TEUReal) in
  let e := EBin TBool OEq b_inf (EBin TEUReal OImpl (EUn TEUReal OEmbed b) x) in
  wt e = true /\ boolify e = Ok (EBin TBool OImpl b (EBin TBool OEq b_inf x)).
Proof. split; reflexivity. Qed.
