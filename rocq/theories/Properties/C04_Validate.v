(** C04: validate / covalidate. *)
From Coq Require Import Bool List String.
From Verif.Model Require Import Syntax Builder VcGen.
From Verif.Spec Require Import Eur Sem Wp.
From Verif.Proofs Require Import ValidateProofs.
Import ListNotations.

(** Where the post-expectation is an assume (the documented use), validate is as
    documented and [validate; assume f] is exactly [compare f]. *)
Theorem C04_compare_is_validate_assume : forall T I d f post, interp_ok I -> is_exp f -> is_exp post ->
  exists e, vcgen_block T [SValidate d; SAssume d f] post = Ok e /\ is_exp e /\
  vcgen_block T [SCompare d f] post = Ok e /\
  forall s, env_ok s -> ev I e s = validate_sem d (assume_sem d (ev I f s) (ev I post s)).
Proof. exact validate_assume. Qed.
Print Assumptions C04_compare_is_validate_assume.

(** In every other case the generated condition has the documented value exactly in
    the states where the post is already 0 or infinity. *)
Theorem C04_validate_correct_iff : forall I d post s, interp_ok I -> is_exp post -> impl_like d post = false -> env_ok s ->
  (ev I (vcgen_validate d post) s = validate_sem d (ev I post s) <-> ev I post s = ebot \/ ev I post s = etop).
Proof. exact validate_iff. Qed.
Print Assumptions C04_validate_correct_iff.

(** So the property is false: on the constant post 1, validate gives infinity
    instead of 0 and covalidate gives 0 instead of infinity, in every state. *)
Theorem C04_validate_refuted : exists T post, is_exp post /\
  forall I s, interp_ok I -> env_ok s ->
   (exists e, vcgen T (SValidate Down) post = Ok e /\ ev I e s = etop /\ validate_sem Down (ev I post s) = ebot) /\
   (exists e, vcgen T (SValidate Up) post = Ok e /\ ev I e s = ebot /\ validate_sem Up (ev I post s) = etop).
Proof. exact validate_refuted. Qed.
Print Assumptions C04_validate_refuted.

(** The result is not even determined by the meaning of the post. *)
Theorem C04_validate_not_extensional_refuted : exists T p q, is_exp p /\ is_exp q /\
  forall I s, interp_ok I -> env_ok s -> ev I p s = ev I q s /\
   exists e f, vcgen T (SValidate Down) p = Ok e /\ vcgen T (SValidate Down) q = Ok f /\ ev I e s <> ev I f s.
Proof. exact validate_not_extensional. Qed.
Print Assumptions C04_validate_not_extensional_refuted.

Example C04_nonvacuous : is_exp (EVar (mkid "x" 0 TEUReal)) /\ is_exp one_e /\ impl_like Down one_e = false.
Proof. repeat split. Qed.
