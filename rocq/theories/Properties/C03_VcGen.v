(** C03: the generated verification condition is the documented semantics. *)
From Coq Require Import Bool List String QArith.
From Verif.Model Require Import Syntax Builder Dist VcGen.
From Verif.Spec Require Import Eur Sem Wp.
From Verif.Proofs Require Import WpLemmas DistProofs VcGenProofs ValidateProofs.
Import ListNotations.

(** For every well-typed loop-free statement in which each (co)validate is directly followed by an
    assume (the other uses of (co)validate are C04): the generator
    succeeds, and its result denotes, in every state and for either fixpoint
    semantics, the documented transformer applied to the post. *)
Theorem C03_vcgen_is_semantics : forall T I isd isf A k st post,
  tcx_ok T isd isf A -> interp_ok I ->
  wts isd isf st -> every not_while st -> vguard st -> every (anns_in A) st -> is_exp post ->
  exists e, vcgen T st post = Ok e /\ is_exp e /\
    forall s, env_ok s -> ev I e s = wp I isd k st (ev I post) s.
Proof. exact vcgen_is_semantics. Qed.
Print Assumptions C03_vcgen_is_semantics.

(** Conversely, whatever the generator accepts contains no loop and no annotation
    other than slicing annotations: nothing is silently skipped. *)
Theorem C03_no_loop_left : forall T A, (forall a, T a = Some DSlicingAnn -> A a = true) ->
  forall st post e, vcgen T st post = Ok e -> every not_while st /\ every (anns_in A) st.
Proof. exact vcgen_ok_clean. Qed.
Print Assumptions C03_no_loop_left.

(** A concrete context and program meeting the hypotheses. *)
Definition ex_tcx : tcx := fun f =>
  if is_dist f then Some DProcIntrin else if String.eqb f "slice_verify" then Some DSlicingAnn else Some DFunc.
Definition ex_ann (a : string) : bool := String.eqb a "slice_verify".
Definition ex_fun (a : string) : bool := String.eqb a "f".
Definition ex_x := mkid "x" 0 TBool.
Definition ex_y := mkid "y" 1 TEUReal.
Definition ex_prog : stmt := SSeq
  [ SAssign [ex_x] (ECall TBool "flip" [ELit TUReal (LFrac (1#2))]);
    SIf (EVar ex_x) [STick (EVar ex_y); SHavoc Down [ex_y]] [SAnn "slice_verify" [] (SAssert Down (EVar ex_y))];
    SVar ex_y (Some (ECall TEUReal "f" [EVar ex_x]));
    SDemonic [SCompare Up (EVar ex_y)] [SNegate Down; SNegate Up];
    SValidate Up; SAnn "slice_verify" [] (SAssume Up (EVar ex_y)) ].
Example C03_nonvacuous : tcx_ok ex_tcx is_dist ex_fun ex_ann /\
  wts is_dist ex_fun ex_prog /\ every not_while ex_prog /\ vguard ex_prog /\
  every (anns_in ex_ann) ex_prog /\ is_exp (EVar ex_y).
Proof.
  repeat split.
  - intros f H. unfold ex_tcx. now rewrite H.
  - intros f H1 H2. apply String.eqb_eq in H2. subst f. left. reflexivity.
  - intros a H. apply String.eqb_eq in H. subst a. reflexivity.
  - cbn. apply dr_flip; reflexivity.
Qed.
