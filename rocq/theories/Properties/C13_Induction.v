(** C13: Park and k-induction bound the loop they annotate. *)
From Coq Require Import Bool List String NArith QArith.
From Verif.Model Require Import Syntax Builder AstUtil ProofRules Dist VcGen.
From Verif.Spec Require Import Eur Sem Wp Frame Loops.
From Verif.Proofs Require Import WpLemmas DistProofs VcGenProofs LoopProofs OmegaProofs LoopVc.
Import ListNotations.

(** For every k >= 1, the encoding is below the loop's greatest fixpoint in a proc and above its
    least fixpoint in a coproc ([dle], [dfix]), if guard, invariant and post do not read the variables
    that the body changes but the encoding does not havoc (those declared inside of the body), and
    the body only reads them after their declaration.  The last four conditions hold after name
    resolution unless the body havocs a variable it does not assign: see the refutation below.
    [k] is the fixpoint of loops that remain inside of the body. *)
Theorem C13_induction_sound_partial : forall I isd isf k c body X, interp_ok I ->
  All (wts isd isf) body -> All (every not_negate) body -> forall d inv n, (1 <= n)%nat ->
  let V x := writes_block x body /\ ~ In x (mmod (mvc_stmt (SWhile c body) mvc0)) in
  unread V c -> scoped_block V body -> unread V inv -> blind V X ->
  forall s, env_ok s ->
  dle d (wp_block I isd k (transform_k_induction c body d n inv) X s) (dfix d (Phi I isd k c body X) s).
Proof. exact k_induction_sound. Qed.
Print Assumptions C13_induction_sound_partial.

(** The same for the expression that the condition generator produces for the encoding of a loop
    with a loop-free body. *)
Theorem C13_condition_sound_partial : forall T I isd isf A c body d n inv post k,
  tcx_ok T isd isf A -> interp_ok I -> A "error_msg"%string = true -> A "success_msg"%string = true ->
  is_guard c -> (All (wts isd isf) body /\ All (every not_while) body /\ vguard_block body /\ All (every (anns_in A)) body) ->
  All (every not_negate) body -> is_exp inv -> is_exp post -> (1 <= n)%nat ->
  let V x := writes_block x body /\ ~ In x (mmod (mvc_stmt (SWhile c body) mvc0)) in
  unread V c -> scoped_block V body -> unread V inv -> unread V post ->
  exists e, vcgen T (SSeq (transform_k_induction c body d n inv)) post = Ok e /\ is_exp e /\
    forall s, env_ok s -> dle d (ev I e s) (dfix d (Phi I isd k c body (ev I post)) s).
Proof. exact k_induction_vc. Qed.
Print Assumptions C13_condition_sound_partial.

(** Which blocks the two annotations produce. *)
Theorem C13_transforms : forall c body d inv t n,
  invariant_transform [inv] c body d = Ok (transform_k_induction c body d 1 inv) /\
  ((1 <= n)%N -> (n < 2 ^ 128)%N ->
   k_induction_transform [ELit t (LUInt n); inv] c body d = Ok (transform_k_induction c body d (N.to_nat n) inv)).
Proof. exact induction_transforms. Qed.
Print Assumptions C13_transforms.

(** A body that havocs a variable: the encoding with invariant 1 is 1, the loop's greatest fixpoint 0. *)
Theorem C13_havoc_refuted : exists c body inv b, invariant_transform [inv] c body Down = Ok b /\
  is_guard c /\ is_exp inv /\ (forall isd isf, All (wts isd isf) body) /\ All (every not_negate) body /\
  exists post, is_exp post /\ forall I isd k s, interp_ok I -> env_ok s -> s xb = VBool false ->
    wp_block I isd k b (ev I post) s = eone /\ gfp (Phi I isd k c body (ev I post)) s = ebot.
Proof. exact k_induction_havoc_refuted. Qed.
Print Assumptions C13_havoc_refuted.

(** A loop with a variable local to its body meets all the conditions:
    while go { var p = flip(1/2); if p { go = false } else { x = x + 1 } } with invariant x and post x *)
Definition c13_go := mkid "go" 0 TBool.
Definition c13_x := mkid "x" 1 TEUReal.
Definition c13_p := mkid "p" 2 TBool.
Definition c13_body : list stmt :=
  [ SVar c13_p (Some (ECall TBool "flip" [ELit TUReal (LFrac (1#2))]));
    SIf (EVar c13_p) [SAssign [c13_go] (ELit TBool (LBool false))]
      [SAssign [c13_x] (EBin TEUReal OAdd (EVar c13_x) (ECast TEUReal (ELit TUInt (LUInt 1%N))))] ].
Definition c13_ann (a : string) : bool := (String.eqb a "error_msg" || String.eqb a "success_msg")%bool.
Definition c13_tcx : tcx := fun f => if is_dist f then Some DProcIntrin else Some DSlicingAnn.
Example C13_nonvacuous :
  let V x := writes_block x c13_body /\ ~ In x (mmod (mvc_stmt (SWhile (EVar c13_go) c13_body) mvc0)) in
  tcx_ok c13_tcx is_dist (fun _ => false) c13_ann /\
  All (wts is_dist (fun _ => false)) c13_body /\ All (every not_while) c13_body /\ vguard_block c13_body /\
  All (every (anns_in c13_ann)) c13_body /\ All (every not_negate) c13_body /\ is_guard (EVar c13_go) /\ is_exp (EVar c13_x) /\
  unread V (EVar c13_go) /\ scoped_block V c13_body /\ unread V (EVar c13_x) /\ V c13_p.
Proof.
  cbv zeta. set (V x := writes_block x c13_body /\ ~ In x (mmod (mvc_stmt (SWhile (EVar c13_go) c13_body) mvc0))).
  assert (HV : forall x, V x -> x = c13_p).
  { intros x [H1 H2]. cbn in H1, H2.
    destruct H1 as [H1|[[[[H1|[]]|[]]|[[H1|[]]|[]]]|[]]]; auto; exfalso; apply H2; auto. }
  assert (U : forall x y, x <> c13_p -> fv y (EVar x) -> ~ V y).
  { intros x y Hx Hy HV'. cbn in Hy. subst y. apply Hx. now apply HV. }
  repeat split.
  - intros f H. unfold c13_tcx. now rewrite H.
  - intros f H1 H2. discriminate.
  - intros a H. unfold c13_ann in H. apply Bool.orb_prop in H. destruct H as [H|H]; apply String.eqb_eq in H; subst a; reflexivity.
  - cbn. apply dr_flip; reflexivity.
  - intros y Hy. apply (U c13_go y); auto. discriminate.
  - intros y Hy. cbn in Hy. tauto.
  - intros y Hy. cbn in Hy. intros [H Hn]. apply HV in H. now apply Hn.
  - intros y Hy. cbn in Hy. tauto.
  - intros y Hy. cbn in Hy. intros [H _]. apply HV in H. destruct Hy as [->| []]. discriminate H.
  - intros y Hy. apply (U c13_x y); auto. discriminate.
  - cbn. auto.
  - cbn. intros [H|[H|[]]]; discriminate H.
Qed.
