(** validate / covalidate. *)
From Coq Require Import Bool List String ZArith NArith QArith Reals Qreals Lia Lra.
From Verif.Model Require Import Syntax Builder Dist VcGen.
From Verif.Spec Require Import Eur Sem Wp.
From Verif.Proofs Require Import EurLemmas SemLemmas WpLemmas DistProofs VcGenProofs MonoProofs.
Import ListNotations.

(** [validate; assume f] and [compare f] have the documented meaning. *)
Lemma validate_assume T I d f post : interp_ok I -> is_exp f -> is_exp post ->
  exists e, vcgen_block T [SValidate d; SAssume d f] post = Ok e /\ is_exp e /\
  vcgen_block T [SCompare d f] post = Ok e /\
  forall s, env_ok s -> ev I e s = validate_sem d (assume_sem d (ev I f s) (ev I post s)).
Proof.
  intros HI Hf Hp. cbn [vcgen_block rbind vcgen vcgen_validate].
  destruct d; cbn [vcgen_validate]; (eexists; split; [reflexivity|]; split; [apply wte_bin; auto|]; split; [reflexivity|]);
    intros s Hs; rewrite compare_validate; rewrite ev_bin by auto; reflexivity.
Qed.

Definition impl_like (d : direction) (e : expr) : bool :=
  match d, e with Down, EBin _ OImpl _ _ => true | Up, EBin _ OCoImpl _ _ => true | _, _ => false end.

(** Otherwise the code emits a double negation of the wrong kind: right exactly
    on the two extreme values. *)
Lemma validate_iff I d post s : interp_ok I -> is_exp post -> impl_like d post = false -> env_ok s ->
  (ev I (vcgen_validate d post) s = validate_sem d (ev I post s) <-> ev I post s = ebot \/ ev I post s = etop).
Proof.
  intros HI Hp Hi Hs.
  assert (E : vcgen_validate d post = match d with Down => EUn TEUReal ONot (EUn TEUReal ONot post)
                                      | Up => EUn TEUReal ONon (EUn TEUReal ONon post) end).
  { destruct d; destruct post; try reflexivity; destruct op; try reflexivity; discriminate. }
  rewrite E. clear E Hi.
  assert (W1 : wte (EUn TEUReal ONot post)) by (apply wte_un; auto).
  assert (W2 : wte (EUn TEUReal ONon post)) by (apply wte_un; auto).
  destruct d; rewrite !ev_un by auto; cbn [eval_un validate_sem]; set (v := ev I post s).
  - destruct (eleb v ebot) eqn:E1.
    + apply eleb_iff, le_ebot in E1. rewrite E1. cbn. tauto.
    + rewrite (proj2 (eleb_iff ebot ebot) (ele_refl _)).
      destruct (eleb etop v) eqn:E2; fold etop.
      * apply eleb_iff, top_le in E2. rewrite E2. tauto.
      * split; [intros H; discriminate H|]. intros [H|H]; rewrite H in *.
        -- rewrite (proj2 (eleb_iff ebot ebot) (ele_refl _)) in E1. discriminate.
        -- rewrite (proj2 (eleb_iff etop etop) (ele_refl _)) in E2. discriminate.
  - destruct (eleb etop v) eqn:E1.
    + apply eleb_iff, top_le in E1. rewrite E1. cbn. tauto.
    + rewrite (proj2 (eleb_iff etop etop) (ele_refl _)).
      destruct (eleb v ebot) eqn:E2.
      * apply eleb_iff, le_ebot in E2. rewrite E2. tauto.
      * split; [intros H; discriminate H|]. intros [H|H]; rewrite H in *.
        -- rewrite (proj2 (eleb_iff ebot ebot) (ele_refl _)) in E2. discriminate.
        -- rewrite (proj2 (eleb_iff etop etop) (ele_refl _)) in E1. discriminate.
Qed.

Definition one_e : expr := ECast TEUReal (b_uint 1).
Lemma one_e_ok : is_exp one_e.
Proof. split; reflexivity. Qed.
Lemma ev_one I s : ev I one_e s = eone.
Proof. reflexivity. Qed.

Lemma eone_mid : eleb eone ebot = false /\ eleb etop eone = false.
Proof.
  split; [|reflexivity]. apply eleb_false. unfold eone, ebot. rewrite ele_fin by lra. lra.
Qed.

Lemma validate_refuted : exists T post, is_exp post /\
  forall I s, interp_ok I -> env_ok s ->
   (exists e, vcgen T (SValidate Down) post = Ok e /\ ev I e s = etop /\ validate_sem Down (ev I post s) = ebot) /\
   (exists e, vcgen T (SValidate Up) post = Ok e /\ ev I e s = ebot /\ validate_sem Up (ev I post s) = etop).
Proof.
  exists (fun _ => None), one_e. split; [apply one_e_ok|]. intros I s HI Hs. destruct eone_mid as [M1 M2].
  assert (W1 : wte (EUn TEUReal ONot one_e)) by (apply wte_un; [reflexivity | apply one_e_ok]).
  assert (W2 : wte (EUn TEUReal ONon one_e)) by (apply wte_un; [reflexivity | apply one_e_ok]).
  split; [exists (EUn TEUReal ONot (EUn TEUReal ONot one_e)) | exists (EUn TEUReal ONon (EUn TEUReal ONon one_e))];
    (split; [reflexivity|]); rewrite !ev_un by (auto; apply one_e_ok); rewrite ev_one; cbn [eval_un validate_sem];
    rewrite ?M1, ?M2.
  - rewrite (proj2 (eleb_iff ebot ebot) (ele_refl _)). auto.
  - rewrite (proj2 (eleb_iff etop etop) (ele_refl _)). auto.
Qed.

(** The generated condition is not even a function of the meaning of the post. *)
Lemma validate_not_extensional : exists T p q, is_exp p /\ is_exp q /\
  forall I s, interp_ok I -> env_ok s -> ev I p s = ev I q s /\
   exists e f, vcgen T (SValidate Down) p = Ok e /\ vcgen T (SValidate Down) q = Ok f /\ ev I e s <> ev I f s.
Proof.
  exists (fun _ => None), one_e, (EBin TEUReal OImpl b_inf one_e).
  assert (W : is_exp (EBin TEUReal OImpl b_inf one_e)) by (split; reflexivity).
  split; [apply one_e_ok|]. split; [exact W|]. intros I s HI Hs. destruct eone_mid as [M1 M2]. split.
  - rewrite ev_bin by (auto; try apply one_e_ok; split; reflexivity). cbn [eval_bin].
    rewrite ev_one. change (ev I b_inf s) with etop. now rewrite M2.
  - exists (EUn TEUReal ONot (EUn TEUReal ONot one_e)), (EBin TEUReal OCompare b_inf one_e).
    split; [reflexivity|]. split; [reflexivity|].
    rewrite (ev_bin I HI s Hs OCompare) by (auto; try apply one_e_ok; split; reflexivity). cbn [eval_bin].
    rewrite ev_one. change (ev I b_inf s) with etop. rewrite M2.
    assert (W1 : wte (EUn TEUReal ONot one_e)) by (apply wte_un; [reflexivity | apply one_e_ok]).
    rewrite !ev_un by (auto; apply one_e_ok). cbn [eval_un]. rewrite ev_one, M1.
    rewrite (proj2 (eleb_iff ebot ebot) (ele_refl _)). discriminate.
Qed.

(** Anything the generator accepts contains no loop and no proof-rule annotation. *)
Lemma vcgen_ok_clean T A : (forall a, T a = Some DSlicingAnn -> A a = true) ->
  forall st post e, vcgen T st post = Ok e -> every not_while st /\ every (anns_in A) st.
Proof.
  intros HA.
  assert (HB : forall b, Forall (fun st => forall post e, vcgen T st post = Ok e -> every not_while st /\ every (anns_in A) st) b ->
    forall post e, vcgen_block T b post = Ok e -> All (every not_while) b /\ All (every (anns_in A)) b).
  { induction 1 as [|s b Hs Hb IH]; intros post e H; cbn [vcgen_block] in H; [cbn; auto|].
    apply rbind_ok in H. destruct H as (p & E1 & E2). apply IH in E1. apply Hs in E2. cbn [All]. tauto. }
  induction st using stmt_rect'; intros q0 r0 K; cbn [vcgen] in K; rewrite ?vcgen_block_eq in K; cbn [every not_while anns_in]; try solve [repeat split].
  - apply HB in K; auto. tauto.
  - destruct (vcgen_block T a q0) as [p1| |] eqn:E1; try discriminate. cbn [rbind] in K.
    destruct (vcgen_block T b q0) as [p2| |] eqn:E2; try discriminate. apply HB in E1, E2; auto. tauto.
  - destruct (vcgen_block T a q0) as [p1| |] eqn:E1; try discriminate. cbn [rbind] in K.
    destruct (vcgen_block T b q0) as [p2| |] eqn:E2; try discriminate. apply HB in E1, E2; auto. tauto.
  - destruct (vcgen_block T a q0) as [p1| |] eqn:E1; try discriminate. cbn [rbind] in K.
    destruct (vcgen_block T b q0) as [p2| |] eqn:E2; try discriminate. apply HB in E1, E2; auto. tauto.
  - destruct (vcgen_block T a q0) as [p1| |] eqn:E1; try discriminate. cbn [rbind] in K.
    destruct (vcgen_block T b q0) as [p2| |] eqn:E2; try discriminate. apply HB in E1, E2; auto. tauto.
  - discriminate.
  - destruct (T n) as [[]|] eqn:E; try discriminate. apply IHst in K. apply HA in E. tauto.
Qed.

(** Monotonicity of the generated conditions themselves. *)
Lemma vcgen_mono T I isd isf A st p q : tcx_ok T isd isf A -> interp_ok I ->
  wts isd isf st -> every not_while st -> vguard st -> every not_negate st -> every (anns_in A) st ->
  is_exp p -> is_exp q -> exp_le (ev I p) (ev I q) ->
  exists e f, vcgen T st p = Ok e /\ vcgen T st q = Ok f /\ exp_le (ev I e) (ev I f).
Proof.
  intros HT HI H1 H2 H3 H4 H5 Hp Hq H.
  destruct (vcgen_correct T I isd isf A Least HT HI st H1 H2 H3 H5 p Hp) as (e & E1 & _ & E3).
  destruct (vcgen_correct T I isd isf A Least HT HI st H1 H2 H3 H5 q Hq) as (f & F1 & _ & F3).
  exists e, f. split; [exact E1|]. split; [exact F1|]. intros s Hs.
  rewrite (E3 (ev I p)), (F3 (ev I q)) by auto. revert s Hs. apply (wp_mono I isd isf Least st HI H1 H4). exact H.
Qed.

(** [vcgen_correct] with the post given as an expression. *)
Lemma vcgen_is_semantics T I isd isf A k st post :
  tcx_ok T isd isf A -> interp_ok I ->
  wts isd isf st -> every not_while st -> vguard st -> every (anns_in A) st -> is_exp post ->
  exists e, vcgen T st post = Ok e /\ is_exp e /\
    forall s, env_ok s -> ev I e s = wp I isd k st (ev I post) s.
Proof.
  intros HT HI H1 H2 H3 H4 Hp.
  destruct (vcgen_correct T I isd isf A k HT HI st H1 H2 H3 H4 post Hp) as (e & E1 & E2 & E3).
  exists e. split; [exact E1|]. split; [exact E2|]. apply E3. reflexivity.
Qed.
