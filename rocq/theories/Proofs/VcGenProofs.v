(** The verification-condition generator computes the documented semantics. *)
From Coq Require Import Bool List String ZArith NArith QArith Reals Lia Lra.
From Verif.Model Require Import Syntax Builder Dist VcGen.
From Verif.Spec Require Import Eur Sem Wp.
From Verif.Proofs Require Import EurLemmas SemLemmas WpLemmas Vandermonde DistProofs.
Import ListNotations.

Lemma All_Forall {A} (P : A -> Prop) l : All P l <-> Forall P l.
Proof.
  induction l as [|a l IH]; simpl; split; intros H; auto.
  - destruct H. constructor; auto. now apply IH.
  - inversion H; subst. split; auto. now apply IH.
Qed.

Lemma in_range_correct f args t : dist_in_range f args t -> dist_correct f args t.
Proof.
  intros H; inversion H; subst.
  - now apply ber_correct.
  - now apply flip_correct.
  - now apply unif_correct.
  - apply hyper_correct; auto. unfold binomial in *. rewrite <- choose_C in H4 by lia.
    unfold n2r in H4. apply lt_IZR in H4. unfold choose, u128_bound. fold u128_limit. lia.
  - now apply binom_correct.
Qed.

(** The context knows the distributions [isd], the functions [isf] and the slicing
    annotations [A]. *)
Definition tcx_ok (T : tcx) (isd isf A : string -> bool) : Prop :=
  (forall f, isd f = true -> T f = Some DProcIntrin) /\
  (forall f, isd f = false -> isf f = true -> T f = Some DFunc \/ T f = Some DFuncIntrin) /\
  (forall a, A a = true -> T a = Some DSlicingAnn).

Lemma vcgen_block_eq T b post :
  (fix block (b : list stmt) (post : expr) {struct b} : res expr :=
     match b with [] => Ok post | s :: b' => let? p := block b' post in vcgen T s p end) b post = vcgen_block T b post.
Proof. induction b as [|s b IH]; simpl; auto. now rewrite IH. Qed.

Definition vc_correct T I isd k (st : stmt) : Prop :=
  forall post, is_exp post -> exists e, vcgen T st post = Ok e /\ is_exp e /\
    forall X, (forall s, env_ok s -> ev I post s = X s) ->
    forall s, env_ok s -> ev I e s = wp I isd k st X s.

Lemma generate_assign_correct T I isd isf A x e post : tcx_ok T isd isf A -> interp_ok I ->
  assign_ok isd isf x e -> is_exp post ->
  exists e', generate_assign T e [x] post = Ok e' /\ is_exp e' /\
    forall X, (forall s, env_ok s -> ev I post s = X s) ->
    forall s, env_ok s -> ev I e' s = assign_sem I isd [x] e X s.
Proof.
  intros (HT1 & HT2 & _) HI Ha Hp.
  assert (Plain : wt e = true -> ty_of e = ity x -> is_exp (ESubst x e post) /\
    forall X, (forall s, env_ok s -> ev I post s = X s) ->
    forall s, env_ok s -> ev I (ESubst x e post) s = X (upd s x (eval I e s))).
  { intros W Ty. split.
    - apply wte_subst; auto.
    - intros X HX s Hs. rewrite ev_subst. apply HX. apply upd_ok; auto. rewrite <- Ty. now apply eval_ty. }
  destruct e as [y|t f args|t c a b|t op a b|t op a|t a|op xs a|y b a|t l];
    try (destruct Ha as [W Ty]; eexists; split; [reflexivity|]; apply (Plain W Ty)).
  unfold assign_ok in Ha. unfold generate_assign. destruct (isd f) eqn:Ef.
  - rewrite (HT1 f Ef). unfold dist_vcgen. apply in_range_correct in Ha.
    destruct Ha as (d & E1 & E2 & E3 & E4). rewrite E1. cbn [rbind].
    destruct (dist_expectation_sound I d x post HI E2 E3 Hp) as (e' & E5 & E6 & E7).
    exists e'. split; auto. split; auto. intros X HX s Hs. rewrite E7 by auto.
    unfold assign_sem. rewrite Ef. rewrite E4 by auto.
    assert (G : forall d, dist_wt (ity x) d -> expected (den I s d) (fun v => ev I post (upd s x v)) =
                          expected (den I s d) (fun v => X (upd s x v))).
    { clear - HX Hs HI. induction 1 as [|[p v] d (_ & W & Ty) _ IH]; auto. cbn [den map expected fst snd] in *.
      cbn [fst snd] in W, Ty. unfold den in IH. rewrite IH. do 2 f_equal. apply HX. apply upd_ok; auto.
      rewrite <- Ty. now apply eval_ty. }
    now apply G.
  - destruct Ha as (Hf & W & Ty). assert (HP := Plain W Ty).
    destruct (HT2 f Ef Hf) as [-> | ->]; (eexists; split; [reflexivity|]; destruct HP as [HP1 HP2]; split; [exact HP1|];
      intros X HX s Hs; unfold assign_sem; rewrite Ef; now apply HP2).
Qed.

Lemma block_correct T I isd k b : Forall (vc_correct T I isd k) b ->
  forall post, is_exp post -> exists e, vcgen_block T b post = Ok e /\ is_exp e /\
    forall X, (forall s, env_ok s -> ev I post s = X s) ->
    forall s, env_ok s -> ev I e s = wp_block I isd k b X s.
Proof.
  induction 1 as [|st b Hst Hb IH]; intros post Hp.
  - exists post. split; [reflexivity|]. split; auto.
  - destruct (IH post Hp) as (p & E1 & E2 & E3). destruct (Hst p E2) as (e & E4 & E5 & E6).
    exists e. cbn [vcgen_block]. rewrite E1. cbn [rbind]. split; auto. split; auto.
    intros X HX s Hs. apply (E6 (wp_block I isd k b X)); auto.
Qed.

Lemma havoc_ext d xs X Y s : env_ok s -> (forall s, env_ok s -> X s = Y s) -> havoc_sem d xs X s = havoc_sem d xs Y s.
Proof.
  intros Hs H. unfold havoc_sem.
  assert (E : forall r, (exists s', havocked xs s s' /\ r = X s') <-> (exists s', havocked xs s s' /\ r = Y s')).
  { intros r; split; intros (s' & H1 & ->); exists s'; split; auto; [|symmetry]; apply H; eapply havocked_ok; eauto. }
  destruct d; [apply einf_ext | apply esup_ext]; auto.
Qed.

Lemma compare_validate d a b : validate_sem d (assume_sem d a b) =
  match d with Down => if eleb a b then etop else ebot | Up => if eleb b a then ebot else etop end.
Proof.
  destruct d; unfold validate_sem, assume_sem.
  - destruct (eleb a b) eqn:E.
    + now rewrite (proj2 (eleb_iff etop etop) (ele_refl _)).
    + destruct (eleb etop b) eqn:E'; auto. apply eleb_iff, top_le in E'. subst.
      apply eleb_false in E. destruct (E (ele_top a)).
  - destruct (eleb b a) eqn:E.
    + now rewrite (proj2 (eleb_iff ebot ebot) (ele_refl _)).
    + destruct (eleb b ebot) eqn:E'; auto. apply eleb_iff, le_ebot in E'. subst.
      apply eleb_false in E. destruct (E (ebot_le a)).
Qed.

Lemma vguard_block_eq b :
  (fix block b := match b with
    | [] => True
    | s :: b' => match s with SValidate d => opens_with_assume d b' | _ => vguard s end /\ block b'
    end) b = vguard_block b.
Proof. induction b as [|s b IH]; simpl; auto. Qed.

Lemma not_validate_vguard st : every not_validate st -> vguard st.
Proof.
  assert (HB : forall b, Forall (fun st => every not_validate st -> vguard st) b -> All (every not_validate) b -> vguard_block b).
  { induction 1 as [|s b Hs Hb IH]; cbn [All vguard_block]; auto. intros [H1 H2]. split; auto.
    destruct s; auto. destruct H1 as [[] _]. }
  induction st using stmt_rect'; cbn [every vguard not_validate]; rewrite ?vguard_block_eq; try tauto;
    intros K; repeat match goal with H : Forall _ _ |- _ => apply HB in H; [|tauto] end; tauto.
Qed.

(** The shape of the condition of an annotated assume. *)
Lemma assume_shape T st d e : strip_ann st = SAssume d e -> forall p q, vcgen T st p = Ok q ->
  q = EBin TEUReal (match d with Down => OImpl | Up => OCoImpl end) e p.
Proof.
  induction st using stmt_rect'; cbn [strip_ann]; intros E p q K; try discriminate.
  - inversion E; subst. cbn [vcgen] in K. congruence.
  - cbn [vcgen] in K. destruct (T n) as [[]|]; try discriminate. auto.
Qed.

Lemma wte_bin_inv op a b : is_exp (EBin TEUReal op a b) -> bin_ok TEUReal op TEUReal TEUReal = true -> is_exp a /\ is_exp b.
Proof.
  intros [W _] Ho. cbn [wt] in W. split_andb. destruct op; try discriminate Ho; cbn [bin_ok] in H0; split_andb;
    repeat match goal with H : ty_eqb _ _ = true |- _ => apply ty_eqb_eq in H end; split; split; auto.
Qed.

Lemma block_correct' T I isd k b : interp_ok I -> Forall (fun st => vguard st -> vc_correct T I isd k st) b -> vguard_block b ->
  forall post, is_exp post -> exists e, vcgen_block T b post = Ok e /\ is_exp e /\
    forall X, (forall s, env_ok s -> ev I post s = X s) ->
    forall s, env_ok s -> ev I e s = wp_block I isd k b X s.
Proof.
  intros HI. induction 1 as [|st b Hst Hb IH]; intros HG post Hp.
  - exists post. split; [reflexivity|]. split; auto.
  - cbn [vguard_block] in HG. destruct HG as [HG1 HG2].
    destruct (IH HG2 post Hp) as (p & E1 & E2 & E3). cbn [vcgen_block]. rewrite E1. cbn [rbind].
    assert (Hv : vguard st \/ exists d, st = SValidate d) by (destruct st; eauto).
    destruct Hv as [Hv|[d ->]].
    + destruct (Hst Hv p E2) as (e & E4 & E5 & E6).
      exists e. split; auto. split; auto. intros X HX s Hs. apply (E6 (wp_block I isd k b X)); auto.
    + destruct b as [|s' b']; [destruct HG1|]. cbn [opens_with_assume] in HG1.
      destruct (strip_ann s') eqn:Es; try contradiction. subst d0.
      cbn [vcgen_block] in E1. destruct (vcgen_block T b' post) as [p'| |]; try discriminate. cbn [rbind] in E1.
      pose proof (assume_shape T s' d e Es p' p E1) as Ep. subst p.
      apply wte_bin_inv in E2; [|destruct d; reflexivity]. destruct E2 as [We Wp].
      exists (EBin TEUReal (match d with Down => OCompare | Up => OCoCompare end) e p').
      split; [destruct d; reflexivity|]. split; [destruct d; apply wte_bin; auto|].
      intros X HX s Hs. unfold wp_block in *. cbn [fold_right wp] in *.
      rewrite <- (E3 X HX s Hs). destruct d; rewrite !ev_bin by auto; cbn [eval_bin].
      * symmetry. exact (compare_validate Down (ev I e s) (ev I p' s)).
      * symmetry. exact (compare_validate Up (ev I e s) (ev I p' s)).
Qed.

Theorem vcgen_correct T I isd isf A k : tcx_ok T isd isf A -> interp_ok I ->
  forall st, wts isd isf st -> every not_while st -> vguard st -> every (anns_in A) st ->
  vc_correct T I isd k st.
Proof.
  intros HT HI. pose proof HT as (HT1 & HT2 & HT3).
  assert (Hblocks : forall b, Forall (fun st => wts isd isf st -> every not_while st -> vguard st ->
      every (anns_in A) st -> vc_correct T I isd k st) b ->
      All (wts isd isf) b -> All (every not_while) b -> vguard_block b -> All (every (anns_in A)) b ->
      forall post, is_exp post -> exists e, vcgen_block T b post = Ok e /\ is_exp e /\
      forall X, (forall s, env_ok s -> ev I post s = X s) ->
      forall s, env_ok s -> ev I e s = wp_block I isd k b X s).
  { intros b H H1 H2 H3 H4. apply block_correct'; auto. rewrite All_Forall in *. rewrite Forall_forall in *. intros st Hin. auto. }
  assert (Hpair : forall op f a b,
     (forall x y, eval_bin I TEUReal op (VEur x) (VEur y) = VEur (f x y)) -> bin_ok TEUReal op TEUReal TEUReal = true ->
      (forall post, is_exp post -> exists e, vcgen_block T a post = Ok e /\ is_exp e /\
      forall X, (forall s, env_ok s -> ev I post s = X s) ->
      forall s, env_ok s -> ev I e s = wp_block I isd k a X s) ->
      (forall post, is_exp post -> exists e, vcgen_block T b post = Ok e /\ is_exp e /\
      forall X, (forall s, env_ok s -> ev I post s = X s) ->
      forall s, env_ok s -> ev I e s = wp_block I isd k b X s) ->
      forall post, is_exp post -> exists e,
       (let? p1 := vcgen_block T a post in let? p2 := vcgen_block T b post in Ok (EBin TEUReal op p1 p2)) = Ok e /\ is_exp e /\
      forall X, (forall s, env_ok s -> ev I post s = X s) ->
      forall s, env_ok s -> ev I e s = f (wp_block I isd k a X s) (wp_block I isd k b X s)).
  { intros op f a b Hf Hok Ha Hb post Hp.
    destruct (Ha post Hp) as (pa & E1 & W1 & M1), (Hb post Hp) as (pb & E2 & W2 & M2).
    rewrite E1, E2. cbn [rbind]. eexists; split; [reflexivity|]. split; [apply wte_bin; auto|].
    intros X HX s Hs. rewrite ev_bin by auto. rewrite Hf. rewrite (M1 X HX s Hs), (M2 X HX s Hs). reflexivity. }
  induction st using stmt_rect'; intros Hw Hnw Hnv Ha; cbn [wts every vguard] in Hw, Hnw, Hnv, Ha; rewrite ?vguard_block_eq in Hnv; unfold vc_correct; intros post Hp;
    cbn [vcgen]; rewrite ?vcgen_block_eq; cbn [wp].
  - apply Hblocks; tauto.
  - destruct i as [e|].
    + eapply generate_assign_correct; eauto.
    + exists post. split; [reflexivity|]. split; auto.
  - destruct xs as [|x [|y ys]]; try contradiction. eapply generate_assign_correct; eauto.
  - eexists; split; [reflexivity|]. split; [destruct d; apply wte_quant; auto|].
    intros X HX s Hs. rewrite <- (havoc_ext d xs (ev I post) X s Hs HX).
    unfold havoc_sem, b_quant. destruct d; [rewrite ev_quant_inf by auto | rewrite ev_quant_sup by auto];
      rewrite map_map; cbn [qname]; rewrite map_id; reflexivity.
  - eexists; split; [reflexivity|]. split; [destruct d; apply wte_bin; auto|].
    intros X HX s Hs. destruct d; rewrite ev_bin by auto; cbn [eval_bin]; now rewrite HX.
  - eexists; split; [reflexivity|]. split; [destruct d; apply wte_bin; auto|].
    intros X HX s Hs. destruct d; rewrite ev_bin by auto; cbn [eval_bin]; unfold assume_sem; now rewrite HX.
  - eexists; split; [reflexivity|]. split; [destruct d; apply wte_bin; auto|].
    intros X HX s Hs. rewrite compare_validate. destruct d; rewrite ev_bin by auto; cbn [eval_bin]; now rewrite HX.
  - eexists; split; [reflexivity|]. split; [destruct d; apply wte_un; auto|].
    intros X HX s Hs. destruct d; rewrite ev_un by auto; cbn [eval_un]; unfold negate_sem; now rewrite HX.
  - destruct Hnv.
  - eexists; split; [reflexivity|]. split; [apply wte_bin; auto|].
    intros X HX s Hs. rewrite ev_add by auto. rewrite eadd_comm. now rewrite HX.
  - eexists; split; [reflexivity|]. split; [apply wte_bin; auto|].
    intros X HX s Hs. rewrite ev_mul by auto. rewrite emul_comm. now rewrite HX.
  - apply Hpair; auto; apply Hblocks; tauto.
  - apply Hpair; auto; apply Hblocks; tauto.
  - apply Hpair; auto; apply Hblocks; tauto.
  - destruct (Hblocks a) with (post := post) as (pa & E1 & W1 & M1); try tauto.
    destruct (Hblocks b) with (post := post) as (pb & E2 & W2 & M2); try tauto.
    rewrite E1, E2. cbn [rbind]. eexists; split; [reflexivity|]. split; [apply wte_ite; tauto|].
    intros X HX s Hs. rewrite ev_ite by tauto. rewrite (M1 X HX s Hs), (M2 X HX s Hs). reflexivity.
  - destruct Hnw as [[] _].
  - destruct Ha as [Ha1 Ha2]. simpl in Ha1. rewrite (HT3 _ Ha1). apply IHst; tauto.
  - exists post. split; [reflexivity|]. split; auto.
Qed.
