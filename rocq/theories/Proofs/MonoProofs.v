(** Monotonicity of the statement semantics and the syntactic check. *)
From Coq Require Import Bool List String ZArith NArith QArith Reals Lia Lra.
From Verif.Model Require Import Syntax Builder Dist VcGen Negations.
From Verif.Spec Require Import Eur Sem Wp.
From Verif.Proofs Require Import EurLemmas SemLemmas WpLemmas DistProofs VcGenProofs.
Import ListNotations.

Lemma expected_mono d f g : (forall p v, In (p, v) d -> ele (f v) (g v)) -> ele (expected d f) (expected d g).
Proof.
  induction d as [|[p v] d IH]; intros H; cbn [expected]; [apply ele_refl|].
  apply eadd_mono.
  - apply emul_mono; [apply ele_refl|]. eapply H; left; reflexivity.
  - apply IH. intros q w Hin. eapply H; right; eauto.
Qed.

Lemma assume_mono d a b c : ele b c -> ele (assume_sem d a b) (assume_sem d a c).
Proof.
  intros H. destruct d; unfold assume_sem.
  - destruct (eleb a b) eqn:E1, (eleb a c) eqn:E2; auto using ele_top, ele_refl.
    apply eleb_iff in E1. apply eleb_false in E2. destruct E2. exact (ele_trans _ b _ E1 H).
  - destruct (eleb b a) eqn:E1, (eleb c a) eqn:E2; auto using ebot_le, ele_refl.
    apply eleb_false in E1. apply eleb_iff in E2. destruct E1. exact (ele_trans _ c _ H E2).
Qed.
Lemma validate_mono d b c : ele b c -> ele (validate_sem d b) (validate_sem d c).
Proof.
  intros H. destruct d; unfold validate_sem.
  - destruct (eleb etop b) eqn:E1, (eleb etop c) eqn:E2; auto using ele_top, ele_refl, ebot_le.
    apply eleb_iff in E1. apply eleb_false in E2. destruct E2. exact (ele_trans _ b _ E1 H).
  - destruct (eleb b ebot) eqn:E1, (eleb c ebot) eqn:E2; auto using ebot_le, ele_refl, ele_top.
    apply eleb_false in E1. apply eleb_iff in E2. destruct E1. exact (ele_trans _ c _ H E2).
Qed.
Lemma negate_anti d b c : ele b c -> ele (negate_sem d c) (negate_sem d b).
Proof.
  intros H. destruct d; unfold negate_sem.
  - destruct (eleb b ebot) eqn:E1, (eleb c ebot) eqn:E2; auto using ele_top, ele_refl, ebot_le.
    apply eleb_false in E1. apply eleb_iff in E2. destruct E1. exact (ele_trans _ c _ H E2).
  - destruct (eleb etop b) eqn:E1, (eleb etop c) eqn:E2; auto using ebot_le, ele_refl, ele_top.
    apply eleb_iff in E1. apply eleb_false in E2. destruct E2. exact (ele_trans _ b _ E1 H).
Qed.
Lemma havoc_mono d xs X Y : exp_le X Y -> exp_le (havoc_sem d xs X) (havoc_sem d xs Y).
Proof.
  intros H s Hs. unfold havoc_sem. destruct d.
  - apply einf_glb. intros r (s' & H' & ->). apply ele_trans with (X s').
    + apply einf_lb. eauto.
    + apply H. eapply havocked_ok; eauto.
  - apply esup_lub. intros r (s' & H' & ->). apply ele_trans with (Y s').
    + apply H. eapply havocked_ok; eauto.
    + apply esup_ub. eauto.
Qed.

Lemma eval_ok_upd I s x e : interp_ok I -> env_ok s -> wt e = true -> ty_of e = ity x -> env_ok (upd s x (eval I e s)).
Proof. intros. apply upd_ok; auto. rewrite <- H2. now apply eval_ty. Qed.

(** Sampling only reaches well-typed states. *)
Lemma assign_mono I isd isf x e X Y : interp_ok I -> assign_ok isd isf x e -> exp_le X Y ->
  exp_le (assign_sem I isd [x] e X) (assign_sem I isd [x] e Y).
Proof.
  intros HI Ha H s Hs.
  destruct e as [y|t f args|t c a b|t op a b|t op a|t a|op xs a|y b a|t l];
    try (destruct Ha as [W Ty]; apply H; now apply eval_ok_upd).
  unfold assign_ok in Ha. unfold assign_sem. destruct (isd f).
  - apply in_range_correct in Ha. destruct Ha as (d & _ & _ & Wd & E). rewrite E by auto.
    apply expected_mono. intros p v Hin. apply H. apply upd_ok; auto.
    apply in_map_iff in Hin. destruct Hin as ([p' v'] & Epv & Hin). inversion Epv; subst.
    unfold dist_wt in Wd. rewrite Forall_forall in Wd. destruct (Wd _ Hin) as (_ & W & Ty). cbn [snd] in *.
    rewrite <- Ty. now apply eval_ty.
  - destruct Ha as (_ & W & Ty). apply H. apply eval_ok_upd; auto.
Qed.

Lemma block_mono I isd k b : Forall (fun st => mono (wp I isd k st)) b -> mono (wp_block I isd k b).
Proof.
  induction 1 as [|st b Hst Hb IH]; intros X Y H; [exact H|]. cbn [wp_block fold_right]. apply Hst. apply IH, H.
Qed.

Lemma loop_mono I isd k c b : mono (wp_block I isd k b) -> forall X, mono (fun Y s => if holds I c s then wp_block I isd k b Y s else X s).
Proof. intros H X Y Z HYZ s Hs. destruct (holds I c s); [apply H; auto | apply ele_refl]. Qed.

Lemma loop_post_mono I isd k c b X Y : exp_le X Y ->
  forall Z, exp_le (fun s => if holds I c s then wp_block I isd k b Z s else X s)
                   (fun s => if holds I c s then wp_block I isd k b Z s else Y s).
Proof. intros H Z s Hs. destruct (holds I c s); [apply ele_refl | apply H; auto]. Qed.

(** ** Polarity *)
Definition anti (F : exp -> exp) : Prop := forall X Y, exp_le X Y -> exp_le (F Y) (F X).
Definition pol (b : bool) (F : exp -> exp) : Prop := if b then anti F else mono F.

(** Number (parity) of negations executed by a statement; branching statements are
    required to be negation-neutral below. *)
Fixpoint flips (st : stmt) : bool :=
  match st with
  | SNegate _ => true
  | SSeq b => fold_right (fun s acc => xorb (flips s) acc) false b
  | SAnn _ _ s => flips s
  | _ => false
  end.
Definition flips_block (b : list stmt) : bool := fold_right (fun s acc => xorb (flips s) acc) false b.

(** Every branch and loop body executes an even number of negations. *)
Definition neutral (st : stmt) : Prop :=
  match st with
  | SDemonic a b | SAngelic a b | SAdditive a b | SIf _ a b => flips_block a = false /\ flips_block b = false
  | SWhile _ b => flips_block b = false
  | _ => True
  end.

Lemma block_pol I isd k b : Forall (fun st => pol (flips st) (wp I isd k st)) b -> pol (flips_block b) (wp_block I isd k b).
Proof.
  induction 1 as [|st b Hst Hb IH]; [intros X Y H; exact H|].
  cbn [flips_block fold_right]. fold (flips_block b). 
  destruct (flips st), (flips_block b); cbn [xorb pol] in *; intros X Y H; cbn [wp_block fold_right]; apply Hst; apply IH, H.
Qed.

Theorem wp_pol I isd isf k : interp_ok I -> forall st, wts isd isf st -> every neutral st -> pol (flips st) (wp I isd k st).
Proof.
  intros HI.
  assert (HB : forall b, Forall (fun st => wts isd isf st -> every neutral st -> pol (flips st) (wp I isd k st)) b ->
     All (wts isd isf) b -> All (every neutral) b -> pol (flips_block b) (wp_block I isd k b)).
  { intros b H H1 H2. apply block_pol. rewrite All_Forall in *. rewrite Forall_forall in *. auto. }
  assert (HB0 : forall b, Forall (fun st => wts isd isf st -> every neutral st -> pol (flips st) (wp I isd k st)) b ->
     All (wts isd isf) b -> All (every neutral) b -> flips_block b = false -> mono (wp_block I isd k b)).
  { intros b H H1 H2 H3. specialize (HB b H H1 H2). rewrite H3 in HB. exact HB. }
  induction st using stmt_rect'; intros Hw Hn; cbn [wts every] in Hw, Hn; cbn [flips]; try (change (mono (wp I isd k ?s)));
   cbn [pol].
  - apply HB; tauto.
  - intros X Y HXY. cbn [wp]. destruct i as [e|]; [|exact HXY]. eapply assign_mono; eauto.
  - intros X Y HXY. cbn [wp]. destruct xs as [|x [|y ys]]; try contradiction. eapply assign_mono; eauto.
  - intros X Y HXY. cbn [wp]. now apply havoc_mono.
  - intros X Y HXY s Hs. cbn [wp]. destruct d; [apply emin_mono | apply emax_mono]; auto using ele_refl.
  - intros X Y HXY s Hs. cbn [wp]. apply assume_mono; auto.
  - intros X Y HXY s Hs. cbn [wp]. apply validate_mono, assume_mono; auto.
  - intros X Y HXY s Hs. cbn [wp]. apply negate_anti; auto.
  - intros X Y HXY s Hs. cbn [wp]. apply validate_mono; auto.
  - intros X Y HXY s Hs. cbn [wp]. apply eadd_mono; auto using ele_refl.
  - intros X Y HXY s Hs. cbn [wp]. apply emul_mono; auto using ele_refl.
  - intros X Y HXY s Hs. cbn [wp]. destruct Hn as [[N1 N2] [Hn1 Hn2]], Hw as [Hw1 Hw2]. apply emin_mono; [apply (HB0 a) | apply (HB0 b)]; auto.
  - intros X Y HXY s Hs. cbn [wp]. destruct Hn as [[N1 N2] [Hn1 Hn2]], Hw as [Hw1 Hw2]. apply emax_mono; [apply (HB0 a) | apply (HB0 b)]; auto.
  - intros X Y HXY s Hs. cbn [wp]. destruct Hn as [[N1 N2] [Hn1 Hn2]], Hw as [Hw1 Hw2]. apply eadd_mono; [apply (HB0 a) | apply (HB0 b)]; auto.
  - intros X Y HXY s Hs. cbn [wp]. destruct Hn as [[N1 N2] [Hn1 Hn2]], Hw as [_ [Hw1 Hw2]].
    destruct (holds I c s); [apply (HB0 a) | apply (HB0 b)]; auto.
  - intros X Y HXY. cbn [wp]. destruct k; [apply lfp_mono | apply gfp_mono]; intros Z; apply loop_post_mono; auto.
  - cbn [wp]. apply IHst; tauto.
  - intros X Y HXY. exact HXY.
Qed.

Lemma no_negate_neutral st : every not_negate st -> every neutral st /\ flips st = false.
Proof.
  assert (HB : forall b, Forall (fun st => every not_negate st -> every neutral st /\ flips st = false) b ->
    All (every not_negate) b -> All (every neutral) b /\ flips_block b = false).
  { induction 1 as [|s b Hs Hb IH]; [simpl; auto|]. intros [H1 H2]. destruct (Hs H1) as [A1 A2], (IH H2) as [B1 B2].
    cbn [All flips_block fold_right]. fold (flips_block b). rewrite A2, B2. auto. }
  induction st using stmt_rect'; cbn [every flips neutral not_negate]; intros Hn; auto; try tauto.
  1:{ destruct Hn as [_ Hn]. destruct (HB b H Hn). auto. }
  all: destruct Hn as [_ Hn]; try (destruct Hn as [Ha Hb]; destruct (HB a), (HB b)); try (destruct (HB b)); auto; repeat split; auto; tauto.
Qed.

Theorem wp_mono I isd isf k st : interp_ok I -> wts isd isf st -> every not_negate st -> mono (wp I isd k st).
Proof.
  intros HI Hw Hn. destruct (no_negate_neutral st Hn) as [H1 H2].
  pose proof (wp_pol I isd isf k HI st Hw H1) as H. rewrite H2 in H. exact H.
Qed.

Lemma wp_block_mono I isd isf k b : interp_ok I -> All (wts isd isf) b -> All (every not_negate) b -> mono (wp_block I isd k b).
Proof.
  intros HI Hw Hn. apply block_mono. rewrite All_Forall in *. rewrite Forall_forall in *. intros st Hin.
  eapply wp_mono; eauto.
Qed.

(** ** The check *)
Lemma mono_visit_stmts_eq cur b :
  (fix stmts (cur : direction) (b : list stmt) {struct b} : res direction :=
    match b with [] => Ok cur | s :: b' => let? d := mono_visit cur s in stmts d b' end) cur b = mono_visit_block cur b.
Proof. revert cur. induction b as [|s b IH]; reflexivity. Qed.

Definition tog (b : bool) (d : direction) : direction := if b then toggle d else d.
Lemma tog_tog a b d : tog a (tog b d) = tog (xorb b a) d.
Proof. destruct a, b, d; reflexivity. Qed.

(** On negation-neutral programs the direction after an accepted statement tells
    the number of negations. *)
Lemma mono_visit_flips st : every neutral st -> forall d d', mono_visit d st = Ok d' -> d' = tog (flips st) d.
Proof.
  assert (HB : forall b, Forall (fun st => every neutral st -> forall d d', mono_visit d st = Ok d' -> d' = tog (flips st) d) b ->
    All (every neutral) b -> forall d d', mono_visit_block d b = Ok d' -> d' = tog (flips_block b) d).
  { induction 1 as [|s b Hs Hb IH]; intros Hn d d' H; cbn [mono_visit_block] in H; [inversion H; auto|].
    destruct Hn as [N1 N2]. apply rbind_ok in H. destruct H as (d1 & E1 & E2). apply Hs in E1; auto. apply IH in E2; auto.
    subst. rewrite tog_tog. cbn [flips_block fold_right]. fold (flips_block b). reflexivity. }
  induction st using stmt_rect'; cbn [every neutral]; intros Hn dd dd' Hv; cbn [mono_visit] in Hv; cbn [flips];
    rewrite ?mono_visit_stmts_eq in Hv; try (inversion Hv; subst; reflexivity).
  - apply HB in Hv; tauto.
  - destruct d, dd; cbn in Hv; inversion Hv; reflexivity.
  - apply rbind_ok in Hv. destruct Hv as (d1 & E1 & E2). rewrite mono_visit_stmts_eq in E2.
    destruct Hn as [[F1 F2] [N1 N2]]. apply HB in E1; auto. apply HB in E2; auto. subst. now rewrite F1, F2.
  - apply rbind_ok in Hv. destruct Hv as (d1 & E1 & E2). rewrite mono_visit_stmts_eq in E2.
    destruct Hn as [[F1 F2] [N1 N2]]. apply HB in E1; auto. apply HB in E2; auto. subst. now rewrite F1, F2.
  - apply rbind_ok in Hv. destruct Hv as (d1 & E1 & E2). rewrite mono_visit_stmts_eq in E2.
    destruct Hn as [[F1 F2] [N1 N2]]. apply HB in E1; auto. apply HB in E2; auto. subst. now rewrite F1, F2.
  - apply rbind_ok in Hv. destruct Hv as (d1 & E1 & E2). rewrite mono_visit_stmts_eq in E2.
    destruct Hn as [[F1 F2] [N1 N2]]. apply HB in E1; auto. apply HB in E2; auto. subst. now rewrite F1, F2.
  - destruct Hn as [F1 N1]. apply HB in Hv; auto. now rewrite F1 in Hv.
  - apply IHst in Hv; tauto.
Qed.

(** A body on which the check ends in the direction it started with is monotone. *)
Theorem mono_check_sound I isd isf k d body : interp_ok I -> All (wts isd isf) body -> All (every neutral) body ->
  mono_visit_block d body = Ok d -> mono (wp_block I isd k body).
Proof.
  intros HI Hw Hn Hv.
  assert (H : pol (flips_block body) (wp_block I isd k body)).
  { apply block_pol. rewrite All_Forall in *. rewrite Forall_forall in *. intros st Hin. eapply wp_pol; eauto. }
  assert (E : d = tog (flips_block body) d).
  { clear - Hn Hv. assert (G : forall d d', mono_visit_block d body = Ok d' -> d' = tog (flips_block body) d).
    { clear Hv. induction body as [|s b IH]; intros d0 d' H; cbn [mono_visit_block] in H; [inversion H; auto|].
      destruct Hn as [N1 N2]. apply rbind_ok in H. destruct H as (d1 & E1 & E2).
      apply mono_visit_flips in E1; auto. apply IH in E2; auto. subst. rewrite tog_tog. reflexivity. }
    now apply G. }
  destruct (flips_block body); [destruct d; discriminate | exact H].
Qed.

(** The check also accepts programs that are not monotone. *)
Lemma eleb_bot_top : eleb etop ebot = false.
Proof. reflexivity. Qed.

Lemma mono_check_refuted : exists body, (forall isd isf, All (wts isd isf) body) /\
  mono_check Down body = true /\ forall I isd k s, env_ok s -> ~ mono (wp_block I isd k body).
Proof.
  exists [SNegate Down]. split; [|split].
  - simpl; auto.
  - reflexivity.
  - intros I isd k s Hs H. specialize (H (fun _ => ebot) (fun _ => etop)). cbn [wp_block fold_right wp negate_sem] in H.
    specialize (H (fun s _ => ebot_le _) s Hs). cbn beta in H.
    rewrite (proj2 (eleb_iff ebot ebot) (ele_refl _)), eleb_bot_top in H. exact H.
Qed.

(** A balanced use of negations inside one branch each is accepted too. *)
Lemma mono_check_branch_refuted : exists body, (forall isd isf, All (wts isd isf) body) /\
  mono_visit_block Down body = Ok Down /\ forall I isd k s, env_ok s -> ~ mono (wp_block I isd k body).
Proof.
  exists [SIf (ELit TBool (LBool true)) [SNegate Down] [SNegate Up]]. split; [|split].
  - intros isd isf. cbn. unfold is_guard; cbn. auto 10.
  - reflexivity.
  - intros I isd k s Hs H. specialize (H (fun _ => ebot) (fun _ => etop) (fun s _ => ebot_le _) s Hs).
    cbn in H. destruct (Rle_dec (nval (nnr_of 0)) (nval (nnr_of 0))); [exact H | lra].
Qed.

(** ** Direction tracking (C20) *)
Lemma forwards_spec d s d' : negation_forwards d s = Ok d' <->
  match s with SNegate dir => dir = d /\ d' = toggle d | _ => d' = d end.
Proof.
  destruct s; cbn; try (split; intros H; inversion H; auto; fail).
  destruct d, d0; cbn; split; intros H; try discriminate; try (inversion H; auto); destruct H; try discriminate; subst; auto.
Qed.

Lemma backwards_negate d d' : negation_forwards d (SNegate Down) = Ok d' -> negation_backwards d' (SNegate Down) = Ok d.
Proof. destruct d; cbn; intros H; inversion H; reflexivity. Qed.

Lemma backwards_conegate_refuted : exists d d', negation_forwards d (SNegate Up) = Ok d' /\
  (exists w, negation_backwards d' (SNegate Up) = Err w) /\
  exists d1, negation_backwards d (SNegate Up) = Ok d1 /\ exists w, negation_forwards d1 (SNegate Up) = Err w.
Proof.
  exists Up, Down. split; [reflexivity|]. split; [eexists; reflexivity|]. exists Down. split; [reflexivity|].
  eexists; reflexivity.
Qed.

(** Forward walks: the k-th negation has the k-th direction of an alternating sequence,
    so the direction after the list is determined by the number of negations. *)
Definition negs (b : list stmt) : list direction :=
  flat_map (fun s => match s with SNegate d => [d] | _ => [] end) b.
Fixpoint alternating (d : direction) (l : list direction) : Prop :=
  match l with [] => True | x :: l' => x = d /\ alternating (toggle d) l' end.

Lemma walk_forwards_iff b : forall d d', walk_forwards d b = Ok d' <->
  alternating d (negs b) /\ d' = Nat.iter (List.length (negs b)) toggle d.
Proof.
  induction b as [|s b IH]; intros d d'; cbn [walk_forwards negs flat_map].
  - cbn. split; intros H; [inversion H; auto | destruct H; subst; auto].
  - fold (negs b).
    assert (D : (exists x, s = SNegate x) \/ (forall d, negation_forwards d s = Ok d) /\
       (match s with SNegate d => [d] | _ => [] end) = []).
    { destruct s; eauto. }
    destruct D as [[x ->] | [E1 E2]].
    + assert (It : forall n e, Nat.iter n toggle (toggle e) = Nat.iter (S n) toggle e).
      { induction n; intros e; [reflexivity|]. change (toggle (Nat.iter n toggle (toggle e)) = toggle (Nat.iter (S n) toggle e)). now rewrite IHn. }
      cbn [app List.length alternating]. rewrite <- It. cbn [negation_forwards].
      destruct d, x; cbn [rbind toggle]; rewrite ?IH; split; intros Hx;
        try discriminate; try (destruct Hx as [[He _] _]; discriminate); tauto.
    + rewrite E1, E2. cbn [rbind app]. apply IH.
Qed.
