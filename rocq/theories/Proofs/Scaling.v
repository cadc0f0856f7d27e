(** Multiplying the postexpectation by a positive number multiplies the preexpectation: for programs without assertions,
    assumptions, comparisons, negations and rewards, with loops and nondeterminism, for both fixpoints. *)
From Coq Require Import Bool List String Reals Lra.
From Verif.Model Require Import Syntax.
From Verif.Spec Require Import Eur Sem Wp Termination.
From Verif.Proofs Require Import EurLemmas SemLemmas WpLemmas MonoProofs.
Import ListNotations.
Local Open Scope R_scope.

Definition scale (r : R) (X : exp) : exp := fun s => emul (fin r) (X s).
Lemma scale_inv r a : 0 < r -> emul (fin r) (emul (fin (/ r)) a) = a.
Proof.
  intros H. pose proof (Rinv_0_lt_compat r H). destruct (eur_cases a) as [(x & Hx & ->)| ->].
  - assert (0 <= / r * x) by (apply Rmult_le_pos; lra). rewrite !emul_fin by lra. f_equal. field. lra.
  - rewrite !emul_Inf_r by auto. reflexivity.
Qed.
Lemma scale_inv' r a : 0 < r -> emul (fin (/ r)) (emul (fin r) a) = a.
Proof. intros H. pose proof (Rinv_0_lt_compat r H). rewrite <- (Rinv_inv r) at 2. now apply scale_inv. Qed.
Lemma le_scale r a b : 0 < r -> ele (emul (fin (/ r)) a) b -> ele a (emul (fin r) b).
Proof. intros H L. rewrite <- (scale_inv r a H). apply emul_mono; [apply ele_refl|exact L]. Qed.
Lemma scale_le r a b : 0 < r -> ele a (emul (fin r) b) -> ele (emul (fin (/ r)) a) b.
Proof. intros H L. rewrite <- (scale_inv' r b H). apply emul_mono; [apply ele_refl|exact L]. Qed.
Lemma scale_top r : 0 < r -> emul (fin r) etop = etop.
Proof. apply emul_Inf_r. Qed.

Lemma scale_eadd r a b : 0 < r -> eadd (emul (fin r) a) (emul (fin r) b) = emul (fin r) (eadd a b).
Proof.
  intros H. destruct (eur_cases a) as [(x & Hx & ->)| ->]; [|now rewrite emul_Inf_r, !eadd_Inf_l, emul_Inf_r].
  destruct (eur_cases b) as [(y & Hy & ->)| ->]; [|now rewrite emul_Inf_r, !eadd_Inf_r, emul_Inf_r].
  assert (0 <= r * x) by (apply Rmult_le_pos; lra). assert (0 <= r * y) by (apply Rmult_le_pos; lra).
  rewrite eadd_fin, !emul_fin, eadd_fin by lra. f_equal. ring.
Qed.
Lemma scale_emul r a b : 0 < r -> emul a (emul (fin r) b) = emul (fin r) (emul a b).
Proof.
  intros H. destruct (eur_cases b) as [(y & Hy & ->)| ->].
  - destruct (eur_cases a) as [(x & Hx & ->)| ->].
    + assert (0 <= r * y) by (apply Rmult_le_pos; lra). assert (0 <= x * y) by (apply Rmult_le_pos; lra).
      rewrite !emul_fin by lra. f_equal. ring.
    + destruct (Req_dec y 0) as [->|N].
      * change (fin 0) with ebot. now rewrite !emul_0_r.
      * assert (0 < r * y) by (apply Rmult_lt_0_compat; lra). rewrite emul_fin, !emul_Inf_l, emul_Inf_r by lra. reflexivity.
  - rewrite emul_Inf_r by auto. destruct (eur_cases a) as [(x & Hx & ->)| ->].
    + destruct (Req_dec x 0) as [->|N].
      * change (fin 0) with ebot. now rewrite !emul_0_l, emul_0_r.
      * rewrite !emul_Inf_r by lra. reflexivity.
    + change (emul Inf Inf) with Inf. now rewrite emul_Inf_r.
Qed.
Lemma scale_expected r d f : 0 < r -> expected d (fun v => emul (fin r) (f v)) = emul (fin r) (expected d f).
Proof.
  intros H. induction d as [|[p v] d IH]; cbn [expected]; [now rewrite emul_0_r|].
  rewrite IH, scale_emul by auto. now apply scale_eadd.
Qed.
Lemma scale_validate r d a : 0 < r -> validate_sem d (emul (fin r) a) = emul (fin r) (validate_sem d a).
Proof.
  intros H. destruct d; cbn [validate_sem].
  - destruct (eleb etop a) eqn:E.
    + apply eleb_iff, top_le in E as ->. rewrite scale_top by auto. rewrite (proj2 (eleb_iff etop etop) (ele_refl _)). reflexivity.
    + rewrite emul_0_r. destruct (eleb etop (emul (fin r) a)) eqn:E'; [|reflexivity]. exfalso.
      apply eleb_iff, (scale_le r _ _ H) in E'. rewrite scale_top in E' by now apply Rinv_0_lt_compat.
      apply eleb_iff in E'. congruence.
  - destruct (eleb a ebot) eqn:E.
    + apply eleb_iff, le_ebot in E as ->. rewrite emul_0_r. rewrite (proj2 (eleb_iff ebot ebot) (ele_refl _)). reflexivity.
    + rewrite scale_top by auto. destruct (eleb (emul (fin r) a) ebot) eqn:E'; [|reflexivity]. exfalso.
      apply eleb_iff, le_ebot in E'. rewrite <- (scale_inv' r a H), E', emul_0_r in E.
      rewrite (proj2 (eleb_iff ebot ebot) (ele_refl _)) in E. discriminate.
Qed.
Lemma scale_havoc r d xs X s : 0 < r -> ele (havoc_sem d xs (scale r X) s) (emul (fin r) (havoc_sem d xs X s)).
Proof.
  intros H. unfold havoc_sem. destruct d.
  - apply le_scale; auto. apply einf_glb. intros x (t & Ht & ->). apply scale_le; auto. apply einf_lb. exists t. auto.
  - apply esup_lub. intros x (t & Ht & ->). unfold scale. apply emul_mono; [apply ele_refl|]. apply esup_ub. eauto.
Qed.
Lemma scale_assign r I isd xs e X s : 0 < r -> assign_sem I isd xs e (scale r X) s = emul (fin r) (assign_sem I isd xs e X s).
Proof.
  intros H. unfold assign_sem. destruct xs as [|x [|y xs]]; try (now rewrite emul_0_r).
  destruct e; try reflexivity. destruct (isd f); [|reflexivity]. destruct (dist_sem _ _); [|now rewrite emul_0_r].
  unfold scale. now rewrite scale_expected.
Qed.

Lemma scalable_no_negate st : every scalable st -> every not_negate st.
Proof.
  assert (HB : forall b, Forall (fun st => every scalable st -> every not_negate st) b -> All (every scalable) b -> All (every not_negate) b)
    by (induction 1; cbn; tauto).
  induction st using stmt_rect'; intros P; cbn [every scalable not_negate] in *; try tauto;
    repeat match goal with Hf : Forall _ ?b |- _ => pose proof (HB _ Hf); clear Hf end; tauto.
Qed.
Lemma scalable_block_no_negate b : All (every scalable) b -> All (every not_negate) b.
Proof. induction b as [|s b IH]; cbn; auto. intros [A B]. split; auto using scalable_no_negate. Qed.

Section Scaling.
  Variables (I : interp) (isd isf : string -> bool) (k : fixkind).
  Hypothesis HI : interp_ok I.
  Definition subscales (F : exp -> exp) : Prop := forall r X, 0 < r -> exp_le (F (scale r X)) (scale r (F X)).

  Lemma loop_subscales c b : mono (wp_block I isd k b) -> subscales (wp_block I isd k b) -> subscales (wp I isd k (SWhile c b)).
  Proof.
    intros M SB r X Hr s Hs. cbn [wp]. fold (wp_block I isd k b). destruct k.
    - apply le_scale; auto. apply einf_glb. intros x (Y & HY & ->). apply scale_le; auto.
      refine (lfp_least _ (scale r Y) _ s Hs). intros t Ht. specialize (HY t Ht). cbv beta in HY |- *.
      destruct (holds I c t).
      + eapply ele_trans; [apply SB; auto|]. apply emul_mono; [apply ele_refl|exact HY].
      + apply emul_mono; [apply ele_refl|exact HY].
    - apply esup_lub. intros x (Y & HY & ->). apply le_scale; auto.
      refine (gfp_greatest _ (scale (/ r) Y) _ s Hs). intros t Ht. specialize (HY t Ht). cbv beta in HY |- *.
      apply scale_le; auto. eapply ele_trans; [exact HY|]. destruct (holds I c t); [|apply ele_refl].
      eapply ele_trans; [|apply SB; auto]. apply M; auto. intros u Hu. unfold scale. rewrite scale_inv by auto. apply ele_refl.
  Qed.
  Lemma block_subscales b : Forall (fun st => mono (wp I isd k st) /\ subscales (wp I isd k st)) b -> subscales (wp_block I isd k b).
  Proof.
    induction 1 as [|st b [M S] F IH]; intros r X Hr s Hs; [apply ele_refl|]. cbn [wp_block fold_right].
    eapply ele_trans; [|apply S; auto]. apply M; auto. intros t Ht. now apply IH.
  Qed.
  Lemma subscales_all b : Forall (fun st => wts isd isf st -> every scalable st -> subscales (wp I isd k st)) b ->
    All (wts isd isf) b -> All (every scalable) b -> subscales (wp_block I isd k b).
  Proof.
    intros F W P. apply block_subscales. induction F as [|st b H F IH]; [constructor|]. destruct W as [W1 W2], P as [P1 P2].
    constructor; [|now apply IH]. split; [|now apply H]. apply (wp_mono I isd isf k st HI W1). now apply scalable_no_negate.
  Qed.
  Theorem stmt_subscales st : wts isd isf st -> every scalable st -> subscales (wp I isd k st).
  Proof.
    induction st using stmt_rect'; intros W P; cbn [wts every scalable] in W, P; try (destruct P as [[] _]; fail);
      try (intros r X Hr s0 Hs0).
    all: repeat match goal with Hf : Forall _ ?b |- _ => pose proof (subscales_all b Hf); clear Hf end.
    all: repeat match goal with H : _ /\ _ |- _ => destruct H end.
    all: cbn [wp]; repeat match goal with |- context [fold_right (wp I isd k) ?Y ?b] => change (fold_right (wp I isd k) Y b) with (wp_block I isd k b Y) end.
    all: try (apply ele_refl).
    all: try (rewrite scale_assign by auto; apply ele_refl).
    all: try (apply scale_havoc; auto; fail).
    all: try (unfold scale; rewrite scale_validate by auto; apply ele_refl).
    - match goal with H : _ -> _ -> subscales (wp_block I isd k b) |- _ => apply H; auto end.
    - destruct i; [rewrite scale_assign by auto|]; apply ele_refl.
    - unfold scale. rewrite (emul_comm _ (ev I e s0)), scale_emul by auto. rewrite (emul_comm (ev I e s0)). apply ele_refl.
    - apply le_scale; auto. apply emin_glb; apply scale_le; auto; [eapply ele_trans; [apply emin_l|]|eapply ele_trans; [apply emin_r|]];
        match goal with H : _ -> _ -> subscales (wp_block I isd k ?x) |- ele (wp_block I isd k ?x _ _) _ => apply H; auto end.
    - apply emax_lub; (eapply ele_trans; [match goal with H : _ -> _ -> subscales (wp_block I isd k ?x) |- ele (wp_block I isd k ?x _ _) _ => apply H; auto end|]);
        unfold scale; apply emul_mono; [apply ele_refl|apply emax_l|apply ele_refl|apply emax_r].
    - unfold scale at 3. rewrite <- scale_eadd by auto. apply eadd_mono;
        match goal with H : _ -> _ -> subscales (wp_block I isd k ?x) |- ele (wp_block I isd k ?x _ _) _ => apply H; auto end.
    - unfold scale at 3. destruct (holds I c s0);
        match goal with H : _ -> _ -> subscales (wp_block I isd k ?x) |- ele (wp_block I isd k ?x _ _) _ => apply H; auto end.
    - apply (loop_subscales c b); auto. apply (wp_block_mono I isd isf k b HI); auto. now apply scalable_block_no_negate.
    - apply IHst; auto.
  Qed.
  Theorem block_scales b r X s : All (wts isd isf) b -> All (every scalable) b -> 0 < r -> env_ok s ->
    wp_block I isd k b (scale r X) s = emul (fin r) (wp_block I isd k b X s).
  Proof.
    intros W P Hr Hs. pose proof (Rinv_0_lt_compat r Hr) as Hi.
    assert (S : subscales (wp_block I isd k b)) by (apply (stmt_subscales (SSeq b)); cbn; auto).
    apply ele_antisym; [now apply S|].
    assert (L : ele (wp_block I isd k b X s) (emul (fin (/ r)) (wp_block I isd k b (scale r X) s))).
    { eapply ele_trans; [|apply (S (/ r) (scale r X) Hi s Hs)].
      apply (wp_block_mono I isd isf k b HI W (scalable_block_no_negate b P)); auto.
      intros t Ht. unfold scale. rewrite scale_inv' by auto. apply ele_refl. }
    rewrite <- (scale_inv r (wp_block I isd k b (scale r X) s) Hr). apply emul_mono; [apply ele_refl|exact L].
  Qed.
End Scaling.
