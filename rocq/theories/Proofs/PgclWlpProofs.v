(** Direct k-induction for weakest liberal pre-expectations, with invariants of at most one. *)
From Coq Require Import Bool List String ZArith NArith Reals Lia Lra.
From Verif.Model Require Import Syntax Builder ProofRules Pgcl PgclProc.
From Verif.Spec Require Import Eur Sem Wp Frame Loops PgclSem PgclCost PgclProcSpec PgclWlp.
From Verif.Proofs Require Import EurLemmas SemLemmas WpLemmas DistProofs MonoProofs SubstProofs FrameProofs LoopProofs OmegaProofs PgclProofs PgclSound PgclTicks PgclProcProofs.
Import ListNotations.
Local Open Scope list_scope.

Definition le1 (X : exp) : Prop := exp_le X (fun _ => eone).

Lemma gfp1_eq F : gfp1 F = gfp (fun Y s => emin (F Y s) eone).
Proof.
  apply FunctionalExtensionality.functional_extensionality. intros s. unfold gfp1, gfp. apply esup_ext. intros r. split.
  - intros (Y & H1 & H2 & ->). exists Y. split; auto. intros t Ht. apply emin_glb; [now apply H1 | now apply H2].
  - intros (Y & H & ->). exists Y. split; [|split; auto]; intros t Ht; eapply ele_trans; [apply H; auto | apply emin_l | apply H; auto | apply emin_r].
Qed.
Lemma gfp1_le F : le1 (gfp1 F).
Proof. intros s Hs. apply esup_lub. intros r (Y & _ & H & ->). now apply H. Qed.

Section Wlp.
  Variables (I : interp) (isd : string -> bool) (pc : ident) (kd : fixkind).
  Hypothesis HI : interp_ok I.
  Hypothesis Hflip : isd "flip"%string = true.
  Hypothesis Hpc : ity pc = TBool.
  Let free := free_of pc.

  Definition lmap c b (X Y : exp) : exp := fun s => if holds I c s then pwlps I b Y s else X s.
  Definition cmap c b (X Y : exp) : exp := fun s => emin (lmap c b X Y s) eone.
  Lemma pwlp_while c b X : pwlp I (PWhile c b) X = gfp (cmap c b X).
  Proof. cbn [pwlp]. rewrite gfp1_eq. reflexivity. Qed.

  Lemma min_mono a b : ele a b -> ele (emin a eone) (emin b eone).
  Proof. intros H. apply emin_glb; [eapply ele_trans; [apply emin_l | exact H] | apply emin_r]. Qed.

  Lemma pwlp_local i : forall M : ident -> Prop, pok isd pc i -> (forall x, In x (modified i) -> M x) -> local_mono M (pwlp I i).
  Proof.
    assert (HB : forall l, Forall (fun i => forall M : ident -> Prop, pok isd pc i -> (forall x, In x (modified i) -> M x) -> local_mono M (pwlp I i)) l ->
      forall M : ident -> Prop, All (pok isd pc) l -> (forall x, In x (flat_map modified l) -> M x) -> local_mono M (pwlps I l)).
    { induction 1 as [|j l Hj Hl IH]; intros M O Hm s0 X Y Hs0 H; [exact H|]. destruct O as [Oj Ol]. cbn [flat_map] in Hm.
      apply (Hj M Oj (fun x Hx => Hm x (in_or_app _ _ _ (or_introl Hx))) s0); auto.
      apply (IH M Ol (fun x Hx => Hm x (in_or_app _ _ _ (or_intror Hx))) s0); auto. }
    induction i as [|c b IH|c a b IHa IHb|x e|p a b IHa IHb|e] using pinstr_all; intros M O Hm s0 X Y Hs0 H s Hs.
    - now apply H.
    - destruct O as (_ & G & O). rewrite !pwlp_while.
      assert (L : forall N : ident -> Prop, (forall x, In x (flat_map modified b) -> N x) -> local_mono N (pwlps I b)) by (intros; now apply HB).
      assert (Mo : forall X, mono (cmap c b X)).
      { intros Z U V HUV t Ht. unfold cmap. apply min_mono. unfold lmap. destruct (holds I c t); [|apply ele_refl].
        apply (local_all _ (L (fun _ => True) (fun _ _ => Logic.I))); auto. }
      apply (gfp_local M (cmap c b X) (cmap c b Y) s0); auto.
      intros U V HUV t Ht. unfold cmap. apply min_mono. unfold lmap. destruct (holds I c t); [|now apply H]. apply (L M Hm s0); auto.
    - destruct O as (_ & _ & Oa & Ob). cbn [pwlp]. destruct (holds I c s).
      + apply (HB a IHa M Oa) with (s0 := s0); auto. intros y Hy. apply Hm. cbn. apply in_or_app. auto.
      + apply (HB b IHb M Ob) with (s0 := s0); auto. intros y Hy. apply Hm. cbn. apply in_or_app. auto.
    - destruct O as (_ & _ & W & Ty & _). cbn [pwlp]. apply H. apply only_upd; auto; [apply Hm; cbn; auto|].
      rewrite <- Ty. apply eval_ty; auto. apply Hs.
    - destruct O as (_ & _ & _ & Oa & Ob). cbn [pwlp]. destruct (eval I p s); try apply ele_refl.
      apply eadd_mono; (apply emul_mono; [apply ele_refl|]).
      + apply (HB a IHa M Oa) with (s0 := s0); auto. intros y Hy. apply Hm. cbn. apply in_or_app. auto.
      + apply (HB b IHb M Ob) with (s0 := s0); auto. intros y Hy. apply Hm. cbn. apply in_or_app. auto.
    - now apply H.
  Qed.
  Lemma pwlps_local l (M : ident -> Prop) : All (pok isd pc) l -> (forall x, In x (flat_map modified l) -> M x) -> local_mono M (pwlps I l).
  Proof.
    induction l as [|j l IH]; intros O Hm s0 X Y Hs0 H; [exact H|]. destruct O as [Oj Ol]. cbn [flat_map] in Hm.
    apply (pwlp_local j M Oj (fun x Hx => Hm x (in_or_app _ _ _ (or_introl Hx))) s0); auto.
    apply (IH Ol (fun x Hx => Hm x (in_or_app _ _ _ (or_intror Hx))) s0); auto.
  Qed.
  Lemma pwlp_mono i : pok isd pc i -> mono (pwlp I i).
  Proof. intros O. apply local_all, pwlp_local; auto. Qed.
  Lemma pwlps_mono l : All (pok isd pc) l -> mono (pwlps I l).
  Proof. intros O. apply local_all, pwlps_local; auto. Qed.

  Lemma mix_le1 q u v : (nval q <= 1)%R -> ele u eone -> ele v eone -> ele (eadd (emul (Fin q) u) (emul (fin (1 - nval q)) v)) eone.
  Proof.
    intros Hq Hu Hv. apply ele_trans with (eadd (emul (Fin q) eone) (emul (fin (1 - nval q)) eone)).
    - apply eadd_mono; (apply emul_mono; [apply ele_refl | assumption]).
    - rewrite (Fin_fin q) at 1.
      pose proof (nval_nonneg q). unfold eone. rewrite !emul_fin, eadd_fin by lra. replace (nval q * 1 + (1 - nval q) * 1)%R with 1%R by ring. apply ele_refl.
  Qed.
  Lemma pwlp_le1 i : pok isd pc i -> proper I i -> forall X, le1 X -> le1 (pwlp I i X).
  Proof.
    assert (HB : forall l, Forall (fun i => pok isd pc i -> proper I i -> forall X, le1 X -> le1 (pwlp I i X)) l ->
      All (pok isd pc) l -> All (proper I) l -> forall X, le1 X -> le1 (pwlps I l X)).
    { induction 1 as [|j l Hj Hl IH]; intros O P X HX; [exact HX|]. destruct O, P. apply Hj; auto. now apply IH. }
    induction i as [|c b IH|c a b IHa IHb|x e|p a b IHa IHb|e] using pinstr_all; intros O P X HX.
    - exact HX.
    - apply gfp1_le.
    - destruct O as (_ & _ & Oa & Ob). destruct P as [Pa Pb]. intros s Hs. cbn [pwlp]. destruct (holds I c s); [apply (HB a) | apply (HB b)]; auto.
    - destruct O as (_ & _ & W & Ty & _). intros s Hs. cbn [pwlp]. apply HX. apply upd_ok; auto. rewrite <- Ty. now apply eval_ty.
    - destruct O as (_ & _ & _ & Oa & Ob). destruct P as (Pq & Pa & Pb). intros s Hs. cbn [pwlp]. destruct (eval I p s) eqn:E; try apply ebot_le.
      apply mix_le1; [eapply Pq; eauto | apply (HB a); auto | apply (HB b); auto].
    - exact HX.
  Qed.
  Lemma pwlps_le1 l : All (pok isd pc) l -> All (proper I) l -> forall X, le1 X -> le1 (pwlps I l X).
  Proof. induction l as [|j l IH]; intros O P X HX; [exact HX|]. destruct O, P. apply pwlp_le1; auto. now apply IH. Qed.

  Definition good1 (a : annot) : Prop := good_annot pc a /\ le1 (ev I (snd a)).
  Definition worth1 (t : trans) (P : exp -> exp) : Prop := forall st b st', Forall good1 st -> t st = Some (b, st') ->
    Forall good1 st' /\ forall X, free X -> le1 X -> free (wp_block I isd kd b X) /\ exp_le (wp_block I isd kd b X) (P X).
  Lemma under X Y : exp_le X Y -> le1 Y -> le1 X.
  Proof. intros H HY s Hs. eapply ele_trans; [now apply H | now apply HY]. Qed.

  Section Loop.
    Variables (c : expr) (body : trans) (b : list pinstr) (inv : expr).
    Hypothesis Hc : clean pc c.
    Hypothesis Ob : All (pok isd pc) b.
    Hypothesis Pb : All (proper I) b.
    Hypothesis Wb : worth1 body (pwlps I b).
    Hypothesis Hi : clean pc inv.
    Hypothesis Li : le1 (ev I inv).
    Let F := lmap c b.
    Lemma F_le1 X N : le1 X -> le1 N -> le1 (F X N).
    Proof. intros HX HN s Hs. unfold F, lmap. destruct (holds I c s); [apply pwlps_le1 | apply HX]; auto. Qed.
    Lemma F_mono X : mono (F X).
    Proof. intros U V H s Hs. unfold F, lmap. destruct (holds I c s); [|apply ele_refl]. now apply (pwlps_mono b Ob). Qed.

    Lemma worth1_iter st next b' st' : Forall good1 st -> pgcl_iter c body next st = Some (b', st') -> Forall good1 st' /\
      forall X N, free X -> le1 X -> free (wp_block I isd kd next X) -> le1 N -> exp_le (wp_block I isd kd next X) N ->
      free (wp_block I isd kd b' X) /\ exp_le (wp_block I isd kd b' X) (F X N).
    Proof.
      intros H E. unfold pgcl_iter in E. destruct (body st) as [[bb st1]|] eqn:Eb; [|discriminate]. injection E as <- <-.
      destruct (Wb _ _ _ H Eb) as [H1 W]. split; auto. intros X N HX LX Fn LN Ln. destruct (W _ Fn (under _ _ Ln LN)) as [Fb Lb].
      assert (E : wp_block I isd kd [encode_iter c bb next] X = fun s => if holds I c s then wp_block I isd kd bb (wp_block I isd kd next X) s else X s).
      { unfold wp_block at 1. cbn [fold_right]. rewrite wp_iter. reflexivity. }
      rewrite E. split; [apply free_if; auto|]. intros s Hs. unfold F, lmap. destruct (holds I c s); [|apply ele_refl].
      apply ele_trans with (pwlps I b (wp_block I isd kd next X) s); [now apply Lb|]. now apply (pwlps_mono b Ob).
    Qed.
    Fixpoint pext1 (X : exp) (j : nat) : exp :=
      match j with O => ev I inv | S j' => fun s => djoin Down (ev I inv s) (F X (pext1 X j') s) end.
    Lemma pext1_le X j : le1 X -> le1 (pext1 X j).
    Proof. intros HX. induction j as [|j IH]; [exact Li|]. intros s Hs. apply (djoin_lub Down); [now apply Li | now apply F_le1]. Qed.
    Lemma worth1_extend j : forall st n st', Forall good1 st -> pgcl_extend Down c body inv j (pgcl_const inv) st = Some (n, st') ->
      Forall good1 st' /\ forall X, free X -> le1 X -> free (wp_block I isd kd n X) /\ exp_le (wp_block I isd kd n X) (pext1 X j).
    Proof.
      induction j as [|j IH]; intros st n st' H E; cbn [pgcl_extend] in E.
      - injection E as <- <-. split; auto. intros X HX LX. split.
        + intros s s' Hs Hs' A. rewrite !const_sem. now apply (unread_blind (fun x => x = pc)).
        + intros s Hs. rewrite const_sem. apply ele_refl.
      - destruct (pgcl_extend Down c body inv j (pgcl_const inv) st) as [[n1 st1]|] eqn:En; [|discriminate].
        destruct (pgcl_iter c body n1 st1) as [[b2 st2]|] eqn:Eb; [|discriminate]. injection E as <- <-.
        destruct (IH _ _ _ H En) as [H1 W1]. destruct (worth1_iter _ _ _ _ H1 Eb) as [H2 W2]. split; auto.
        intros X HX LX. destruct (W1 X HX LX) as [F1 L1]. destruct (W2 X (pext1 X j) HX LX F1 (pext1_le X j LX) L1) as [F2 L2].
        assert (E : forall s, wp_block I isd kd (SAssert (toggle_dir Down) inv :: b2) X s = djoin Down (ev I inv s) (wp_block I isd kd b2 X s)).
        { intros s. unfold wp_block at 1. cbn [fold_right]. now rewrite wp_assert_toggle. }
        split.
        + intros s s' Hs Hs' A. rewrite !E. f_equal; [now apply (unread_blind (fun x => x = pc)) | now apply F2].
        + intros s Hs. rewrite E. cbn [pext1]. apply (djoin_lub Down); [apply (djoin_l Down)|].
          eapply ele_trans; [apply L2; auto | apply (djoin_r Down)].
    Qed.
    Lemma pext1_inc X j : exp_le (pext1 X j) (pext1 X (S j)).
    Proof.
      induction j as [|j IH]; intros s Hs; [apply (djoin_l Down)|]. cbn [pext1].
      apply (djoin_lub Down); [apply (djoin_l Down)|]. eapply ele_trans; [|apply (djoin_r Down)]. now apply F_mono.
    Qed.
    Lemma pext1_ge X j : exp_le (ev I inv) (pext1 X j).
    Proof. destruct j; intros s Hs; [apply ele_refl | apply (djoin_l Down)]. Qed.
    Lemma pext1_post X j t : env_ok t -> ele (ev I inv t) (F X (pext1 X j) t) -> ele (pext1 X j t) (F X (pext1 X j) t).
    Proof.
      intros Ht H. destruct j as [|j]; auto. cbn [pext1] in *. apply (djoin_lub Down); auto. apply F_mono; auto. apply pext1_inc.
    Qed.
    Lemma worth1_loop n : (0 < n)%nat -> worth1 (pgcl_loop false Down c body (flat_map modified b) inv n) (fun X => gfp (cmap c b X)).
    Proof.
      intros Hn st b' st' H E. unfold pgcl_loop in E. destruct n as [|n]; [lia|].
      destruct (pgcl_extend Down c body inv n (pgcl_const inv) st) as [[n1 st1]|] eqn:En; [|discriminate].
      destruct (pgcl_iter c body n1 st1) as [[b2 st2]|] eqn:Eb; [|discriminate]. injection E as <- <-.
      destruct (worth1_extend _ _ _ _ H En) as [H1 W1]. destruct (worth1_iter _ _ _ _ H1 Eb) as [H2 W2]. split; auto.
      intros X HX LX. destruct (W1 X HX LX) as [F1 L1]. destruct (W2 X (pext1 X n) HX LX F1 (pext1_le X n LX) L1) as [F2 L2].
      set (vars := flat_map modified b) in *. set (B := wp_block I isd kd b2 X) in *.
      set (C := fun s' => if dec (dle Down (ev I inv s') (B s')) then dtop Down else dbot Down).
      assert (E : forall s, wp_block I isd kd (pgcl_spec Down inv vars ++ b2) X s = dmeet Down (ev I inv s) (havoc_sem Down vars C s)).
      { intros s. rewrite wp_block_app. unfold pgcl_spec. unfold wp_block at 1. cbn [fold_right]. rewrite wp_assert. f_equal.
        cbn [wp]. fold B. f_equal. apply FunctionalExtensionality.functional_extensionality. intros t. apply validate_assume_sem. }
      assert (BI : blind (fun x => x = pc) (ev I inv)) by now apply unread_blind.
      split.
      - intros s s' Hs Hs' A. rewrite !E. f_equal; [now apply BI|]. apply (blind_havoc (fun x => x = pc)); auto.
        intros t t' Ht Ht' At. unfold C. now rewrite (BI t t' Ht Ht' At), (F2 t t' Ht Ht' At).
      - intros s Hs. rewrite E.
        destruct (havoc_check Down vars (fun s' => dle Down (ev I inv s') (B s')) C s (fun _ _ => eq_refl)) as [[E' A]|[E' _]]; rewrite E'.
        + rewrite dmeet_top. apply ele_trans with (pext1 X n s); [now apply pext1_ge|].
          apply (dfix_local Down (fun x => In x vars) (cmap c b X)); auto.
          * intros U V HUV t Ht. unfold cmap. apply min_mono. now apply F_mono.
          * intros s0 U V Hs0 HUV t Ht. unfold cmap. apply min_mono. unfold lmap. destruct (holds I c t); [|apply ele_refl].
            apply (pwlps_local b _ Ob (fun _ h => h) s0); auto.
          * intros t Ht. apply emin_glb; [|apply pext1_le; [exact LX | apply Ht]]. apply pext1_post; [apply Ht|].
            apply ele_trans with (B t); [|apply L2, Ht]. apply A. split; [intros x Hx; now apply Ht | intros x Hx; apply Ht].
        + apply (dle_trans Down) with (dbot Down); [apply dmeet_r | apply dbot_le].
    Qed.
  End Loop.

  Lemma worth1_list l : Forall (fun i => pok isd pc i -> proper I i -> tick_free i -> worth1 (direct false pc Down i) (pwlp I i)) l ->
    All (pok isd pc) l -> All (proper I) l -> All tick_free l -> worth1 (directs false pc Down l) (pwlps I l).
  Proof.
    induction 1 as [|i l Hi Hl IH]; intros O P T; [intros st b st' H [= <- <-]; split; auto; intros X HX _; split; [exact HX | intros s Hs; apply ele_refl]|].
    destruct O as [Oi Ol], P as [Pi Pl], T as [Ti Tl]. intros st b st' H E.
    change (directs false pc Down (i :: l) st) with (tseq (direct false pc Down i) (directs false pc Down l) st) in E. unfold tseq in E.
    destruct (direct false pc Down i st) as [[a st1]|] eqn:Ef; [|discriminate]. destruct (directs false pc Down l st1) as [[b2 st2]|] eqn:Eg; [|discriminate].
    injection E as <- <-. destruct (Hi Oi Pi Ti _ _ _ H Ef) as [H1 Wf]. destruct (IH Ol Pl Tl _ _ _ H1 Eg) as [H2 Wg].
    split; auto. intros X HX LX. destruct (Wg X HX LX) as [F2 L2].
    destruct (Wf _ F2 (under _ _ L2 (pwlps_le1 l Ol Pl X LX))) as [F1 L1]. rewrite wp_block_app.
    split; [exact F1|]. intros s Hs. apply ele_trans with (pwlp I i (wp_block I isd kd b2 X) s); [now apply L1|]. now apply (pwlp_mono i Oi).
  Qed.
  Lemma worth1_direct i : pok isd pc i -> proper I i -> tick_free i -> worth1 (direct false pc Down i) (pwlp I i).
  Proof.
    induction i as [|c b IH|c a b IHa IHb|x e|p a b IHa IHb|e] using pinstr_all; intros O P T st b' st' H E; cbn [direct] in E.
    - injection E as <- <-. split; auto. intros X HX _. split; [exact HX | intros s Hs; apply ele_refl].
    - destruct O as (Hc & _ & O). destruct st as [|[n inv] st0]; [discriminate|].
      inversion H as [|? ? [[Hn [_ Hi]] Li] H0]; subst. cbn [fst snd] in *.
      pose proof (worth1_list b IH O P T) as Wb.
      change (fold_right (fun i r => tseq (direct false pc Down i) r) tnil b) with (directs false pc Down b) in E.
      destruct (worth1_loop c _ b inv Hc O P Wb Hi Li n Hn st0 b' st' H0 E) as [H1 W]. split; auto. intros X. rewrite pwlp_while. apply W.
    - destruct O as (Hc & _ & Oa & Ob), P as [Pa Pb], T as [Ta Tb].
      pose proof (worth1_list a IHa Oa Pa Ta) as Wa. pose proof (worth1_list b IHb Ob Pb Tb) as Wb.
      change (fold_right (fun i r => tseq (direct false pc Down i) r) tnil a) with (directs false pc Down a) in E.
      change (fold_right (fun i r => tseq (direct false pc Down i) r) tnil b) with (directs false pc Down b) in E.
      destruct (directs false pc Down a st) as [[a1 st1]|] eqn:Ea; [|discriminate].
      destruct (directs false pc Down b st1) as [[b1 st2]|] eqn:Eb; [|discriminate]. injection E as <- <-.
      destruct (Wa _ _ _ H Ea) as [H1 W1]. destruct (Wb _ _ _ H1 Eb) as [H2 W2]. split; auto.
      intros X HX LX. destruct (W1 X HX LX) as [F1 L1]. destruct (W2 X HX LX) as [F2 L2].
      change (wp_block I isd kd [SIf c a1 b1] X) with (fun s => if holds I c s then wp_block I isd kd a1 X s else wp_block I isd kd b1 X s).
      split; [now apply free_if|]. intros s Hs. cbn [pwlp]. destruct (holds I c s); [now apply L1 | now apply L2].
    - destruct O as (Hx & Hc & W & Ty & Hf). injection E as <- <-. split; auto. intros X HX LX.
      assert (E : forall s, wp_block I isd kd [SAssign [x] e] X s = pwp I Least (PAsgn x e) X s) by (intros s; exact (wp_asgn I isd kd x e X s Hf)).
      split.
      + intros s s' Hs Hs' A. rewrite !E. apply (pwp_free I isd pc HI Least (PAsgn x e)); auto. cbn; auto.
      + intros s Hs. rewrite E. apply ele_refl.
    - destruct O as (Hc & W & Ty & Oa & Ob), P as (Pq & Pa & Pb), T as [Ta Tb].
      pose proof (worth1_list a IHa Oa Pa Ta) as Wa. pose proof (worth1_list b IHb Ob Pb Tb) as Wb.
      change (fold_right (fun i r => tseq (direct false pc Down i) r) tnil a) with (directs false pc Down a) in E.
      change (fold_right (fun i r => tseq (direct false pc Down i) r) tnil b) with (directs false pc Down b) in E.
      destruct (directs false pc Down a st) as [[a1 st1]|] eqn:Ea; [|discriminate].
      destruct (directs false pc Down b st1) as [[b1 st2]|] eqn:Eb; [|discriminate]. injection E as <- <-.
      destruct (Wa _ _ _ H Ea) as [H1 W1]. destruct (Wb _ _ _ H1 Eb) as [H2 W2]. split; auto.
      intros X HX LX. destruct (W1 X HX LX) as [F1 L1]. destruct (W2 X HX LX) as [F2 L2].
      split.
      + intros s s' Hs Hs' A. rewrite !(wp_choice I isd pc HI Hflip Hpc) by auto.
        rewrite (unread_eval (fun y => y = pc) I p s s' Hc A). destruct (eval I p s'); auto.
        now rewrite (F1 s s' Hs Hs' A), (F2 s s' Hs Hs' A).
      + intros s Hs. rewrite (wp_choice I isd pc HI Hflip Hpc) by auto. cbn [pwlp].
        destruct (eval I p s); try apply ele_refl.
        apply eadd_mono; (apply emul_mono; [apply ele_refl|]); [now apply L1 | now apply L2].
    - destruct T.
  Qed.
  Theorem wlp_directs l st b st' X s : All (pok isd pc) l -> All (proper I) l -> All tick_free l -> Forall good1 st ->
    directs false pc Down l st = Some (b, st') -> free X -> le1 X -> env_ok s -> ele (wp_block I isd kd b X s) (pwlps I l X s).
  Proof.
    intros O P T G E HX LX Hs. refine (proj2 (proj2 (worth1_list l _ O P T st b st' G E) X HX LX) s Hs).
    rewrite Forall_forall. intros i _. now apply worth1_direct.
  Qed.
End Wlp.

Lemma wlp_ticks I i : forall X, pwlp I (remove_ticks i) X = pwlp I i X.
Proof.
  assert (HB : forall l, Forall (fun i => forall X, pwlp I (remove_ticks i) X = pwlp I i X) l ->
    forall X, fold_right (pwlp I) X (map remove_ticks l) = fold_right (pwlp I) X l).
  { induction 1 as [|j l Hj Hl IH]; intros X; [reflexivity|]. cbn [map fold_right]. now rewrite Hj, IH. }
  induction i as [|c b IH|c a b IHa IHb|x e|p a b IHa IHb|e] using pinstr_all; intros X; cbn [remove_ticks pwlp]; try reflexivity.
  - f_equal. apply FunctionalExtensionality.functional_extensionality. intros Y. now rewrite (HB b IH).
  - now rewrite (HB a IHa), (HB b IHb).
  - now rewrite (HB a IHa), (HB b IHb).
Qed.
Lemma wlp_ticks_list I l X : pwlps I (map remove_ticks l) X = pwlps I l X.
Proof. induction l as [|i l IH]; [reflexivity|]. unfold pwlps in *. cbn [map fold_right]. now rewrite IH, wlp_ticks. Qed.
Lemma proper_ticks I i : proper I i -> proper I (remove_ticks i).
Proof.
  assert (HB : forall l, Forall (fun i => proper I i -> proper I (remove_ticks i)) l -> All (proper I) l -> All (proper I) (map remove_ticks l)).
  { induction 1; cbn; tauto. }
  induction i as [|c b IH|c a b IHa IHb|x e|p a b IHa IHb|e] using pinstr_all; cbn; intros H; auto.
  - destruct H. auto.
  - destruct H as (H1 & H2 & H3). auto.
Qed.
Lemma proper_ticks_list I l : All (proper I) l -> All (proper I) (map remove_ticks l).
Proof. induction l as [|i l IH]; cbn; auto. intros [H1 H2]. split; auto. now apply proper_ticks. Qed.
Lemma removed_list l : All tick_free (map remove_ticks l).
Proof. induction l as [|i l IH]; cbn; auto. split; auto. apply removed. Qed.

Theorem wlp_proc I isd pc kd vars l pre post st pre' b st' : interp_ok I -> isd "flip"%string = true -> ity pc = TBool ->
  All (pok isd pc) l -> All (proper I) l -> Forall (fun a => good_annot pc a /\ forall s, env_ok s -> ele (ev I (snd a) s) eone) st ->
  clean pc post -> (forall s, env_ok s -> ele (ev I post s) eone) -> simple pre -> (forall x, fv x pre -> In x vars) ->
  k_ind_proc pc Down false vars l pre st = Some (pre', b, st') ->
  (forall s, env_ok s -> ele (ev I pre' s) (wp_block I isd kd b (ev I post) s)) ->
  forall s, env_ok s -> (forall x, In x vars -> s (init_var x) = s x) -> ele (ev I pre s) (pwlps I l (ev I post) s).
Proof.
  intros HI Hf Hp O P G Cp Lp Sp Fp E H s Hs Hv. unfold k_ind_proc in E.
  destruct (directs false pc Down (map remove_ticks l) st) as [[b1 st1]|] eqn:Ed; [|discriminate]. injection E as <- <- <-.
  specialize (H s Hs). rewrite wp_block_app in H.
  assert (D : forall Y, wp_block I isd kd (if existsb has_choice l then [SVar pc None] else []) Y s = Y s) by (intros Y; destruct (existsb has_choice l); reflexivity).
  rewrite D, wp_block_app, wp_inits in H by auto.
  assert (Ep : ev I (to_init pre) s = ev I pre s) by (unfold ev; rewrite (eval_init I pre s s); auto).
  rewrite Ep in H. eapply ele_trans; [exact H|]. rewrite <- wlp_ticks_list.
  apply (wlp_directs I isd pc kd HI Hf Hp _ st b1 st1); auto using pok_ticks_list, proper_ticks_list, removed_list. now apply unread_blind.
Qed.
