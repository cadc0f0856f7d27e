(** Soundness of the translation from pGCL: the encodings of loops. *)
From Coq Require Import Bool List String ZArith NArith Reals Lia Lra Classical.
From Verif.Model Require Import Syntax Builder ProofRules Pgcl.
From Verif.Spec Require Import Eur Sem Wp Frame Loops PgclSem.
From Verif.Proofs Require Import EurLemmas SemLemmas WpLemmas DistProofs MonoProofs SubstProofs FrameProofs LoopProofs OmegaProofs PgclProofs.
Import ListNotations.
Local Open Scope list_scope.

Section Sound.
  Variables (I : interp) (isd : string -> bool) (pc : ident) (kd : fixkind).
  Hypothesis HI : interp_ok I.
  Hypothesis Hflip : isd "flip"%string = true.
  Hypothesis Hpc : ity pc = TBool.
  Let free := free_of pc.
  Let good := good_annot pc.

  (** What a translation is worth, in the direction [r]: it stays on one side of the transformer [P]. *)
  Definition worth (r : direction) (t : trans) (P : exp -> exp) : Prop := forall st b st',
    Forall good st -> t st = Some (b, st') ->
    Forall good st' /\ forall X, free X -> free (wp_block I isd kd b X) /\ dexp_le r (wp_block I isd kd b X) (P X).

  Lemma worth_nil r : worth r tnil (fun X => X).
  Proof. intros st b st' H [= <- <-]. split; auto. intros X HX. split; [exact HX|]. intros s Hs. apply dle_refl. Qed.
  Lemma worth_seq r f g P Q : worth r f P -> worth r g Q -> mono P -> worth r (tseq f g) (fun X => P (Q X)).
  Proof.
    intros Hf Hg HP st b st' H E. unfold tseq in E.
    destruct (f st) as [[a st1]|] eqn:Ef; [|discriminate]. destruct (g st1) as [[b2 st2]|] eqn:Eg; [|discriminate].
    injection E as <- <-. destruct (Hf _ _ _ H Ef) as [H1 Wf]. destruct (Hg _ _ _ H1 Eg) as [H2 Wg].
    split; auto. intros X HX. destruct (Wg X HX) as [F2 L2]. destruct (Wf _ F2) as [F1 L1]. rewrite wp_block_app.
    split; [exact F1|]. intros s Hs. apply dle_trans with (P (wp_block I isd kd b2 X) s); [now apply L1|].
    apply mono_d; auto.
  Qed.

  Section Loop.
    Variables (r : direction) (k : fixkind) (c : expr) (body : trans) (b : list pinstr).
    Hypothesis Hc : clean pc c.
    Hypothesis Ob : All (pok isd pc) b.
    Hypothesis Wb : worth r body (pwps I k b).
    Let F := body_map I k c b.

    Lemma worth_iter st next b' st' : Forall good st -> pgcl_iter c body next st = Some (b', st') -> Forall good st' /\
      forall X N, free X -> free (wp_block I isd kd next X) -> dexp_le r (wp_block I isd kd next X) N ->
      free (wp_block I isd kd b' X) /\ dexp_le r (wp_block I isd kd b' X) (F X N).
    Proof.
      intros H E. unfold pgcl_iter in E. destruct (body st) as [[bb st1]|] eqn:Eb; [|discriminate]. injection E as <- <-.
      destruct (Wb _ _ _ H Eb) as [H1 W]. split; auto. intros X N HX Fn Ln. destruct (W _ Fn) as [Fb Lb].
      assert (E : wp_block I isd kd [encode_iter c bb next] X = fun s => if holds I c s then wp_block I isd kd bb (wp_block I isd kd next X) s else X s).
      { unfold wp_block at 1. cbn [fold_right]. rewrite wp_iter. reflexivity. }
      rewrite E. split; [apply free_if; auto|]. intros s Hs. unfold F, body_map. destruct (holds I c s); [|apply dle_refl].
      apply dle_trans with (pwps I k b (wp_block I isd kd next X) s); [now apply Lb|].
      apply mono_d; auto. now apply (pwps_mono I isd pc HI).
    Qed.

    (** ** k-induction *)
    Variables (inv : expr).
    Hypothesis Hi : clean pc inv.
    Fixpoint pext (X : exp) (j : nat) : exp :=
      match j with O => ev I inv | S j' => fun s => djoin r (ev I inv s) (F X (pext X j') s) end.

    Lemma const_sem X s : wp_block I isd kd (pgcl_const inv) X s = ev I inv s.
    Proof. exact (wp_hey_const I isd kd inv Down X s). Qed.

    Lemma worth_extend j : forall st n st', Forall good st -> pgcl_extend r c body inv j (pgcl_const inv) st = Some (n, st') ->
      Forall good st' /\ forall X, free X -> free (wp_block I isd kd n X) /\ dexp_le r (wp_block I isd kd n X) (pext X j).
    Proof.
      induction j as [|j IH]; intros st n st' H E; cbn [pgcl_extend] in E.
      - injection E as <- <-. split; auto. intros X HX. split.
        + intros s s' Hs Hs' A. rewrite !const_sem. now apply (unread_blind (fun x => x = pc)).
        + intros s Hs. rewrite const_sem. apply dle_refl.
      - destruct (pgcl_extend r c body inv j (pgcl_const inv) st) as [[n1 st1]|] eqn:En; [|discriminate].
        destruct (pgcl_iter c body n1 st1) as [[b2 st2]|] eqn:Eb; [|discriminate]. injection E as <- <-.
        destruct (IH _ _ _ H En) as [H1 W1]. destruct (worth_iter _ _ _ _ H1 Eb) as [H2 W2]. split; auto.
        intros X HX. destruct (W1 X HX) as [F1 L1]. destruct (W2 X (pext X j) HX F1 L1) as [F2 L2].
        assert (E : forall s, wp_block I isd kd (SAssert (toggle_dir r) inv :: b2) X s = djoin r (ev I inv s) (wp_block I isd kd b2 X s)).
        { intros s. unfold wp_block at 1. cbn [fold_right]. now rewrite wp_assert_toggle. }
        split.
        + intros s s' Hs Hs' A. rewrite !E. f_equal; [now apply (unread_blind (fun x => x = pc)) | now apply F2].
        + intros s Hs. rewrite E. cbn [pext]. apply djoin_lub; [apply djoin_l|].
          eapply dle_trans; [apply L2; auto | apply djoin_r].
    Qed.

    Lemma pext_inc X j : dexp_le r (pext X j) (pext X (S j)).
    Proof.
      induction j as [|j IH]; intros s Hs; [apply djoin_l|]. cbn [pext].
      apply djoin_lub; [apply djoin_l|]. apply dle_trans with (F X (pext X (S j)) s); [|apply djoin_r].
      apply mono_d; auto. now apply (body_mono I isd pc).
    Qed.
    Lemma pext_ge X j : dexp_le r (ev I inv) (pext X j).
    Proof. destruct j; intros s Hs; [apply dle_refl | apply djoin_l]. Qed.
    Lemma pext_post X j t : env_ok t -> dle r (ev I inv t) (F X (pext X j) t) -> dle r (pext X j t) (F X (pext X j) t).
    Proof.
      intros Ht H. destruct j as [|j]; auto. cbn [pext] in *.
      apply djoin_lub; auto. apply mono_d; auto; [now apply (body_mono I isd pc)|]. apply pext_inc.
    Qed.

    Lemma worth_loop n : (0 < n)%nat -> worth r (pgcl_loop false r c body (flat_map modified b) inv n) (fun X => dfix r (F X)).
    Proof.
      intros Hn st b' st' H E. unfold pgcl_loop in E. destruct n as [|n]; [lia|].
      destruct (pgcl_extend r c body inv n (pgcl_const inv) st) as [[n1 st1]|] eqn:En; [|discriminate].
      destruct (pgcl_iter c body n1 st1) as [[b2 st2]|] eqn:Eb; [|discriminate]. injection E as <- <-.
      destruct (worth_extend _ _ _ _ H En) as [H1 W1]. destruct (worth_iter _ _ _ _ H1 Eb) as [H2 W2]. split; auto.
      intros X HX. destruct (W1 X HX) as [F1 L1]. destruct (W2 X (pext X n) HX F1 L1) as [F2 L2].
      set (vars := flat_map modified b) in *. set (B := wp_block I isd kd b2 X) in *.
      set (C := fun s' => if dec (dle r (ev I inv s') (B s')) then dtop r else dbot r).
      assert (E : forall s, wp_block I isd kd (pgcl_spec r inv vars ++ b2) X s = dmeet r (ev I inv s) (havoc_sem r vars C s)).
      { intros s. rewrite wp_block_app. unfold pgcl_spec. unfold wp_block at 1. cbn [fold_right]. rewrite wp_assert. f_equal.
        cbn [wp]. fold B. f_equal. apply FunctionalExtensionality.functional_extensionality. intros t. apply validate_assume_sem. }
      assert (BI : blind (fun x => x = pc) (ev I inv)) by now apply unread_blind.
      split.
      - intros s s' Hs Hs' A. rewrite !E. f_equal; [now apply BI|]. apply (blind_havoc (fun x => x = pc)); auto.
        intros t t' Ht Ht' At. unfold C. now rewrite (BI t t' Ht Ht' At), (F2 t t' Ht Ht' At).
      - intros s Hs. rewrite E.
        destruct (havoc_check r vars (fun s' => dle r (ev I inv s') (B s')) C s (fun _ _ => eq_refl)) as [[E' A]|[E' _]]; rewrite E'.
        + rewrite dmeet_top. apply dle_trans with (pext X n s); [now apply pext_ge|].
          apply (dfix_local r (fun x => In x vars)); auto; [now apply (body_mono I isd pc) | now apply (body_local I isd pc)|].
          intros t Ht. apply pext_post; [apply Ht|].
          apply dle_trans with (B t); [|apply L2, Ht].
          apply A. split; [intros x Hx; now apply Ht | intros x Hx; apply Ht].
        + apply dle_trans with (dbot r); [apply dmeet_r | apply dbot_le].
    Qed.
  End Loop.

  (** ** Unrolling *)
  Section Unroll.
    Variables (c : expr) (body : trans) (b : list pinstr).
    Hypothesis Hc : clean pc c.
    Hypothesis Ob : All (pok isd pc) b.
    Hypothesis Wb : worth Down body (pwps I Least b).
    Let F := body_map I Least c b.

    Lemma worth_bmc j : forall st n st', Forall good st ->
      pgcl_bmc c body j (pgcl_const (ECast TEUReal (b_uint 0))) st = Some (n, st') ->
      Forall good st' /\ forall X, free X -> free (wp_block I isd kd n X) /\ exp_le (wp_block I isd kd n X) (lfp (F X)).
    Proof.
      induction j as [|j IH]; intros st n st' H E; cbn [pgcl_bmc] in E.
      - injection E as <- <-. split; auto. intros X HX.
        assert (Z : forall s, wp_block I isd kd (pgcl_const (ECast TEUReal (b_uint 0))) X s = ebot).
        { intros s. rewrite const_sem. exact (ev_extreme I Down s). }
        split; [intros s s' _ _ _; now rewrite !Z|]. intros s Hs. rewrite Z. apply ebot_le.
      - destruct (pgcl_bmc c body j _ st) as [[n1 st1]|] eqn:En; [|discriminate].
        destruct (IH _ _ _ H En) as [H1 W1]. destruct (worth_iter Down Least c body b Hc Ob Wb _ _ _ _ H1 E) as [H2 W2]. split; auto.
        intros X HX. destruct (W1 X HX) as [F1 L1]. destruct (W2 X (lfp (F X)) HX F1 L1) as [F2 L2]. split; [exact F2|].
        intros s Hs. eapply ele_trans; [apply L2; auto|]. apply lfp_prefix; auto. now apply (body_mono I isd pc).
    Qed.
    Lemma worth_unroll inv vars n : (0 < n)%nat -> worth Down (pgcl_loop true Up c body vars inv n) (fun X => lfp (F X)).
    Proof.
      intros Hn st b' st' H E. unfold pgcl_loop in E. destruct n as [|n]; [lia|]. cbv zeta in E.
      destruct (pgcl_bmc c body n _ st) as [[n1 st1]|] eqn:En; [|discriminate].
      destruct (pgcl_iter c body n1 st1) as [[b2 st2]|] eqn:Eb; [|discriminate]. injection E as <- <-.
      destruct (worth_bmc _ _ _ _ H En) as [H1 W1]. destruct (worth_iter Down Least c body b Hc Ob Wb _ _ _ _ H1 Eb) as [H2 W2]. split; auto.
      intros X HX. destruct (W1 X HX) as [F1 L1]. destruct (W2 X (lfp (F X)) HX F1 L1) as [F2 L2]. split; [exact F2|].
      intros s Hs. eapply ele_trans; [apply L2; auto|]. apply lfp_prefix; auto. now apply (body_mono I isd pc).
    Qed.
  End Unroll.

  (** ** Whole programs *)
  Variables (bmc : bool) (d r : direction) (k : fixkind).
  Hypothesis mode : (bmc = false /\ r = d /\ k = kind_of d) \/ (bmc = true /\ d = Up /\ r = Down /\ k = Least).

  Lemma worth_list l : Forall (fun i => pok isd pc i -> worth r (direct bmc pc d i) (pwp I k i)) l ->
    All (pok isd pc) l -> worth r (directs bmc pc d l) (pwps I k l).
  Proof.
    induction 1 as [|i l Hi Hl IH]; intros O; [exact (worth_nil r)|]. destruct O as [Oi Ol].
    apply (worth_seq r (direct bmc pc d i) (directs bmc pc d l) (pwp I k i) (pwps I k l)); auto.
    now apply (pwp_mono I isd pc HI).
  Qed.

  Lemma worth_direct i : pok isd pc i -> worth r (direct bmc pc d i) (pwp I k i).
  Proof.
    induction i as [|c b IH|c a b IHa IHb|x e|p a b IHa IHb|e] using pinstr_all; intros O st b' st' H E; cbn [direct] in E.
    - exact (worth_nil r st b' st' H E).
    - destruct O as (Hc & _ & O). destruct st as [|[n inv] st0]; [discriminate|].
      inversion H as [|? ? [Hn [_ Hi]] H0]; subst. cbn [fst snd] in *.
      pose proof (worth_list b IH O) as Wb.
      change (fold_right (fun i r => tseq (direct bmc pc d i) r) tnil b) with (directs bmc pc d b) in E.
      destruct mode as [(-> & -> & ->) | (-> & -> & -> & ->)].
      + pose proof (worth_loop d (kind_of d) c _ b Hc O Wb inv Hi n Hn st0 b' st' H0 E) as W. destruct d; exact W.
      + exact (worth_unroll c _ b Hc O Wb inv _ n Hn st0 b' st' H0 E).
    - destruct O as (Hc & _ & Oa & Ob). pose proof (worth_list a IHa Oa) as Wa. pose proof (worth_list b IHb Ob) as Wb.
      change (fold_right (fun i r => tseq (direct bmc pc d i) r) tnil a) with (directs bmc pc d a) in E.
      change (fold_right (fun i r => tseq (direct bmc pc d i) r) tnil b) with (directs bmc pc d b) in E.
      destruct (directs bmc pc d a st) as [[a1 st1]|] eqn:Ea; [|discriminate].
      destruct (directs bmc pc d b st1) as [[b1 st2]|] eqn:Eb; [|discriminate]. injection E as <- <-.
      destruct (Wa _ _ _ H Ea) as [H1 W1]. destruct (Wb _ _ _ H1 Eb) as [H2 W2]. split; auto.
      intros X HX. destruct (W1 X HX) as [F1 L1]. destruct (W2 X HX) as [F2 L2].
      change (wp_block I isd kd [SIf c a1 b1] X) with (fun s => if holds I c s then wp_block I isd kd a1 X s else wp_block I isd kd b1 X s).
      split; [now apply free_if|]. intros s Hs. cbn [pwp]. destruct (holds I c s); [now apply L1 | now apply L2].
    - destruct O as (Hx & Hc & W & Ty & Hf). injection E as <- <-. split; auto. intros X HX.
      assert (E : forall s, wp_block I isd kd [SAssign [x] e] X s = pwp I k (PAsgn x e) X s) by (intros s; exact (wp_asgn I isd kd x e X s Hf)).
      split.
      + intros s s' Hs Hs' A. rewrite !E. apply (pwp_free I isd pc HI k (PAsgn x e)); auto. cbn; auto.
      + intros s Hs. rewrite E. apply dle_refl.
    - destruct O as (Hc & W & Ty & Oa & Ob). pose proof (worth_list a IHa Oa) as Wa. pose proof (worth_list b IHb Ob) as Wb.
      change (fold_right (fun i r => tseq (direct bmc pc d i) r) tnil a) with (directs bmc pc d a) in E.
      change (fold_right (fun i r => tseq (direct bmc pc d i) r) tnil b) with (directs bmc pc d b) in E.
      destruct (directs bmc pc d a st) as [[a1 st1]|] eqn:Ea; [|discriminate].
      destruct (directs bmc pc d b st1) as [[b1 st2]|] eqn:Eb; [|discriminate]. injection E as <- <-.
      destruct (Wa _ _ _ H Ea) as [H1 W1]. destruct (Wb _ _ _ H1 Eb) as [H2 W2]. split; auto.
      intros X HX. destruct (W1 X HX) as [F1 L1]. destruct (W2 X HX) as [F2 L2].
      split.
      + intros s s' Hs Hs' A. rewrite !(wp_choice I isd pc HI Hflip Hpc) by auto.
        rewrite (unread_eval (fun y => y = pc) I p s s' Hc A). destruct (eval I p s'); auto.
        now rewrite (F1 s s' Hs Hs' A), (F2 s s' Hs Hs' A).
      + intros s Hs. rewrite (wp_choice I isd pc HI Hflip Hpc) by auto. cbn [pwp].
        destruct (eval I p s); try apply dle_refl.
        assert (M : forall u v w z, dle r u v -> dle r w z -> dle r (eadd u w) (eadd v z)) by (destruct r; intros; apply eadd_mono; auto).
        assert (M' : forall u v w, dle r v w -> dle r (emul u v) (emul u w)) by (destruct r; intros; apply emul_mono; auto; apply ele_refl).
        apply M; apply M'; [now apply L1 | now apply L2].
    - destruct O as (Hc & Ie). injection E as <- <-. split; auto. intros X HX.
      change (wp_block I isd kd [STick e] X) with (pwp I k (PTick e) X).
      split; [apply (pwp_free I isd pc HI k (PTick e)); cbn; auto | intros s Hs; apply dle_refl].
  Qed.

  Theorem worth_directs l : All (pok isd pc) l -> worth r (directs bmc pc d l) (pwps I k l).
  Proof. intros O. apply worth_list; auto. rewrite Forall_forall. intros i _. now apply worth_direct. Qed.
End Sound.
