(** Soundness of the optional stopping rule. *)
From Coq Require Import Bool List String NArith QArith Reals Lra Lia ClassicalEpsilon.
From Verif.Model Require Import Syntax Builder TyCtx AstUtil Lits ProofRules Procs LoopProcs.
From Verif.Spec Require Import Eur Sem Wp Frame Loops Calls Termination.
From Verif.Proofs Require Import EurLemmas SemLemmas WpLemmas MonoProofs FrameProofs LoopProofs OmegaProofs SimLemmas TermRules TermProcs.
Import ListNotations.
Local Open Scope list_scope.

Ltac step_ok E := apply rbind_ok in E as [? [? E]].

(** ** Values of the generated expressions *)
Lemma ev_emb I e s : is_guard e -> interp_ok I -> env_ok s -> ev I (emb e) s = etruth (holds I e s).
Proof. intros He HI Hs. unfold ev, emb. cbn [eval]. now rewrite (holds_spec I e s HI He Hs). Qed.
Lemma ev_ivs I e s : is_guard e -> interp_ok I -> env_ok s -> ev I (ivs e) s = if holds I e s then eone else ebot.
Proof. intros He HI Hs. unfold ev, ivs. cbn [eval]. now rewrite (holds_spec I e s HI He Hs). Qed.
Lemma etruth_top b : ele etop (etruth b) -> b = true.
Proof. destruct b; [auto|]. intros H. apply top_le in H. exfalso. apply ebot_neq_etop. exact H. Qed.
Lemma ev_zero I s : ev I zero s = ebot.
Proof. reflexivity. Qed.
Lemma ev_one I s : ev I (b_cast TEUReal (b_uint 1)) s = eone.
Proof. reflexivity. Qed.
Lemma ev_cast_ureal I e s : interp_ok I -> env_ok s -> wt e = true -> ty_of e = TUReal ->
  exists x, eval I e s = VUReal x /\ ev I (b_cast TEUReal e) s = Fin x.
Proof.
  intros HI Hs W Ty. assert (V : has_ty (eval I e s) (ty_of e)) by (apply eval_ty; auto). rewrite Ty in V. unfold has_ty in V.
  destruct (eval I e s) eqn:E; try discriminate. exists x. split; auto. unfold b_cast. rewrite Ty. cbn [ty_eqb]. unfold ev. cbn [eval]. now rewrite E.
Qed.

(** A procedure without specification that asserts a condition. *)
Lemma meets_assert I isd k p e s : pdir p = Down -> pspecs p = [] -> meets I p (wp_block I isd k [SAssert Down e]) -> env_ok s ->
  ele etop (ev I e s).
Proof.
  intros Hd Hs M Hok. specialize (M s Hok). unfold requires, ensures in M. rewrite Hd, Hs in M. cbn in M.
  apply ele_trans with (1 := M). apply emin_l.
Qed.
(** One with a single pre and post. *)
Lemma meets_one I p d F a b s : pdir p = d -> pspecs p = [Requires a; Ensures b] -> meets I p F -> env_ok s ->
  below d (ev I a s) (F (fun t => ev I b t) s).
Proof.
  intros Hd Hs M Hok. specialize (M s Hok). unfold requires, ensures, spec_exp in M. rewrite Hd, Hs in M. cbn [flat_map app map] in M.
  assert (E : forall x, all_of d [x] = x).
  { intros x. destruct d; cbn.
    - apply ele_antisym; [apply emin_l | apply emin_glb; [apply ele_refl | apply ele_top]].
    - apply ele_antisym; [apply emax_lub; [apply ele_refl | apply ebot_le] | apply emax_l]. }
  rewrite E in M. replace (fun t => ev I b t) with (fun t => all_of d [ev I b t]); auto.
  apply FunctionalExtensionality.functional_extensionality. intros t. apply E.
Qed.

Section Ost.
  Variables (variant : nat -> nat) (dspan : nat).
  Hypothesis variant_inj : forall a b, variant a = variant b -> a = b.
  Variables (I : interp) (isd isf : string -> bool) (c : expr) (body : list stmt) (inv past_inv cc post : expr).
  Hypothesis HI : interp_ok I.
  Hypothesis Wb : All (wts isd isf) body.
  Hypothesis Pb : All (every linear) body.
  Hypothesis Tb : subtotal I isd Least body.
  Hypothesis Wc : is_guard c.
  Hypothesis Winv : is_exp inv.
  Hypothesis Wpast : is_exp past_inv.
  Hypothesis Wpost : is_exp post.
  Hypothesis Wcc : wt cc = true /\ ty_of cc = TUReal /\ forall x, ~ fv x cc.
  Hypothesis C : clear_of_inits variant c body [inv; past_inv; post].
  Let B := wp_block I isd Least body.
  Notation init := (init_ident variant).
  Let mv := modified_vars c body.

  Theorem ost_sound T base blk ps T' : ost_transform variant dspan T base [inv; past_inv; cc; post] c body = Ok (blk, ps, T') ->
    verified I isd Least ps -> exp_le (ev I inv) (lfp (Phi I isd Least c body (ev I post))).
  Proof.
    intros E Vf. unfold ost_transform in E. fold mv in E.
    apply rbind_ok in E as [inv_vars [Einv E]]. apply rbind_ok in E as [past_vars [Epast E]].
    apply rbind_ok in E as [[is T1] [Ei E]]. apply rbind_ok in E as [ies [Ee E]]. apply rbind_ok in E as [ias [Ea E]].
    apply rbind_ok in E as [[init_inv T2] [Eii E]]. apply rbind_ok in E as [[init_past T3] [Eip E]].
    apply rbind_ok in E as [hv [Ehv E]]. apply rbind_ok in E as [ins1 [_ E]].
    apply rbind_ok in E as [[p1 T4] [G1 E]]. apply rbind_ok in E as [insI [_ E]]. apply rbind_ok in E as [outsM [_ E]].
    apply rbind_ok in E as [[p2 T5] [G2 E]]. apply rbind_ok in E as [[p3 T6] [G3 E]]. apply rbind_ok in E as [ins4 [_ E]].
    apply rbind_ok in E as [[p4 T7] [G4 E]]. apply rbind_ok in E as [[p5 T8] [G5 E]]. apply rbind_ok in E as [[p6 T9] [G6 E]].
    apply rbind_ok in E as [es [_ E]]. injection E as <- <- <-.
    apply get_init_ok in Ei. subst is. apply ident_exprs_ok in Ee. subst ies. apply multiple_assign_ok in Ea. subst ias.
    apply to_init_ok in Eii, Eip. subst init_inv init_past.
    apply generate_proc_ok in G1, G2, G3, G4, G5, G6.
    destruct G1 as (D1 & S1 & B1), G2 as (D2 & S2 & B2), G3 as (D3 & S3 & B3), G4 as (D4 & S4 & B4), G5 as (D5 & S5 & B5), G6 as (D6 & S6 & B6).
    assert (M1 := Vf p1 _ ltac:(cbn; auto) B1). assert (M2 := Vf p2 _ ltac:(cbn; auto) B2). assert (M3 := Vf p3 _ ltac:(cbn; auto) B3).
    assert (M4 := Vf p4 _ ltac:(cbn; auto) B4). assert (M5 := Vf p5 _ ltac:(cbn; auto 10) B5). assert (M6 := Vf p6 _ ltac:(cbn; auto 10) B6).
    clear Vf B1 B2 B3 B4 B5 B6.
    assert (Hmv : forall x, In x mv -> ~ inits variant x) by (intros x; apply (mv_clear variant c body _ C)).
    assert (Finv : forall x, In x inv_vars -> ~ inits variant x) by (apply (vars_fresh variant c body _ C inv); cbn; auto).
    assert (Fpast : forall x, In x past_vars -> ~ inits variant x) by (apply (vars_fresh variant c body _ C past_inv); cbn; auto).
    assert (Pull : forall s, pull variant mv (sync variant s) = sync variant s) by (intros s; apply (pull_mv variant variant_inj c body _ C)).
    assert (Gd : forall s, holds I c (sync variant s) = holds I c s) by (intros s; apply (guard_sync variant I c body _ C)).
    assert (Sy : forall X s, blind (inits variant) X -> env_ok s -> X (sync variant s) = X s) by (intros; now apply at_sync).
    assert (Bl : forall X, blind (inits variant) X -> blind (inits variant) (B X)) by (intros; eapply B_blind; eauto).
    assert (Einv_b : blind (inits variant) (ev I inv)) by (eapply ev_blind; eauto; cbn; auto).
    assert (Epast_b : blind (inits variant) (ev I past_inv)) by (eapply ev_blind; eauto; cbn; auto).
    assert (Epost_b : blind (inits variant) (ev I post)) by (eapply ev_blind; eauto; cbn; auto).
    assert (Pphi : forall s, env_ok s -> Phi I isd Least c body (ev I post) (ev I inv) (sync variant s) = Phi I isd Least c body (ev I post) (ev I inv) s).
    { intros s Hs. unfold Phi. rewrite Gd. destruct (holds I c s); [apply (Sy (B (ev I inv))) | apply (Sy (ev I post))]; auto. }
    destruct Wcc as (W1 & W2 & W3).
    assert (Hcc : exists b, (0 <= b)%R /\ forall s, env_ok s -> ev I (b_cast TEUReal cc) s = fin b).
    { destruct (excluded_middle_informative (exists s, env_ok s)) as [(s0 & Hs0)|Hn].
      - destruct (ev_cast_ureal I cc s0 HI Hs0 W1 W2) as (x & X1 & X2). exists (nval x). split; [apply nval_nonneg|].
        intros s Hs. destruct (ev_cast_ureal I cc s HI Hs W1 W2) as (y & Y1 & Y2). rewrite Y2, <- Fin_fin.
        rewrite (eval_ext I cc s s0), X1 in Y1 by (intros z Hz; destruct (W3 z Hz)). congruence.
      - exists 0%R. split; [lra|]. intros s Hs. exfalso. eauto. }
    destruct Hcc as (b & Hb & Hcc).
    apply (stopping_rule I isd isf c body HI Wb Pb Tb (ev I inv) (ev I post) (ev I past_inv) b Hb).
    - (* finite past *)
      intros s Hs. pose proof (meets_assert I isd Least p1 _ s D1 S1 M1 Hs) as H. rewrite ev_emb in H; auto.
      2:{ destruct Wpast as [A1 A2]. split; cbn; rewrite ?A1, ?A2; auto. }
      apply etruth_top in H. unfold holds in H. cbn [eval] in H. rewrite (ev_spec I past_inv s HI Wpast Hs) in H. cbn in H.
      intros Ep. rewrite Ep in H. discriminate.
    - (* past *)
      intros s Hs Hg. pose proof (meets_one I p2 Up _ _ _ (sync variant s) D2 S2 M2 (sync_ok variant variant_inj s Hs)) as H.
      cbn [below] in H. rewrite wp_block_app, wp_init_assigns, Pull in H by auto. cbn [wp_block fold_right] in H. rewrite wp_iter in H.
      unfold Phi in H. rewrite Gd, Hg in H. rewrite ev_init_expr in H by auto. rewrite pull_sync in H by auto. rewrite (Sy (ev I past_inv)) in H by auto.
      fold B in H. rewrite (Sy (B _)) in H; auto.
      2:{ apply Bl. intros t t' Ht Ht' Et. change (eadd (wp_block I isd Least (hey_const past_inv Up) (fun t0 => ev I zero t0) t) eone =
            eadd (wp_block I isd Least (hey_const past_inv Up) (fun t0 => ev I zero t0) t') eone).
          rewrite !wp_hey_const. f_equal. apply Epast_b; auto. }
      eapply ele_trans; [|exact H]. apply (body_mono I isd isf body HI Wb Pb); auto. intros t Ht.
      change (ele (eadd (ev I past_inv t) eone) (eadd (wp_block I isd Least (hey_const past_inv Up) (fun t0 => ev I zero t0) t) eone)).
      rewrite wp_hey_const. apply ele_refl.
    - (* conditional difference *)
      intros s Hs Hg. pose proof (meets_one I p3 Up _ _ _ (sync variant s) D3 S3 M3 (sync_ok variant variant_inj s Hs)) as H.
      cbn [below] in H. rewrite wp_block_app, wp_init_assigns, Pull in H by auto. rewrite Hcc in H by now apply sync_ok.
      eapply ele_trans; [|exact H]. fold B. rewrite <- (Sy (B _) s); auto.
      2:{ apply Bl. intros t t' Ht Ht' Et. f_equal. apply Einv_b; auto. }
      rewrite (B_local I isd isf Least body HI Wb Pb (fun t => distance (ev I inv s) (ev I inv t))
        (fun t => ev I (EIte TEUReal (EBin TBool OLe (init_expr variant inv inv_vars) inv) (EBin TEUReal OSub inv (init_expr variant inv inv_vars)) (EBin TEUReal OSub (init_expr variant inv inv_vars) inv)) t)).
      + apply ele_refl.
      + now apply sync_ok.
      + intros t Ht. assert (Hk : eval I (init_expr variant inv inv_vars) t = eval I inv s).
        { apply (init_kept variant variant_inj I c body _ C inv inv_vars s t); auto.
          - apply (cl_exprs _ _ _ _ C). cbn; auto.
          - intros x Hx. left. apply (vars_clear [inv; past_inv; post] inv inv_vars); cbn; auto. }
        unfold ev at 3. cbn [eval]. rewrite Hk, (ev_spec I inv s HI Winv Hs), (ev_spec I inv t HI Winv (proj1 Ht)). unfold distance.
        cbn. destruct (eleb (ev I inv s) (ev I inv t)); reflexivity.
    - (* harmonize *)
      intros s Hs Hg. pose proof (meets_assert I isd Least p4 _ s D4 S4 M4 Hs) as H. rewrite ev_emb in H; auto.
      2:{ destruct Winv as [A1 A2], Wpost as [A3 A4], Wc as [A5 A6]. split; auto. cbn. rewrite A1, A2, A3, A4, A5, A6. auto. }
      apply etruth_top in H. unfold holds, neg in H. cbn [eval] in H.
      rewrite (ev_spec I inv s HI Winv Hs), (ev_spec I post s HI Wpost Hs), (holds_spec I c s HI Wc Hs), Hg in H. cbn in H.
      unfold veq in H. cbn in H. destruct (dec (VEur (ev I inv s) = VEur (ev I post s))) eqn:Ed; [|discriminate].
      apply (proj1 (dec_iff _)) in Ed. injection Ed as Ed. exact Ed.
    - (* finite iteration *)
      intros s Hs. pose proof (meets_one I p5 Up _ _ _ (sync variant s) D5 S5 M5 (sync_ok variant variant_inj s Hs)) as H.
      cbn [below] in H. rewrite wp_block_app, wp_init_assigns, Pull in H by auto. rewrite ev_zero in H.
      unfold wp_block in H. cbn [fold_right] in H. rewrite wp_validate, wp_assume, wp_iter in H.
      intros Et. assert (Ev : ev I b_inf (sync variant s) = Inf) by reflexivity. rewrite Ev in H.
      rewrite validate_assume_sem in H.
      assert (Ep : Phi I isd Least c body (fun t => ev I post t) (wp_block I isd Least (hey_const inv Up) (fun t => ev I post t)) (sync variant s) = Inf).
      { rewrite <- Et, <- Pphi by auto. unfold Phi. destruct (holds I c (sync variant s)); auto.
        apply (mono_eq (wp_block I isd Least body)); [apply (body_mono I isd isf body HI Wb Pb) | | now apply sync_ok].
        intros t Ht. apply wp_hey_const. }
      change (fold_right (wp I isd Least) (fun t => ev I post t) (hey_const inv Up)) with (wp_block I isd Least (hey_const inv Up) (fun t => ev I post t)) in H.
      rewrite Ep, dec_true in H by (cbn; exact Logic.I). apply top_le in H. now apply ebot_neq_etop.
    - (* lower bound *)
      intros s Hs. pose proof (meets_one I p6 Down _ _ _ (sync variant s) D6 S6 M6 (sync_ok variant variant_inj s Hs)) as H.
      cbn [below] in H. rewrite wp_block_app, wp_init_assigns, Pull in H by auto. cbn [wp_block fold_right] in H. rewrite wp_iter in H.
      rewrite ev_init_expr in H by auto. rewrite pull_sync in H by auto. rewrite (Sy (ev I inv)) in H by auto.
      eapply ele_trans; [exact H|]. rewrite <- Pphi by auto. unfold Phi. destruct (holds I c (sync variant s)); [|apply ele_refl].
      apply (body_mono I isd isf body HI Wb Pb); [|now apply sync_ok]. intros t Ht. 
      change (fold_right (wp I isd Least) (fun t0 => ev I post t0) (hey_const inv Down) t) with (wp_block I isd Least (hey_const inv Down) (fun t0 => ev I post t0) t).
      rewrite wp_hey_const. apply ele_refl.
  Qed.
End Ost.
