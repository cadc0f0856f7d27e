(** The ranking rule, given the third condition as documented. *)
From Coq Require Import Bool List String NArith ZArith QArith Qreals Reals Lra Lia FunctionalExtensionality.
From Verif.Model Require Import Syntax Builder TyCtx AstUtil Lits ProofRules Procs LoopProcs.
From Verif.Spec Require Import Eur Sem Wp Frame Loops Calls Termination.
From Verif.Proofs Require Import EurLemmas SemLemmas WpLemmas MonoProofs FrameProofs LoopProofs OmegaProofs SimLemmas Scaling TermRules TermProcs OstProofs AstProofs.
Import ListNotations.
Local Open Scope list_scope.
Local Open Scope R_scope.

(** The literals the rule accepts have the value it reads off. *)
Lemma lit_rational_eval I e q s : is_ureal e -> lit_rational e = Ok q -> uval (eval I e s) = Q2R q.
Proof.
  intros [W Ty] E. destruct e as [x|t f l|t c a b|t op a b|t op a|t a|op xs a|x b a|t l]; cbn [lit_rational] in E; try discriminate; cbn [ty_of] in Ty; subst.
  - cbn [wt] in W. apply andb_true_iff in W as [W C]. destruct (ty_of a) eqn:Ta; try discriminate C.
    destruct a as [x|t f l|t c a b|t op a b|t op a|t a|op xs a|x b a|t l]; cbn [lit_rational] in E; try discriminate; cbn [ty_of] in Ta; subst.
    + cbn [wt] in W. apply andb_true_iff in W as [_ C']. destruct (ty_of a); discriminate.
    + destruct l; try discriminate. injection E as <-. cbn [eval eval_lit eval_cast uval]. unfold n2r.
      rewrite nval_of by (apply IZR_le; lia). unfold Q2R. cbn. lra.
  - destruct l; try discriminate. injection E as <-. cbn [eval eval_lit uval]. cbn [wt lit_ok] in W. apply Qle_bool_iff in W.
    apply Qle_Rle in W. rewrite nval_of; auto. unfold Q2R in W at 1. cbn in W. lra.
Qed.
Lemma lit_fixed I e q s t : is_ureal e -> lit_rational e = Ok q -> uval (eval I e s) = uval (eval I e t).
Proof. intros W E. now rewrite (lit_rational_eval I e q s), (lit_rational_eval I e q t). Qed.

Lemma le_guard a b : is_exp a -> is_exp b -> is_guard (EBin TBool OLe a b).
Proof. intros [A1 A2] [A3 A4]. split; auto. cbn [wt]. rewrite A1, A3, A2, A4. reflexivity. Qed.

Section PastRule.
  Variables (I : interp) (isd isf : string -> bool) (k : fixkind) (c : expr) (body : list stmt).
  Hypothesis HI : interp_ok I.
  Hypothesis Wb : All (wts isd isf) body.
  Hypothesis Pb : All (every scalable) body.
  Let B := wp_block I isd k body.
  (** past.md: [inv] decreases by [eps] in expectation while the guard holds, where it is at least [K > eps]. *)
  Theorem past_rule (inv : exp) (eps K : R) : 0 < eps -> eps < K ->
    (forall s, env_ok s -> holds I c s = true -> ele (fin K) (inv s)) ->
    (forall s, env_ok s -> holds I c s = true -> ele (B inv s) (emonus (inv s) (fin eps))) ->
    exp_le (iterations I isd k c body) (fun s => if holds I c s then emul (fin (/ eps)) (inv s) else ebot).
  Proof.
    intros He HeK H2 H3. apply lfp_least. intros s Hs. cbv beta. destruct (holds I c s) eqn:E; [|apply ele_refl].
    assert (Hie : 0 < / eps) by (apply Rinv_0_lt_compat; auto).
    assert (H4 : ele (wp_block I isd k body (fun t => if holds I c t then emul (fin (/ eps)) (inv t) else ebot) s)
                     (emul (fin (/ eps)) (emonus (inv s) (fin eps)))).
    { apply ele_trans with (B (scale (/ eps) inv) s).
      - apply (wp_block_mono I isd isf k body HI Wb (scalable_block_no_negate body Pb)); auto. intros t Ht. destruct (holds I c t); [apply ele_refl | apply ebot_le].
      - unfold B. rewrite (block_scales I isd isf k HI body (/ eps) inv s) by auto. apply emul_mono; [apply ele_refl | auto]. }
    specialize (H2 s Hs E). destruct (eur_cases (inv s)) as [(r & Hr & Er) | Er].
    - rewrite Er in *. apply (proj1 (ele_fin K r ltac:(lra) Hr)) in H2. rewrite emonus_fin in H4 by lra.
      rewrite emul_fin in H4 by lra. rewrite emul_fin by lra.
      apply ele_trans with (eadd eone (fin (/ eps * (r - eps)))); [apply eadd_mono; [apply ele_refl | auto]|].
      assert (0 <= / eps * (r - eps)) by (apply Rmult_le_pos; lra).
      unfold eone. rewrite eadd_fin by lra. assert (0 <= / eps * r) by (apply Rmult_le_pos; lra). apply ele_fin; try lra.
      replace (/ eps * (r - eps)) with (/ eps * r - 1) by (field; lra). lra.
    - rewrite Er, emul_Inf_r by auto. apply ele_top.
  Qed.
End PastRule.

Section Past.
  Variables (variant : nat -> nat) (dspan : nat).
  Variables (I : interp) (isd isf : string -> bool) (k : fixkind) (c : expr) (body : list stmt) (inv eps K : expr).
  Hypothesis HI : interp_ok I.
  Hypothesis Wb : All (wts isd isf) body.
  Hypothesis Pb : All (every scalable) body.
  Hypothesis Wc : is_guard c.
  Hypothesis Winv : is_exp inv.
  Hypothesis Weps : is_ureal eps.
  Hypothesis WK : is_ureal K.
  Let B := wp_block I isd k body.

  Theorem past_sound T base blk ps T' : past_transform variant dspan T base [inv; eps; K] c body = Ok (blk, ps, T') ->
    verified I isd k (map coerced (firstn 2 ps)) ->
    forall s0, env_ok s0 -> 0 < uval (eval I eps s0) ->
    (forall s, env_ok s -> holds I c s = true -> ele (B (ev I inv) s) (emonus (ev I inv s) (ev I (b_cast TEUReal eps) s))) ->
    ele (iterations I isd k c body s0) (if holds I c s0 then emul (fin (/ uval (eval I eps s0))) (ev I inv s0) else ebot).
  Proof.
    intros E Vf s0 Hs0 Heps H3. unfold past_transform in E. cbv zeta in E. unfold past_conditions in E.
    apply rbind_ok in E as [qe [Ee E]]. apply rbind_ok in E as [qk [Ek E]]. destruct (Qle_bool qk qe) eqn:Hq; [discriminate|].
    apply rbind_ok in E as [iv [_ E]]. apply rbind_ok in E as [[is T1] [_ E]]. apply rbind_ok in E as [ies [_ E]].
    apply rbind_ok in E as [ias [_ E]]. apply rbind_ok in E as [[ii T2] [_ E]]. apply rbind_ok in E as [v1 [_ E]]. apply rbind_ok in E as [i1 [_ E]].
    apply rbind_ok in E as [[p1 T3] [G1 E]]. apply rbind_ok in E as [v2 [_ E]]. apply rbind_ok in E as [i2 [_ E]].
    apply rbind_ok in E as [[p2 T4] [G2 E]]. apply rbind_ok in E as [i3 [_ E]]. apply rbind_ok in E as [o3 [_ E]].
    apply rbind_ok in E as [[p3 T5] [_ E]]. injection E as <- <- <-.
    apply generate_proc_ok in G2. destruct G2 as (D2 & S2 & B2).
    assert (M2 := Vf (coerced p2) [SAssert Down (emb (EBin TBool OLe (mul (ivs c) (b_cast TEUReal K)) (EBin TEUReal OAdd (mul (ivs c) inv) (ivs (neg c)))))]
      ltac:(cbn; auto) ltac:(unfold coerced; cbn [pbody]; rewrite B2; reflexivity)).
    assert (Hlt : Q2R qe < Q2R qk).
    { apply Qlt_Rlt. apply Qnot_le_lt. intros H. apply Qle_bool_iff in H. congruence. }
    assert (HK : forall s, env_ok s -> ev I (b_cast TEUReal K) s = fin (Q2R qk)).
    { intros s Hs. rewrite ev_cast, (lit_rational_eval I K qk s) by auto. auto. }
    assert (HE : forall s, env_ok s -> ev I (b_cast TEUReal eps) s = fin (Q2R qe)).
    { intros s Hs. rewrite ev_cast, (lit_rational_eval I eps qe s) by auto. auto. }
    rewrite (lit_rational_eval I eps qe s0) in * by auto.
    refine (past_rule I isd isf k c body HI Wb Pb (ev I inv) (Q2R qe) (Q2R qk) Heps Hlt _ _ s0 Hs0).
    - intros s Hs Hg. pose proof (meets_assert I isd k (coerced p2) _ s D2 S2 M2 Hs) as H.
      assert (Wn : is_guard (neg c)) by (destruct Wc as [A1 A2]; split; cbn; rewrite ?A1, ?A2; auto).
      assert (WcK : is_exp (b_cast TEUReal K)).
      { destruct WK as [A1 A2]. unfold b_cast. rewrite A2. cbn [ty_eqb]. split; auto. cbn [wt]. rewrite A1, A2. auto. }
      assert (Wi : forall e, is_guard e -> is_exp (ivs e)) by (intros e [A1 A2]; split; cbn; rewrite ?A1, ?A2; auto).
      assert (W1 : is_exp (mul (ivs c) (b_cast TEUReal K))) by (apply wte_bin; auto; apply Wi; auto).
      assert (W2 : is_exp (mul (ivs c) inv)) by (apply wte_bin; auto; apply Wi; auto).
      assert (W3 : is_exp (EBin TEUReal OAdd (mul (ivs c) inv) (ivs (neg c)))) by (apply wte_bin; auto; apply Wi; auto).
      rewrite ev_emb in H; auto.
      2:{ now apply le_guard. }
      apply etruth_top in H. unfold holds in H. cbn [eval] in H.
      assert (E1 : eval I (mul (ivs c) (b_cast TEUReal K)) s = VEur (fin (Q2R qk))).
      { rewrite (ev_spec I _ s HI W1 Hs). unfold mul. rewrite ev_mul by (auto; apply Wi; auto). now rewrite ev_ivs, Hg, emul_1_l, HK by auto. }
      assert (E2 : eval I (EBin TEUReal OAdd (mul (ivs c) inv) (ivs (neg c))) s = VEur (ev I inv s)).
      { rewrite (ev_spec I _ s HI W3 Hs). rewrite ev_add by (auto; apply Wi; auto). unfold mul. rewrite ev_mul by (auto; apply Wi; auto).
        rewrite !ev_ivs, Hg, emul_1_l by auto. unfold holds, neg. cbn [eval]. rewrite (holds_spec I c s HI Wc Hs), Hg. cbn. now rewrite eadd_0_r. }
      cbn [eval] in E1, E2. rewrite E1, E2 in H. cbn [eval_bin vle obool] in H. apply eleb_iff. destruct (eleb (fin (Q2R qk)) (ev I inv s)); auto.
    - intros s Hs Hg. fold B. rewrite <- (HE s Hs). auto.
  Qed.
End Past.
