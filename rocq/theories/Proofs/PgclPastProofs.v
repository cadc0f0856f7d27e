(** The rule for positive almost-sure termination of pGCL loops. *)
From Coq Require Import Bool List String ZArith NArith QArith Qreals Reals Lia Lra.
From Verif.Model Require Import Syntax Builder Dist ProofRules LoopProcs Pgcl PgclProc PgclOmega PgclPast.
From Verif.Spec Require Import Eur Sem Wp Frame Loops PgclSem PgclCost PgclProcSpec PgclIter.
From Verif.Proofs Require Import EurLemmas SemLemmas WpLemmas FrameProofs LoopProofs Additive RegroupBase TermRules OstProofs PastProofs PgclProofs PgclSound PgclMore PgclTicks PgclExamples PgclProcProofs PgclOmegaProofs.
Import ListNotations.
Local Open Scope list_scope.
Local Open Scope R_scope.

(** Ticks only add. *)
Lemma ticks_add I isd pc i : interp_ok I -> pok isd pc i -> loops i = 0%nat -> forall X Y, exp_le X Y -> exp_le (pwp0 I Least i X) (pwp I Least i Y).
Proof.
  intros HI.
  assert (HB : forall l, Forall (fun i => pok isd pc i -> loops i = 0%nat -> forall X Y, exp_le X Y -> exp_le (pwp0 I Least i X) (pwp I Least i Y)) l ->
    All (pok isd pc) l -> list_sum (map loops l) = 0%nat -> forall X Y, exp_le X Y -> exp_le (fold_right (pwp0 I Least) X l) (fold_right (pwp I Least) Y l)).
  { induction 1 as [|j l Hj Hl IH]; intros O L X Y H; [exact H|]. destruct O as [Oj Ol]. cbn [map list_sum fold_right] in *.
    unfold list_sum in *. cbn [fold_right] in L. apply Hj; auto; try lia. apply IH; auto; lia. }
  induction i as [|c b IH|c a b IHa IHb|x e|p a b IHa IHb|e] using pinstr_all; intros O L X Y H s Hs; cbn [loops] in L.
  - now apply H.
  - discriminate L.
  - destruct O as (_ & _ & Oa & Ob). cbn [pwp pwp0]. destruct (holds I c s); [apply (HB a) | apply (HB b)]; auto; lia.
  - destruct O as (_ & _ & W & Ty & _). cbn [pwp pwp0]. apply H. apply upd_ok; auto. rewrite <- Ty. now apply eval_ty.
  - destruct O as (_ & _ & _ & Oa & Ob). cbn [pwp pwp0]. destruct (eval I p s); try apply ele_refl.
    apply eadd_mono; (apply emul_mono; [apply ele_refl|]); [apply (HB a) | apply (HB b)]; auto; lia.
  - cbn [pwp pwp0]. eapply ele_trans; [now apply H|]. rewrite <- (eadd_0_r (Y s)) at 1. apply eadd_mono; [apply ele_refl | apply ebot_le].
Qed.
Lemma ticks_add_list I isd pc l X : interp_ok I -> All (pok isd pc) l -> list_sum (map loops l) = 0%nat -> exp_le (pwps0 I Least l X) (pwps I Least l X).
Proof.
  intros HI. induction l as [|i l IH]; intros O L s Hs; [apply ele_refl|]. destruct O as [Oi Ol]. cbn in L.
  apply (ticks_add I isd pc i); auto; [lia|]. apply IH; auto. unfold list_sum. lia.
Qed.
(** Weighted sums scale. *)
Lemma scales I i : loops i = 0%nat -> forall r X, pwp0 I Least i (fun s => emul r (X s)) = fun s => emul r (pwp0 I Least i X s).
Proof.
  assert (HB : forall l, Forall (fun i => loops i = 0%nat -> forall r X, pwp0 I Least i (fun s => emul r (X s)) = fun s => emul r (pwp0 I Least i X s)) l ->
    list_sum (map loops l) = 0%nat -> forall r X, fold_right (pwp0 I Least) (fun s => emul r (X s)) l = fun s => emul r (fold_right (pwp0 I Least) X l s)).
  { induction 1 as [|j l Hj Hl IH]; intros L r X; [reflexivity|]. cbn in L. cbn [fold_right]. rewrite IH by (unfold list_sum; lia). apply Hj. lia. }
  induction i as [|c b IH|c a b IHa IHb|x e|p a b IHa IHb|e] using pinstr_all; intros L r X; cbn [loops] in L; cbn [pwp0]; try reflexivity.
  - discriminate L.
  - apply FunctionalExtensionality.functional_extensionality. intros s. rewrite (HB a IHa), (HB b IHb) by lia. now destruct (holds I c s).
  - apply FunctionalExtensionality.functional_extensionality. intros s. rewrite (HB a IHa), (HB b IHb) by lia.
    destruct (eval I p s); try (now rewrite emul_0_r).
    rewrite emul_eadd, !emul_assoc, (emul_comm r (Fin _)), (emul_comm r (fin _)). reflexivity.
Qed.
Lemma scales_list I l r X : list_sum (map loops l) = 0%nat -> pwps0 I Least l (fun s => emul r (X s)) = fun s => emul r (pwps0 I Least l X s).
Proof.
  induction l as [|i l IH]; intros L; [reflexivity|]. cbn in L. unfold pwps0 in *. cbn [fold_right]. rewrite IH by (unfold list_sum; lia). apply scales. lia.
Qed.

Section Rule.
  Variables (I : interp) (isd : string -> bool) (pc : ident) (c : expr) (b : list pinstr) (inv : exp) (eps K : R).
  Hypothesis HI : interp_ok I.
  Hypothesis O : All (pok isd pc) b.
  Hypothesis L : list_sum (map loops b) = 0%nat.
  Hypothesis He : 0 < eps.
  Hypothesis HeK : eps < K.
  Hypothesis H2 : forall s, env_ok s -> holds I c s = true -> ele (fin K) (inv s).
  Hypothesis H3 : forall s, env_ok s -> holds I c s = true -> ele (pwps I Least b inv s) (emonus (inv s) (fin eps)).
  Theorem pgcl_past_rule : exp_le (pgcl_iterations I c b) (fun s => if holds I c s then emul (fin (/ eps)) (inv s) else ebot).
  Proof.
    apply lfp_least. intros s Hs. cbv beta. destruct (holds I c s) eqn:E; [|apply ele_refl].
    assert (Hie : 0 < / eps) by (apply Rinv_0_lt_compat; auto).
    assert (H4 : ele (pwps0 I Least b (fun t => if holds I c t then emul (fin (/ eps)) (inv t) else ebot) s) (emul (fin (/ eps)) (emonus (inv s) (fin eps)))).
    { apply ele_trans with (pwps0 I Least b (fun t => emul (fin (/ eps)) (inv t)) s).
      - rewrite <- !free_ticks_list. apply (pwps_mono I isd pc HI Least (map remove_ticks b)); auto using pok_ticks_list.
        intros t Ht. destruct (holds I c t); [apply ele_refl | apply ebot_le].
      - rewrite scales_list by exact L. apply emul_mono; [apply ele_refl|]. eapply ele_trans; [now apply (ticks_add_list I isd pc) | auto]. }
    specialize (H2 s Hs E). destruct (eur_cases (inv s)) as [(r & Hr & Er) | Er].
    - rewrite Er in *. apply (proj1 (ele_fin K r ltac:(lra) Hr)) in H2. rewrite emonus_fin in H4 by lra.
      rewrite emul_fin in H4 by lra. rewrite emul_fin by lra.
      apply ele_trans with (eadd eone (fin (/ eps * (r - eps)))); [apply eadd_mono; [apply ele_refl | auto]|].
      assert (0 <= / eps * (r - eps)) by (apply Rmult_le_pos; lra).
      unfold eone. rewrite eadd_fin by lra. assert (0 <= / eps * r) by (apply Rmult_le_pos; lra). apply ele_fin; try lra.
      replace (/ eps * (r - eps)) with (/ eps * r - 1) by (field; lra). lra.
    - rewrite Er, emul_Inf_r by auto. apply ele_top.
  Qed.
End Rule.

Lemma num_exp q : (0 <= q)%Q -> is_exp (num q).
Proof. intros H. split; auto. cbn. apply Qle_bool_iff in H. now rewrite H. Qed.
Lemma num_val I q s : ev I (num q) s = fin (Q2R q).
Proof. reflexivity. Qed.
Lemma Q2R_0 q : (0 <= q)%Q -> 0 <= Q2R q.
Proof. intros H. apply Qle_Rle in H. unfold Q2R in H at 1. cbn in H. lra. Qed.

Section Main.
  Variables (I : interp) (isd : string -> bool) (pc : ident) (kd : fixkind) (vars : list ident) (c : expr) (b : list pinstr) (inv : expr) (eps k : Q).
  Variables (c1 c2 p3 : expr) (b3 : list stmt).
  Hypothesis HI : interp_ok I.
  Hypothesis Hflip : isd "flip"%string = true.
  Hypothesis Hpc : ity pc = TBool.
  Hypothesis Ob : forall x, x = pc \/ In x (map init_var vars) -> pok isd x (PWhile c b).
  Hypothesis Hvs : forall x y, In x vars -> In y vars -> x <> init_var y.
  Hypothesis Si : simple inv.
  Hypothesis Sc : simple c.
  Hypothesis Fi : forall x, fv x inv -> In x vars.
  Hypothesis Fc : forall x, fv x c -> In x vars.
  Hypothesis Ci : clean pc inv.
  Hypothesis Wi : is_exp inv.
  Hypothesis He : (0 < eps)%Q.
  Hypothesis E : past_procs pc vars [PWhile c b] inv eps k = Some (c1, c2, (p3, b3)).
  Hypothesis V2 : forall s, env_ok s -> ele etop (wp_block I isd kd [SAssert Down c2] (fun _ => etop) s).
  Hypothesis V3 : forall s, env_ok s -> ele (wp_block I isd kd b3 (fun _ => ebot) s) (ev I p3 s).
  Let zero : expr := ECast TEUReal (b_uint 0).

  Theorem past_bound s : env_ok s -> ele (pgcl_iterations I c b s) (if holds I c s then emul (fin (/ Q2R eps)) (ev I inv s) else ebot).
  Proof.
    unfold past_procs in E. change (the_loop [PWhile c b]) with (Some (c, b)) in E. cbv beta iota in E.
    destruct (Qle_bool k eps) eqn:Hq; [discriminate|]. destruct (directs false pc Down b []) as [[bs st]|] eqn:D; [|discriminate].
    destruct (no_annots _ _ _ _ _ _ D) as [L ->]. injection E as E1 E2 E3 E4. clear E1.
    assert (Hlt : (eps < k)%Q) by (apply Qnot_le_lt; intros H; apply Qle_bool_iff in H; congruence).
    assert (He' : 0 < Q2R eps) by (pose proof (Qlt_Rlt _ _ He) as H; unfold Q2R in H at 1; cbn in H; lra).
    assert (Hlt' : Q2R eps < Q2R k) by (now apply Qlt_Rlt).
    assert (We : is_exp (num eps)) by (apply num_exp, Qlt_le_weak, He).
    assert (Wk : is_exp (num k)) by (apply num_exp; apply Qle_trans with eps; now apply Qlt_le_weak).
    destruct (Ob pc (or_introl eq_refl)) as (_ & Wc & Op).
    assert (Wn : is_guard (neg c)) by (destruct Wc as [A1 A2]; split; cbn; rewrite ?A1, ?A2; auto).
    assert (Wv : forall e, is_guard e -> is_exp (ivs e)) by (intros e [A1 A2]; split; cbn; rewrite ?A1, ?A2; auto).
    assert (W1 : is_exp (mul (ivs c) (num k))) by (apply wte_bin; auto; apply Wv; auto).
    assert (W2 : is_exp (mul (ivs c) inv)) by (apply wte_bin; auto; apply Wv; auto).
    assert (W3 : is_exp (EBin TEUReal OAdd (mul (ivs c) inv) (ivs (neg c)))) by (apply wte_bin; auto; apply Wv; auto).
    assert (W4 : is_exp (EBin TEUReal OSub inv (num eps))) by (apply wte_bin; auto).
    revert s. apply (pgcl_past_rule I isd pc c b (ev I inv) (Q2R eps) (Q2R k)); auto.
    - intros s Hs Hg. specialize (V2 s Hs). unfold wp_block in V2. cbn [fold_right] in V2. rewrite wp_assert in V2.
      assert (H : ele etop (ev I c2 s)) by (eapply ele_trans; [exact V2 | apply emin_l]).
      rewrite <- E2, ev_emb in H; auto; [|now apply le_guard].
      apply etruth_top in H. unfold holds in H. cbn [eval] in H.
      assert (A1 : eval I (mul (ivs c) (num k)) s = VEur (fin (Q2R k))).
      { rewrite (ev_spec I _ s HI W1 Hs). unfold mul. rewrite ev_mul by (auto; apply Wv; auto). now rewrite ev_ivs, Hg, emul_1_l, num_val by auto. }
      assert (A2 : eval I (EBin TEUReal OAdd (mul (ivs c) inv) (ivs (neg c))) s = VEur (ev I inv s)).
      { rewrite (ev_spec I _ s HI W3 Hs). rewrite ev_add by (auto; apply Wv; auto). unfold mul. rewrite ev_mul by (auto; apply Wv; auto).
        rewrite !ev_ivs, Hg, emul_1_l by auto. unfold holds, neg. cbn [eval]. rewrite (holds_spec I c s HI Wc Hs), Hg. cbn. now rewrite eadd_0_r. }
      cbn [eval] in A1, A2. rewrite A1, A2 in H. cbn [eval_bin vle obool] in H. apply eleb_iff. destruct (eleb (fin (Q2R k)) (ev I inv s)); auto.
    - intros s Hs Hg. set (t := called vars s). pose proof (called_ok vars s Hs : env_ok t) as Ht.
      specialize (V3 t Ht). rewrite <- E4, !wp_block_app in V3.
      assert (Dc : forall Y, wp_block I isd kd (if existsb has_choice [PWhile c b] then [SVar pc None] else []) Y t = Y t)
        by (intros Y; destruct (existsb has_choice [PWhile c b]); reflexivity).
      rewrite Dc, wp_inits in V3.
      2:{ intros x Hx. unfold t. rewrite called_init by auto. symmetry. apply called_other. auto. }
      assert (Z : (fun _ : env => ebot) = ev I zero).
      { apply FunctionalExtensionality.functional_extensionality. intros u. symmetry. apply (ev_extreme I Down). }
      rewrite Z, (iter_sem I isd pc kd HI Hflip Hpc c b zero inv Ci Op t Ht) in V3.
      assert (Es : body_map I kd c b (ev I zero) (ev I inv) t = body_map I kd c b (ev I zero) (ev I inv) s).
      { apply called_free; auto. intros x Hx. destruct (Ob (init_var x)) as (O1 & O2 & O3); [right; now apply in_map|].
        unfold body_map. apply (free_if I (init_var x)); auto; [|apply unread_blind; intros y []].
        apply (pwps_free I isd (init_var x) HI); auto. apply unread_blind. intros y Hy ->. apply Fi in Hy. now apply (Hvs _ _ Hy Hx). }
      rewrite Es in V3. unfold body_map in V3. rewrite Hg, (any_kinds I kd Least b L) in V3.
      assert (Ep : ev I p3 t = emonus (ev I inv s) (fin (Q2R eps))).
      { assert (E3' : p3 = to_init (mul (ivs c) (EBin TEUReal OSub inv (num eps)))) by (symmetry; exact E3).
        rewrite E3'. unfold ev at 1. rewrite (eval_init I (mul (ivs c) (EBin TEUReal OSub inv (num eps))) s t).
        - rewrite (ev_spec I (mul (ivs c) (EBin TEUReal OSub inv (num eps))) s HI) by (auto; apply wte_bin; auto; apply Wv; auto).
          unfold mul. rewrite ev_mul by (auto; apply Wv; auto). rewrite ev_ivs, Hg, emul_1_l by auto.
          rewrite ev_bin by auto. reflexivity.
        - cbn. tauto.
        - intros x Hx. apply called_init. cbn in Hx. destruct Hx as [Hx|[Hx|[]]]; auto. }
      now rewrite Ep in V3.
  Qed.
End Main.
