(** The call that [@ost] leaves in the place of the loop. *)
From Coq Require Import Bool List String NArith QArith Reals Lra Lia Classical ClassicalEpsilon.
From Verif.Model Require Import Syntax Builder TyCtx AstUtil Lits ProofRules Procs LoopProcs.
From Verif.Spec Require Import Eur Sem Wp Frame Loops Calls Termination.
From Verif.Proofs Require Import EurLemmas SemLemmas WpLemmas MonoProofs FrameProofs LoopProofs OmegaProofs SimLemmas SubstProofs TyCtxProofs CallProofs SpecCallProofs DistProofs Additive TermRules TermProcs OstProofs.
Import ListNotations.
Local Open Scope list_scope.

(** ** Declarations stay *)
Definition keeps (T T' : tyctx) : Prop := forall x b, get T x = Some b -> get T' x = Some b.
Lemma keeps_refl T : keeps T T. Proof. intros x b H; exact H. Qed.
Lemma keeps_trans T T' T'' : keeps T T' -> keeps T' T'' -> keeps T T''.
Proof. intros H1 H2 x b H. auto. Qed.
Lemma declare_keeps T x v T' : declare T x v = Ok T' -> keeps T T'.
Proof.
  unfold declare. destruct (contains_key T x) eqn:E; [discriminate|]. intros H. injection H as <-. intros y b G.
  assert (D : declared T y) by (apply get_declared; congruence).
  unfold get in *. cbn [decls find fst]. destruct (same_id x y) eqn:S; [|exact G].
  exfalso. apply same_id_iff in S. destruct D as (d & D1 & D2 & D3). destruct S as [S1 S2].
  assert (contains_key T x = true) by (apply contains_key_iff; exists d; intuition congruence). congruence.
Qed.
Lemma fresh_keeps T x sp y T' : fresh_ident T x sp = Ok (y, T') -> keeps T T'.
Proof.
  intros E. destruct (fresh_ident_ok T x sp) as (y' & T'' & E' & D & _). rewrite E in E'. injection E' as <- <-.
  intros z b G. unfold get in *. now rewrite D.
Qed.
Section Gen.
  Variables (variant : nat -> nat) (dspan : nat).
  Lemma generate_proc_more T base name d ins outs specs body p T' :
    generate_proc variant dspan T base name d ins outs specs body = Ok (p, T') -> pins p = ins /\ pouts p = outs /\ keeps T T'.
  Proof.
    unfold generate_proc. intros E. apply rbind_ok in E as [[y T1] [E1 E]]. apply rbind_ok in E as [T2 [E2 E]]. injection E as <- <-.
    cbn. repeat split. eapply keeps_trans; [eapply fresh_keeps | eapply declare_keeps]; eauto.
  Qed.
  Lemma get_init_keeps xs : forall T ys T', get_init_idents variant T xs = Ok (ys, T') -> keeps T T'.
  Proof.
    induction xs as [|x xs IH]; intros T ys T' E; cbn [get_init_idents] in E; [injection E as <- <-; apply keeps_refl|].
    destruct (get T x) as [[]|]; try discriminate. apply rbind_ok in E as [T1 [E1 E]]. apply rbind_ok in E as [[zs T2] [E2 E]].
    injection E as <- <-. apply keeps_trans with T1; [|eauto].
    destruct (get T (init_ident variant x)); [injection E1 as <-; apply keeps_refl | eapply declare_keeps; eauto].
  Qed.
  Lemma to_init_keeps T e xs e' T' : to_init_expr variant T e xs = Ok (e', T') -> keeps T T'.
  Proof.
    unfold to_init_expr. intros E. apply rbind_ok in E as [[ys T1] [E1 E]]. apply rbind_ok in E as [es [E2 E]]. injection E as <- <-.
    eapply get_init_keeps; eauto.
  Qed.
  Lemma ident_exprs_vars T xs : forall es, ident_exprs T xs = Ok es -> forall x, In x xs -> get T x = Some true.
  Proof.
    induction xs as [|y xs IH]; intros es E x; cbn [ident_exprs] in E; [intros []|].
    apply rbind_ok in E as [e [E1 E]]. apply rbind_ok in E as [es' [E2 E]]. intros [<-|H]; [|eauto].
    unfold ident_expr in E1. destruct (get T y) as [[]|]; congruence.
  Qed.
  Lemma params_all T xs : forall l, params_from_idents T xs = Ok l -> (forall x, In x xs -> get T x = Some true \/ get T x = None) -> l = xs.
  Proof.
    induction xs as [|x xs IH]; intros l E H; cbn [params_from_idents] in E; [now injection E as <-|].
    destruct (get T x) as [b|] eqn:G; [|discriminate]. apply rbind_ok in E as [l' [E1 E]]. injection E as <-.
    destruct (H x (or_introl eq_refl)) as [K|K]; rewrite G in K; [|discriminate]. injection K as ->. f_equal. apply IH; auto. intros; apply H; cbn; auto.
  Qed.
End Gen.

Lemma stable_none T variant' vars ins : forall args, (forall x, In x ins -> ~ In x vars) ->
  stable_inputs variant' T vars ins args = Ok ([], combine ins args, T).
Proof.
  induction ins as [|x ins IH]; intros [|a args] H; cbn [stable_inputs combine]; auto.
  assert (M : mem x vars = false) by (apply not_true_iff_false; rewrite mem_iff; apply H; cbn; auto). rewrite M, IH by (intros; apply H; cbn; auto). reflexivity.
Qed.
Lemma idents_to_exprs_ok T xs : forall es, idents_to_exprs T xs = Ok es -> es = map EVar xs.
Proof.
  induction xs as [|x xs IH]; intros es E; cbn [idents_to_exprs] in E; [injection E as <-; auto|].
  apply rbind_ok in E as [e [E1 E]]. apply rbind_ok in E as [es' [E2 E]]. injection E as <-. cbn [map]. f_equal; auto.
  unfold ident_to_expr in E1. destruct (get T x) as [[]|]; congruence.
Qed.
Lemma subst_all_app e a b : subst_all e (a ++ b) = subst_all (subst_all e a) b.
Proof. unfold subst_all. apply fold_left_app. Qed.

Section Replace.
  Variables (variant : nat -> nat) (dspan : nat).
  Hypothesis variant_inj : forall a b, variant a = variant b -> a = b.
  Variables (I : interp) (isd isf : string -> bool) (c : expr) (body : list stmt) (inv past_inv cc post : expr).
  Hypothesis HI : interp_ok I.
  Hypothesis Wb : All (wts isd isf) body.
  Hypothesis Pb : All (every linear) body.
  Hypothesis Tb : subtotal I isd Least body.
  Hypothesis Wc : is_guard c.
  Hypothesis Winv : is_exp inv.
  Hypothesis Wpast : is_exp past_inv.
  Hypothesis Wpost : is_exp post.
  Hypothesis Wcc : wt cc = true /\ ty_of cc = TUReal /\ forall x, ~ fv x cc.
  Hypothesis C : clear_of_inits variant c body [inv; past_inv; post].
  Notation init := (init_ident variant).
  Let mv := modified_vars c body.
  Let decl x := any (declares x) body.

  (** The state in which the initial versions of the modified variables are set. *)
  Lemma subst_inits xs : (forall x, In x xs -> ~ inits variant x) -> forall s, env_ok s -> exists s1, env_ok s1 /\
    (forall x, In x xs -> s1 (init x) = s x) /\ (forall z, ~ In z (map init xs) -> s1 z = s z) /\
    forall e, eval I (subst_all e (combine (map init xs) (map EVar xs))) s = eval I e s1.
  Proof.
    unfold subst_all. induction xs as [|x xs IH] using rev_ind; intros Hx s Hs.
    - exists s. cbn. intuition.
    - assert (Hs' : env_ok (upd s (init x) (s x))) by (apply upd_ok; auto; apply (Hs x)).
      destruct (IH ltac:(intros; apply Hx, in_app_iff; auto) _ Hs') as (s1 & H1 & H2 & H3 & H4).
      assert (Nz : forall z, ~ inits variant z -> init x <> z) by (intros z Hz <-; apply Hz; exists x; reflexivity).
      exists s1. split; auto. split; [|split].
      + intros y Hy. apply in_app_iff in Hy. destruct (in_dec (fun a b => reflect_dec _ _ (ident_eqb_spec a b)) y xs) as [Iy|Ny].
        * rewrite H2 by auto. apply upd_other. apply Nz, Hx, in_app_iff; auto.
        * destruct Hy as [Hy|[<-|[]]]; [tauto|]. rewrite H3; [apply upd_same|]. intros K. apply in_map_iff in K as (z & K1 & K2).
          apply init_inj in K1; auto. now subst z.
      + intros z Hz. rewrite map_app in Hz. rewrite H3 by (intros K; apply Hz, in_app_iff; auto). apply upd_other.
        intros <-. apply Hz, in_app_iff. cbn; auto.
      + intros e. rewrite !map_app. cbn [map].
        assert (L : forall (A B : Type) (a : list A) (b : list B) u v, List.length a = List.length b -> combine (a ++ [u]) (b ++ [v]) = combine a b ++ [(u, v)]).
        { clear. induction a as [|p a IH]; intros [|q b] u v E; cbn in *; try discriminate; auto. f_equal. apply IH. congruence. }
        rewrite L by (rewrite !map_length; reflexivity). rewrite fold_left_app. cbn [fold_left fst snd eval]. apply H4.
  Qed.
  Lemma subst_same xs : forall ys e s, (forall x a, In (x, a) (combine xs ys) -> a = EVar x) ->
    eval I (subst_all e (combine xs ys)) s = eval I e s.
  Proof.
    intros ys e s. unfold subst_all. generalize (combine xs ys). clear. intros l. revert s.
    induction l as [|p l IH] using rev_ind; intros s H; cbn [fold_left]; auto.
    rewrite fold_left_app. cbn [fold_left eval]. destruct p as [x a]. cbn [fst snd].
    rewrite (H x a) by (apply in_app_iff; cbn; auto). cbn [eval]. rewrite IH by (intros; apply H, in_app_iff; auto).
    f_equal. apply FunctionalExtensionality.functional_extensionality. intros z. unfold upd. destruct (ident_eqb_spec x z); congruence.
  Qed.

  Theorem ost_replaces T base blk ps T' : ost_transform variant dspan T base [inv; past_inv; cc; post] c body = Ok (blk, ps, T') ->
    verified I isd Least ps -> unread decl post ->
    forall procs variant' k d T1 blk' T2, (forall p, In p ps -> procs (pname p) = Some p) ->
    sc_block procs variant' d blk T1 = Ok (blk', T2) ->
    d = Down /\ forall X, blind decl X -> exp_le (wp_block I isd k blk' X) (wp I isd Least (SWhile c body) X).
  Proof.
    intros E Vf Upost procs variant' k d U1 blk' U2 Tab Esc.
    pose proof (ost_sound variant dspan variant_inj I isd isf c body inv past_inv cc post HI Wb Pb Tb Wc Winv Wpast Wpost Wcc C T base blk ps T' E Vf) as Sound.
    unfold ost_transform in E. fold mv in E.
    apply rbind_ok in E as [inv_vars [Einv E]]. apply rbind_ok in E as [past_vars [Epast E]].
    apply rbind_ok in E as [[is T1] [Ei E]]. apply rbind_ok in E as [ies [Ee E]]. apply rbind_ok in E as [ias [Ea E]].
    apply rbind_ok in E as [[init_inv T2] [Eii E]]. apply rbind_ok in E as [[init_past T3] [Eip E]].
    apply rbind_ok in E as [hv [Ehv E]]. apply rbind_ok in E as [ins1 [_ E]].
    apply rbind_ok in E as [[p1 T4] [G1 E]]. apply rbind_ok in E as [insI [Pi E]]. apply rbind_ok in E as [outsM [Po E]].
    apply rbind_ok in E as [[p2 T5] [G2 E]]. apply rbind_ok in E as [[p3 T6] [G3 E]]. apply rbind_ok in E as [ins4 [_ E]].
    apply rbind_ok in E as [[p4 T7] [G4 E]]. apply rbind_ok in E as [[p5 T8] [G5 E]]. apply rbind_ok in E as [[p6 T9] [G6 E]].
    apply rbind_ok in E as [es [Es E]]. injection E as <- <- <-.
    assert (Kt : keeps T1 T4) by (eapply keeps_trans; [eapply to_init_keeps; eassumption | eapply keeps_trans; [eapply to_init_keeps; eassumption | eapply (generate_proc_more variant dspan); eassumption]]).
    assert (Kf : keeps T4 T9).
    { eapply keeps_trans; [eapply (generate_proc_more variant dspan _ _ _ _ _ _ _ _ _ _ G2)|]. eapply keeps_trans; [eapply (generate_proc_more variant dspan _ _ _ _ _ _ _ _ _ _ G3)|].
      eapply keeps_trans; [eapply (generate_proc_more variant dspan _ _ _ _ _ _ _ _ _ _ G4)|]. eapply keeps_trans; [eapply (generate_proc_more variant dspan _ _ _ _ _ _ _ _ _ _ G5)|].
      eapply (generate_proc_more variant dspan _ _ _ _ _ _ _ _ _ _ G6). }
    pose proof (ident_exprs_vars _ _ _ Es) as Vm. pose proof (ident_exprs_vars _ _ _ Ee) as Vi.
    apply params_all in Po; [|intros x Hx; specialize (Vm x Hx); destruct (get T4 x) as [b|] eqn:Gx; auto; apply Kf in Gx; left; congruence].
    apply params_all in Pi; [|intros x Hx; left; apply Kt; auto].
    apply get_init_ok in Ei. subst is. apply ident_exprs_ok in Ee. subst ies. apply multiple_assign_ok in Ea. subst ias.
    apply to_init_ok in Eii, Eip. subst init_inv init_past. apply ident_exprs_ok in Es. subst es insI outsM.
    destruct (generate_proc_more _ _ _ _ _ _ _ _ _ _ _ _ G6) as (I6 & O6 & _). apply generate_proc_ok in G6 as (D6 & S6 & B6).
    assert (M6 := Vf p6 _ ltac:(cbn; auto 10) B6).
    assert (Hmv : forall x, In x mv -> ~ inits variant x) by (intros x; apply (mv_clear variant c body _ C)).
    assert (Finv : forall x, In x inv_vars -> ~ inits variant x) by (apply (vars_fresh variant c body _ C inv); cbn; auto).
    assert (Upo : unread (inits variant) post) by (apply (cl_exprs _ _ _ _ C); cbn; auto).
    (* the encoding of the call *)
    cbn [sc_block sc_stmt] in Esc. apply rbind_ok in Esc as [[b1 U3] [Esc Eq]]. cbn [rbind sc_block] in Eq. injection Eq as <- <-.
    apply rbind_ok in Esc as [[] [Ed Esc]]. cbn [sc_expr] in Ed. rewrite (Tab p6) in Ed by (cbn; auto 10). rewrite D6 in Ed.
    destruct d; [|discriminate]. split; auto. clear Ed.
    apply rbind_ok in Esc as [o [Eo Esc]]. unfold encode_assign in Eo. rewrite (Tab p6) in Eo by (cbn; auto 10).
    apply rbind_ok in Eo as [vars [Ev Eo]]. apply rbind_ok in Eo as [[q U4] [Eq Eo]]. apply rbind_ok in Eo as [lhs [El Eo]]. injection Eo as <-.
    injection Esc as <- <-.
    apply idents_to_exprs_ok in El. subst lhs.
    assert (Req : requires p6 = [init_expr variant inv inv_vars]) by (unfold requires; now rewrite S6).
    assert (Ens : ensures p6 = [post]) by (unfold ensures; now rewrite S6).
    rewrite Ens in Ev. cbn [collect_all] in Ev. apply rbind_ok in Ev as [vars' [Ev Ev']]. injection Ev' as <-.
    assert (Vx : forall x, In x vars' <-> fv x post) by (apply (vars_clear [inv; past_inv; post] post vars'); cbn; auto).
    rewrite stable_none in Eq.
    2:{ rewrite I6. intros x Hx Hv. apply Vx in Hv. apply in_map_iff in Hx as (y & <- & Hy). apply (Upo _ Hv). exists y. reflexivity. }
    injection Eq as <- <-. intros X HX s Hs.
    rewrite Req, Ens, I6, O6, D6. cbn [map app fst snd]. unfold wp_block. cbn [fold_right wp wrap_with_error_message wrap_with_success_message].
    set (lhs := ev I (subst_all (init_expr variant inv inv_vars) (combine (map init mv) (map EVar mv))) s).
    set (K := fun t => validate_sem Down (assume_sem Down (ev I (subst_all post (combine (map init mv) (map EVar mv) ++ combine mv (map EVar mv))) t) (X t))).
    change (ele (emin lhs (havoc_sem Down mv K s)) (lfp (Phi I isd Least c body X) s)).
    assert (Kpost : forall t, env_ok t -> ev I (subst_all post (combine (map init mv) (map EVar mv) ++ combine mv (map EVar mv))) t = ev I post t).
    { intros t Ht. rewrite subst_all_app. unfold ev. rewrite subst_same by (intros x a; apply in_combine_same).
      destruct (subst_inits mv Hmv t Ht) as (t1 & H1 & H2 & H3 & H4). rewrite H4. rewrite (eval_ext I post t1 t); [reflexivity|]. intros x Hx. apply H3.
      intros K'. apply in_map_iff in K' as (y & <- & _). apply (Upo _ Hx). exists y. reflexivity. }
    destruct (excluded_middle_informative (forall t, havocked mv s t -> ele (ev I post t) (X t))) as [Hall|Hno].
    - (* the post is below *)
      eapply ele_trans; [apply emin_l|]. apply ele_trans with (lfp (Phi I isd Least c body (ev I post)) s).
      + unfold lhs. destruct (subst_inits mv Hmv s Hs) as (s1 & H1 & H2 & H3 & H4). unfold ev at 1. rewrite H4. fold (ev I (init_expr variant inv inv_vars) s1).
        pose proof (meets_one I p6 Down _ _ _ s1 D6 S6 M6 H1) as H. cbn [below] in H. rewrite wp_block_app, wp_init_assigns in H by auto.
        cbn [wp_block fold_right] in H. rewrite wp_iter in H.
        assert (Pl : pull variant mv s1 = s1).
        { apply FunctionalExtensionality.functional_extensionality. intros z. unfold pull. destruct (mem z mv) eqn:Ez; auto. apply mem_iff in Ez.
          rewrite H2 by auto. symmetry. apply H3. intros K'. apply in_map_iff in K' as (y & K' & _). apply (Hmv z Ez). exists y. symmetry. exact K'. }
        rewrite Pl in H. eapply ele_trans; [exact H|].
        assert (Epost_b : blind (inits variant) (ev I post)) by (eapply ev_blind; eauto; cbn; auto).
        assert (Einv_b : blind (inits variant) (ev I inv)) by (eapply ev_blind; eauto; cbn; auto).
        assert (Ag : forall x, ~ inits variant x -> s1 x = s x) by (intros x Hx; apply H3; intros K'; apply in_map_iff in K' as (y & <- & _); apply Hx; exists y; reflexivity).
        rewrite lfp_fix; [|apply (loop_mono I isd Least), (body_mono I isd isf body HI Wb Pb) | exact Hs].
        unfold Phi at 1. unfold Phi at 1. rewrite (unread_holds (inits variant) I c s1 s); [|apply (cl_guard _ _ _ _ C) | exact Ag].
        destruct (holds I c s).
        * apply ele_trans with (wp_block I isd Least body (ev I inv) s1).
          -- apply (body_mono I isd isf body HI Wb Pb); auto. intros t Ht.
             change (ele (wp_block I isd Least (hey_const inv Down) (fun t0 => ev I post t0) t) (ev I inv t)). rewrite wp_hey_const. apply ele_refl.
          -- rewrite (B_blind variant I isd isf Least c body _ HI Wb Pb C (ev I inv) Einv_b s1 s H1 Hs Ag).
             apply (body_mono I isd isf body HI Wb Pb); auto.
        * rewrite (Epost_b s1 s H1 Hs Ag). apply ele_refl.
      + change (ele (wp I isd Least (SWhile c body) (ev I post) s) (wp I isd Least (SWhile c body) X s)).
        apply (frame_mono I isd isf Least (fun x => writes_block x body) HI (SWhile c body)) with (s0 := s); auto.
        * cbn [wts]. auto.
        * cbn [every]. split; [exact Logic.I|]. exact (linear_no_negate body Pb).
        * intros x Hx. cbn [writes] in Hx. now rewrite writes_block_eq in Hx.
        * intros t Ht. set (t' := fun x => if mem x mv then t x else s x).
          assert (Ht' : env_ok t') by (intros x; unfold t'; destruct (mem x mv); [apply (proj1 Ht) | apply Hs]).
          assert (A : forall x, ~ decl x -> t x = t' x).
          { intros x Hx. unfold t'. destruct (mem x mv) eqn:Ex; auto. apply (proj2 Ht). intros Hw. apply writes_block_cases in Hw; auto.
            apply not_true_iff_false in Ex. apply Ex, mem_iff, modified_spec. unfold decl in Hx. tauto. }
          rewrite (HX t t' (proj1 Ht) Ht' A). unfold ev. rewrite (eval_ext I post t t') by (intros x Hx; apply A, Upost, Hx). apply Hall.
          split; intros x Hx; unfold t'.
          -- destruct (mem x mv) eqn:Ex; auto. apply mem_iff in Ex. contradiction.
          -- destruct (mem x mv); [apply (proj1 Ht x) | apply (Hs x)].
        * split; auto.
    - (* it is not *)
      apply not_all_ex_not in Hno as (t & Ht). apply imply_to_and in Ht as [Ht Hle].
      assert (Hok : env_ok t) by (eapply havocked_ok; eauto).
      eapply ele_trans; [apply emin_r|]. apply ele_trans with (K t); [apply einf_lb; exists t; auto|].
      replace (K t) with ebot; [apply ebot_le|]. unfold K. rewrite Kpost by auto. cbn [assume_sem].
      destruct (eleb (ev I post t) (X t)) eqn:L; [apply eleb_iff in L; contradiction|]. cbn [validate_sem].
      destruct (eleb etop (X t)) eqn:L2; [|reflexivity]. apply eleb_iff, top_le in L2. exfalso. apply Hle. rewrite L2. apply ele_top.
  Qed.
End Replace.
