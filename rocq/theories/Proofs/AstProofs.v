(** Soundness of the almost-sure termination rule. *)
From Coq Require Import Bool List String NArith QArith Reals Lra Lia FunctionalExtensionality ClassicalEpsilon.
From Verif.Model Require Import Syntax Builder TyCtx AstUtil Lits ProofRules Procs LoopProcs.
From Verif.Spec Require Import Eur Sem Wp Frame Loops Calls Termination.
From Verif.Proofs Require Import EurLemmas SemLemmas WpLemmas MonoProofs FrameProofs LoopProofs OmegaProofs SimLemmas TermRules TermProcs OstProofs.
Import ListNotations.
Local Open Scope list_scope.
Local Open Scope R_scope.

Lemma uval_pos v : 0 <= uval v.
Proof. destruct v; cbn; try lra. apply nval_nonneg. Qed.
Lemma eval_ureal I e s : interp_ok I -> env_ok s -> is_ureal e -> eval I e s = VUReal (nnr_of (uval (eval I e s))).
Proof.
  intros HI Hs [W Ty]. assert (V : has_ty (eval I e s) (ty_of e)) by (apply eval_ty; auto). rewrite Ty in V. unfold has_ty in V.
  destruct (eval I e s); try discriminate. cbn. f_equal. apply nnr_eq. symmetry. apply nval_of, nval_nonneg.
Qed.
Lemma ev_cast I e s : interp_ok I -> env_ok s -> is_ureal e -> ev I (b_cast TEUReal e) s = fin (uval (eval I e s)).
Proof.
  intros HI Hs [W Ty]. destruct (ev_cast_ureal I e s HI Hs W Ty) as (x & E1 & E2). rewrite E2, E1. cbn. apply Fin_fin.
Qed.
(** The value of [f] when its only variable is [r]. *)
Definition at_value (I : interp) (f : expr) (v : ident) (s : env) (r : R) : R := uval (eval I f (upd s v (VUReal (nnr_of r)))).

Lemma new_ident_ok cspan T name t x T' : new_ident_with_name cspan T name t = Ok (x, T') -> x = mkid name cspan t.
Proof.
  unfold new_ident_with_name. destruct (get T _); [congruence|]. intros E. apply rbind_ok in E as [? [_ E]]. congruence.
Qed.
Lemma meets_pre I p F a s : pdir p = Down -> pspecs p = [Requires a] -> meets I p F -> env_ok s -> ele (ev I a s) (F (fun _ => etop) s).
Proof.
  intros Hd Hs M Hok. specialize (M s Hok). unfold requires, ensures, spec_exp in M. rewrite Hd, Hs in M. cbn in M.
  eapply ele_trans; [|exact M]. apply emin_glb; [apply ele_refl | apply ele_top].
Qed.

Section Ast.
  Variables (variant : nat -> nat) (cspan dspan : nat).
  Hypothesis variant_inj : forall a b, variant a = variant b -> a = b.
  Variables (I : interp) (isd isf : string -> bool) (c : expr) (body : list stmt) (inv var prob decr : expr) (v : ident).
  Hypothesis HI : interp_ok I.
  Hypothesis Wb : All (wts isd isf) body.
  Hypothesis Pb : All (every linear) body.
  Hypothesis Tb : subtotal I isd Least body.
  Hypothesis Wc : is_guard c.
  Hypothesis Winv : is_guard inv.
  Hypothesis Wvar : is_ureal var.
  Hypothesis Wv : ity v = TUReal.
  Hypothesis Wprob : is_ureal prob.
  Hypothesis Wdecr : is_ureal decr.
  Hypothesis Fprob : forall x, fv x prob -> x = v.
  Hypothesis Fdecr : forall x, fv x decr -> x = v.
  Hypothesis Pprob : forall s, env_ok s -> 0 < uval (s v) -> 0 < uval (eval I prob s).
  Hypothesis Pdecr : forall s, env_ok s -> 0 < uval (s v) -> 0 < uval (eval I decr s).
  Hypothesis Dvar : forall x, fv x var -> ~ any (declares x) body.
  Hypothesis C : clear_of_inits variant c body [inv; var].
  Let B := wp_block I isd Least body.
  Let mv := modified_vars c body.

  Lemma at_value_eq f s t e : (forall x, fv x f -> x = v) -> env_ok s -> is_ureal f -> is_ureal e ->
    uval (eval I (b_subst f [(v, e)]) s) = at_value I f v t (uval (eval I e s)).
  Proof.
    intros Ff Hs Wf We. cbn [b_subst fold_left fst snd eval]. unfold at_value. f_equal. apply eval_ext. intros x Hx. apply Ff in Hx. subst x.
    rewrite !upd_same. now apply eval_ureal.
  Qed.
  Lemma subst_ureal f e : is_ureal f -> is_ureal e -> is_ureal (b_subst f [(v, e)]).
  Proof. intros [A1 A2] [A3 A4]. split; cbn; auto. rewrite A1, A3, A4, Wv. auto. Qed.
  Lemma upd_v s r : env_ok s -> env_ok (upd s v (VUReal (nnr_of r))).
  Proof. intros Hs. apply upd_ok; auto. unfold has_ty. now rewrite Wv. Qed.

  Lemma ivs_le a b : ele (if a : bool then eone else ebot) (if b : bool then eone else ebot) -> a = true -> b = true.
  Proof. intros H ->. destruct b; [auto|]. apply le_ebot in H. now apply eone_neq_ebot in H. Qed.

  Lemma antitone_ok p a b f T1 T2 : (forall x, fv x f -> x = v) -> is_ureal f ->
    a = mkid "a" T1 TUReal -> b = mkid "b" T2 TUReal ->
    pdir p = Down -> pspecs p = [Requires (emb (EBin TBool OLe (EVar a) (EVar b)));
      Ensures (emb (EBin TBool OGe (b_subst f [(v, EVar a)]) (b_subst f [(v, EVar b)])))] ->
    meets I p (wp_block I isd Least []) ->
    forall s, env_ok s -> forall x y, 0 <= x -> x <= y -> at_value I f v s y <= at_value I f v s x.
  Proof.
    intros Ff Wf Ea Eb D S M s Hs x y Hx Hxy.
    set (s1 := upd (upd s a (VUReal (nnr_of x))) b (VUReal (nnr_of y))).
    assert (Hs1 : env_ok s1) by (apply upd_ok; [apply upd_ok|]; auto; subst; reflexivity).
    assert (Va : s1 a = VUReal (nnr_of x)).
    { unfold s1. rewrite upd_other by (subst; discriminate). apply upd_same. }
    assert (Vb : s1 b = VUReal (nnr_of y)) by apply upd_same.
    assert (Wa : is_ureal (EVar a)) by (subst; split; reflexivity). assert (Wbb : is_ureal (EVar b)) by (subst; split; reflexivity).
    pose proof (meets_one I p Down _ _ _ s1 D S M Hs1) as H. cbn [below wp_block fold_right] in H.
    rewrite !ev_emb in H; auto.
    2:{ destruct (subst_ureal f _ Wf Wa), (subst_ureal f _ Wf Wbb). split; cbn [wt ty_of]; auto.
        rewrite H0, H2. cbn [bin_ok]. rewrite H1, H3. reflexivity. }
    2:{ split; subst; reflexivity. }
    assert (Hp : holds I (EBin TBool OLe (EVar a) (EVar b)) s1 = true).
    { unfold holds. cbn [eval]. rewrite Va, Vb. cbn. rewrite dec_true; auto. rewrite !nval_of by lra. auto. }
    pose proof (eval_ureal I _ s1 HI Hs1 (subst_ureal f _ Wf Wa)) as E1. pose proof (eval_ureal I _ s1 HI Hs1 (subst_ureal f _ Wf Wbb)) as E2.
    rewrite (at_value_eq f s1 s (EVar a)) in E1 by auto. rewrite (at_value_eq f s1 s (EVar b)) in E2 by auto.
    cbn [eval] in E1, E2. rewrite Va in E1. rewrite Vb in E2. cbn [uval] in E1, E2. rewrite (nval_of x) in E1 by lra. rewrite (nval_of y) in E2 by lra.
    rewrite Hp in H. apply etruth_top in H. unfold holds in H. cbn [eval] in H. rewrite E1, E2 in H. cbn in H.
    destruct (dec _) eqn:Ed in H; [|discriminate]. apply (proj1 (dec_iff _)) in Ed.
    unfold at_value in Ed |- *. rewrite !nval_of in Ed by apply uval_pos. exact Ed.
  Qed.

  Theorem ast_sound T base blk ps T' : ast_transform variant cspan dspan T base [inv; var; EVar v; prob; decr] c body = Ok (blk, ps, T') ->
    verified I isd Least ps -> forall s, env_ok s -> holds I inv s = true -> lfp (Phi I isd Least c body (fun _ => eone)) s = eone.
  Proof.
    intros E Vf s0 Hs0 J0. unfold ast_transform in E. cbv zeta in E.
    change (minus (mmod (mvc_stmt (SWhile c body) mvc0)) (mdecl (mvc_stmt (SWhile c body) mvc0))) with mv in E.
    apply rbind_ok in E as [[is T1] [Ei E]]. apply rbind_ok in E as [ies [Ee E]]. apply rbind_ok in E as [ias [Ea E]].
    apply rbind_ok in E as [[init_var T2] [Eiv E]]. apply rbind_ok in E as [[a T3] [Ena E]]. apply rbind_ok in E as [ea [Eea E]].
    apply rbind_ok in E as [[b T4] [Enb E]]. apply rbind_ok in E as [eb [Eeb E]]. apply rbind_ok in E as [ab [_ E]].
    apply rbind_ok in E as [[p1 T5] [G1 E]]. apply rbind_ok in E as [ab' [_ E]]. apply rbind_ok in E as [[p2 T6] [G2 E]].
    apply rbind_ok in E as [ins3 [_ E]]. apply rbind_ok in E as [outs3 [_ E]]. apply rbind_ok in E as [[pre3 T7] [Ep3 E]].
    apply rbind_ok in E as [[p3 T8] [G3 E]]. apply rbind_ok in E as [ins4 [_ E]]. apply rbind_ok in E as [[p4 T9] [G4 E]].
    apply rbind_ok in E as [ins5 [_ E]]. apply rbind_ok in E as [outs5 [_ E]]. apply rbind_ok in E as [[pre5 T10] [Ep5 E]].
    apply rbind_ok in E as [[p5 T11] [G5 E]]. apply rbind_ok in E as [ins6 [_ E]]. apply rbind_ok in E as [outs6 [_ E]].
    apply rbind_ok in E as [[pre6 T12] [Ep6 E]]. apply rbind_ok in E as [[p6 T13] [G6 E]]. injection E as <- <- <-.
    apply get_init_ok in Ei. subst is. apply ident_exprs_ok in Ee. subst ies. apply multiple_assign_ok in Ea. subst ias.
    apply to_init_ok in Eiv, Ep3, Ep5, Ep6. subst init_var pre3 pre5 pre6.
    apply new_ident_ok in Ena, Enb.
    assert (Hea : ea = EVar a) by (unfold ident_expr in Eea; destruct (get T3 a) as [[]|]; congruence).
    assert (Heb : eb = EVar b) by (unfold ident_expr in Eeb; destruct (get T4 b) as [[]|]; congruence). subst ea eb.
    apply generate_proc_ok in G1, G2, G3, G4, G5, G6.
    destruct G1 as (D1 & S1 & B1), G2 as (D2 & S2 & B2), G3 as (D3 & S3 & B3), G4 as (D4 & S4 & B4), G5 as (D5 & S5 & B5), G6 as (D6 & S6 & B6).
    assert (M1 := Vf p1 _ ltac:(cbn; auto) B1). assert (M2 := Vf p2 _ ltac:(cbn; auto) B2). assert (M3 := Vf p3 _ ltac:(cbn; auto) B3).
    assert (M4 := Vf p4 _ ltac:(cbn; auto) B4). assert (M5 := Vf p5 _ ltac:(cbn; auto 10) B5). assert (M6 := Vf p6 _ ltac:(cbn; auto 10) B6).
    clear Vf B1 B2 B3 B4 B5 B6.
    assert (Hmv : forall x, In x mv -> ~ inits variant x) by (intros x; apply (mv_clear variant c body _ C)).
    assert (Pull : forall s, pull variant mv (sync variant s) = sync variant s) by (intros s; apply (pull_mv variant variant_inj c body _ C)).
    assert (Gd : forall s, holds I c (sync variant s) = holds I c s) by (intros s; apply (guard_sync variant I c body _ C)).
    assert (Jd : forall s, holds I inv (sync variant s) = holds I inv s).
    { intros s. unfold holds. rewrite (eval_sync variant I c body _ C inv); cbn; auto. }
    assert (Vd : forall s, eval I var (sync variant s) = eval I var s) by (intros s; apply (eval_sync variant I c body _ C var); cbn; auto).
    assert (Sy : forall X s, blind (inits variant) X -> env_ok s -> X (sync variant s) = X s) by (intros; now apply at_sync).
    assert (Bl : forall X, blind (inits variant) X -> blind (inits variant) (B X)) by (intros; eapply B_blind; eauto).
    assert (Ok' : forall s, env_ok s -> env_ok (sync variant s)) by (intros; now apply sync_ok).
    set (V := fun s => uval (eval I var s)). set (pr := at_value I prob v s0). set (dr := at_value I decr v s0).
    assert (Jb : forall t t', (forall x, ~ inits variant x -> t x = t' x) -> holds I inv t = holds I inv t').
    { intros t t'. apply unread_holds. apply (cl_exprs _ _ _ _ C). cbn; auto. }
    assert (Vb : forall t t', (forall x, ~ inits variant x -> t x = t' x) -> V t = V t').
    { intros t t' H. unfold V. f_equal. apply (unread_eval (inits variant)); auto. apply (cl_exprs _ _ _ _ C). cbn; auto. }
    assert (Vsub : is_ureal (b_subst prob [(v, var)])) by (apply subst_ureal; auto).
    apply (ast_rule I isd isf c body HI Wb Pb Tb (holds I inv) V pr dr); auto.
    - intros s Hs. apply uval_pos.
    - intros x y Hx Hxy. exact (antitone_ok p1 a b prob cspan cspan Fprob Wprob Ena Enb D1 S1 M1 s0 Hs0 x y Hx Hxy).
    - intros x y Hx Hxy. exact (antitone_ok p2 a b decr cspan cspan Fdecr Wdecr Ena Enb D2 S2 M2 s0 Hs0 x y Hx Hxy).
    - intros x Hx. apply Pprob; [now apply upd_v|]. rewrite upd_same. cbn. rewrite nval_of; lra.
    - intros x Hx. apply Pdecr; [now apply upd_v|]. rewrite upd_same. cbn. rewrite nval_of; lra.
    - (* invariant *)
      intros s Hs Js Hg. pose proof (meets_one I p3 Down _ _ _ (sync variant s) D3 S3 M3 (Ok' s Hs)) as H.
      cbn [below] in H. rewrite wp_block_app, wp_init_assigns, Pull in H by auto. cbn [wp_block fold_right] in H. rewrite wp_iter in H.
      rewrite ev_init_expr, Pull in H by auto. rewrite ev_ivs, Jd, Js in H by auto. unfold Phi in H. rewrite Gd, Hg in H.
      eapply ele_trans; [exact H|]. fold B. rewrite <- (Sy (B _) s); auto.
      2:{ apply Bl. intros t t' Ht Ht' Et. rewrite (Jb t t'); auto. }
      apply (body_mono I isd isf body HI Wb Pb); auto. intros t Ht. cbn [wp_block fold_right]. rewrite ev_ivs by auto. apply ele_refl.
    - (* positive variant *)
      intros s Hs Js Hg. pose proof (meets_pre I p4 _ _ s D4 S4 M4 Hs) as H. rewrite ev_emb, Js in H by auto.
      assert (H' : ele etop (ev I (emb (EBin TBool OImpl c (EBin TBool OGt var (b_cast TUReal (b_uint 0))))) s)).
      { eapply ele_trans; [exact H|]. apply emin_l. }
      rewrite ev_emb in H'; auto.
      2:{ destruct Wc as [A1 A2], Wvar as [A3 A4]. split; auto. cbn. rewrite A1, A2, A3, A4. auto. }
      apply etruth_top in H'. unfold holds in H', Hg. cbn [eval] in H'. destruct (eval I c s) as [[]| | | | | |]; try discriminate.
      rewrite (eval_ureal I var s) in H' by auto. cbn in H'. fold (V s) in H'. destruct (dec _) eqn:Ed in H'; [discriminate|].
      destruct (Rle_dec (V s) 0) as [Hle|Hn]; [|lra]. exfalso.
      assert (dec (nval (nnr_of (V s)) <= nval (nnr_of (n2r 0)))%R = true); [|congruence].
      apply dec_true. rewrite !nval_of_max. unfold n2r. cbn. unfold Rmax. destruct (Rle_dec 0 (V s)), (Rle_dec 0 0); lra.
    - (* superinvariant *)
      intros s Hs Js Hg. pose proof (meets_one I p5 Up _ _ _ (sync variant s) D5 S5 M5 (Ok' s Hs)) as H.
      cbn [below] in H. rewrite wp_block_app, wp_init_assigns, Pull in H by auto. unfold wp_block in H. cbn [fold_right] in H.
      rewrite wp_assume, wp_iter in H. unfold Phi in H. rewrite Gd, Hg in H.
      assert (Wn : is_guard (neg inv)) by (destruct Winv as [A1 A2]; split; cbn; rewrite ?A1, ?A2; auto).
      rewrite ev_emb in H by auto.
      assert (Hn : holds I (neg inv) (sync variant s) = false).
      { pose proof (holds_spec I inv (sync variant s) HI Winv (Ok' s Hs)) as Hh. unfold holds at 1, neg. cbn [eval]. rewrite Hh, Jd, Js. reflexivity. }
      rewrite Hn in H. cbn [etruth] in H.
      assert (Ha : forall r, assume_sem Up ebot r = r).
      { intros r. cbn. destruct (eleb r ebot) eqn:Er; auto. apply eleb_iff in Er. symmetry. now apply le_ebot. }
      rewrite Ha in H.
      assert (Hpre : ev I (b_cast TEUReal (init_expr variant var mv)) (sync variant s) = fin (V s)).
      { assert (Ty : ty_of (init_expr variant var mv) = TUReal).
        { unfold init_expr, b_subst. destruct Wvar as [_ A]. revert A. generalize var. induction (combine mv (map EVar (map (init_ident variant) mv))) as [|q l IH]; cbn; auto. }
        unfold b_cast. rewrite Ty. cbn [ty_eqb]. unfold ev. cbn [eval]. rewrite eval_init_expr, Pull, Vd by auto.
        rewrite (eval_ureal I var s) by auto. cbn. reflexivity. }
      rewrite Hpre in H. eapply ele_trans; [|exact H]. fold B. rewrite <- (Sy (B _) s); auto.
      2:{ apply Bl. intros t t' Ht Ht' Et. rewrite (Vb t t'); auto. }
      apply (body_mono I isd isf body HI Wb Pb); auto. intros t Ht. cbn [wp_block fold_right]. rewrite ev_cast by auto. apply ele_refl.
    - (* progress *)
      intros s Hs Js Hg. pose proof (meets_one I p6 Down _ _ _ (sync variant s) D6 S6 M6 (Ok' s Hs)) as H.
      cbn [below] in H. rewrite wp_block_app, wp_init_assigns, Pull in H by auto. rewrite ev_init_expr, Pull in H by auto.
      assert (Wiv : forall e, is_guard e -> is_exp (ivs e)) by (intros e [A1 A2]; split; cbn; rewrite ?A1, ?A2; auto).
      assert (Wca : is_exp (b_cast TEUReal (b_subst prob [(v, var)]))).
      { destruct Vsub as [A1 A2]. unfold b_cast. rewrite A2. cbn [ty_eqb]. revert A1 A2. generalize (b_subst prob [(v, var)]).
        intros e A1 A2. split; auto. cbn [wt]. rewrite A1, A2. auto. }
      assert (Hpre : ev I (mul (ivs inv) (mul (ivs c) (b_cast TEUReal (b_subst prob [(v, var)])))) (sync variant s) = fin (pr (V s))).
      { unfold mul. rewrite ev_mul, ev_mul; auto; try apply Wiv; auto; [|apply wte_bin; auto; apply Wiv; auto].
        rewrite !ev_ivs, Jd, Gd, Js, Hg, !emul_1_l by auto. rewrite ev_cast by auto. f_equal.
        rewrite (at_value_eq prob (sync variant s) s0 var) by auto. unfold pr, V. now rewrite Vd. }
      rewrite Hpre in H. eapply ele_trans; [exact H|]. fold B. rewrite <- (Sy (B _) s); auto.
      2:{ apply Bl. intros t t' Ht Ht' Et. rewrite (Vb t t'); auto. }
      match goal with |- ele (B ?X _) (B ?Y _) => rewrite (B_local I isd isf Least body HI Wb Pb X Y) end; [apply ele_refl | auto|].
      intros t Ht.
      assert (Hk : eval I (init_expr variant var mv) t = eval I var s).
      { apply (init_kept variant variant_inj I c body _ C var mv s t); auto.
        - apply (cl_exprs _ _ _ _ C). cbn; auto.
        - intros x Hx. destruct (excluded_middle_informative (writes_block x body)) as [Hw|]; [left|right; auto].
          apply writes_block_cases in Hw; auto. apply modified_spec. specialize (Dvar x Hx). tauto. }
      assert (Ht' := proj1 Ht). set (iv := init_expr variant var mv) in *.
      unfold ev, ivs. cbn [eval b_subst fold_left fst snd]. rewrite Hk.
      rewrite (eval_ureal I var s), (eval_ureal I var t) by auto. fold (V s) (V t).
      pose proof (eval_ureal I decr (upd t v (VUReal (nnr_of (V s)))) HI (upd_v t (V s) Ht') Wdecr) as Ed. rewrite Ed.
      assert (Ev : uval (eval I decr (upd t v (VUReal (nnr_of (V s))))) = dr (V s)).
      { unfold dr, at_value. f_equal. apply eval_ext. intros x Hx. apply Fdecr in Hx. subst x. now rewrite !upd_same. }
      rewrite Ev. assert (0 <= dr (V s)) by apply uval_pos. assert (0 <= V s) by apply uval_pos. assert (0 <= V t) by apply uval_pos.
      cbn. rewrite (nval_of (V t)), (nval_of (V s)), (nval_of (dr (V s))) by auto.
      rewrite nval_of_max. destruct (Rle_dec (V t) (Rmax 0 (V s - dr (V s)))) as [Hle|Hn].
      + rewrite dec_true by auto. reflexivity.
      + destruct (dec _) eqn:Ed'; [|reflexivity]. apply (proj1 (dec_iff _)) in Ed'. contradiction.
  Qed.
End Ast.
