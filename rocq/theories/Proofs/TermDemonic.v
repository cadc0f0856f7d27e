(** Bodies with nondeterminism: the rules for almost-sure termination and optional stopping check their upper bounds for the
    choice that is best for them, and so accept loops for which the conclusion is false. *)
From Coq Require Import Bool List String NArith ZArith QArith Qreals Reals Lra Lia FunctionalExtensionality.
From Verif.Model Require Import Syntax Builder TyCtx AstUtil Lits Dist ProofRules Procs LoopProcs.
From Verif.Spec Require Import Eur Sem Wp Frame Loops Calls Termination.
From Verif.Proofs Require Import EurLemmas SemLemmas SimplifyRefuted DistProofs WpLemmas MonoProofs FrameProofs LoopProofs OmegaProofs SimLemmas Additive TermRules TermProcs OstProofs AstProofs TermExamples TermNested.
Import ListNotations.
Local Open Scope list_scope.
Local Open Scope R_scope.
Local Arguments emul : simpl never.
Local Arguments eadd : simpl never.
Local Arguments eleb : simpl never.
Local Arguments emonus : simpl never.
Local Arguments emin : simpl never.
Local Arguments eone : simpl never.
Local Arguments ebot : simpl never.

(** ** [while b { if ⊓ { b = false } else {} }] *)
Definition choice := [SDemonic [SAssign [vb] (ELit TBool (LBool false))] []].
Definition ost_choice := Eval vm_compute in procs_of (ost_transform S 2 T0 "main" ost_args (EVar vb) choice).
Lemma emin_same a : emin a a = a.
Proof. apply ele_antisym; [apply emin_l | apply emin_glb; apply ele_refl]. Qed.
Section Choice.
  Variables (I : interp) (k : fixkind).
  Hypothesis HI : interp_ok I.
  Lemma choice_wp X s : wp_block I is_dist k choice X s = emin (X (upd s vb (VBool false))) (X s).
  Proof. reflexivity. Qed.
  Lemma choice_at next X s bb : s ib = VBool bb ->
    wp_block I is_dist k [SAssign [vb] (EVar ib); encode_iter (EVar vb) choice next] X s =
    if bb then emin (wp_block I is_dist k next X (upd s vb (VBool false))) (wp_block I is_dist k next X (upd s vb (VBool true))) else X (upd s vb (VBool false)).
  Proof.
    intros E. unfold wp_block. cbn [fold_right]. rewrite wp_iter. cbn [wp assign_sem eval]. rewrite E. unfold Phi.
    replace (holds I (EVar vb) (upd s vb (VBool bb))) with bb; [|unfold holds; cbn [eval]; now rewrite upd_same].
    destruct bb; [|reflexivity]. rewrite choice_wp, upd_upd. reflexivity.
  Qed.
  Lemma choice_ost : verified I is_dist k ost_choice.
  Proof.
    intros p bd Hin Hb. cbn [In ost_choice] in Hin.
    destruct Hin as [<-|[<-|[<-|[<-|[<-|[<-|[]]]]]]]; cbn [pbody] in Hb; injection Hb as <-.
    - eapply meets_check; [reflexivity | left; reflexivity|]. intros s Hs. destruct (bool_of s vb Hs eq_refl) as [bb E].
      unfold ev. cbn. fold vb. rewrite E. cbn. destruct bb; reflexivity.
    - eapply meets_intro; [reflexivity..|]. intros s Hs. cbn [below pdir]. destruct (bool_of s ib Hs eq_refl) as [bb E].
      set (inv := EIte TEUReal (EVar vb) (elit 2) (elit 0)). set (next := STick (ECast TEUReal (ELit TUInt (LUInt 1))) :: hey_const inv Up).
      match goal with |- ele (wp_block _ _ _ _ ?X s) (ev I ?a s) => set (post := X); assert (Pa : ev I a s = fin (if bb then 2 else 0)) end.
      { rewrite <- (ev_two I (upd s vb (s ib)) bb); [reflexivity|]. now rewrite upd_same. }
      rewrite Pa. change (ele (wp_block I is_dist k [SAssign [vb] (EVar ib); encode_iter (EVar vb) choice next] post s) (fin (if bb then 2 else 0))).
      assert (Hn : forall t, wp_block I is_dist k next post t = eadd (ev I inv t) eone).
      { intros t. rewrite <- (wp_hey_const I is_dist k inv Up post t). reflexivity. }
      rewrite (choice_at _ _ s bb E). destruct bb.
      + eapply ele_trans; [apply emin_l|]. rewrite Hn, (ev_two I _ false) by apply upd_same. unfold eone. rewrite eadd_fin by lra. apply ele_fin; lra.
      + apply ele_refl.
    - eapply meets_intro; [reflexivity..|]. intros s Hs. cbn [below pdir].
      change (ele (wp_block I is_dist k choice (ev I (EIte TEUReal (EBin TBool OLe (elit 1) (elit 1)) (EBin TEUReal OSub (elit 1) (elit 1)) (EBin TEUReal OSub (elit 1) (elit 1)))) (upd s vb (s ib)))
        (ev I (b_cast TEUReal (lit 1)) s)).
      assert (H0 : forall t, ev I (EIte TEUReal (EBin TBool OLe (elit 1) (elit 1)) (EBin TEUReal OSub (elit 1) (elit 1)) (EBin TEUReal OSub (elit 1) (elit 1))) t = fin 0).
      { intros t. unfold ev. cbn. destruct (eleb _ _); rewrite q1; unfold emonus, fin; f_equal; apply nnr_eq; rewrite !nval_of_max; unfold Rmax; repeat destruct (Rle_dec _ _); lra. }
      rewrite choice_wp, !H0, emin_same. apply ebot_le.
    - eapply meets_check; [reflexivity | left; reflexivity|]. intros s Hs. destruct (bool_of s vb Hs eq_refl) as [bb E].
      unfold ev. cbn. fold vb. rewrite E. unfold veq. cbn. rewrite dec_true by reflexivity. destruct bb; reflexivity.
    - eapply meets_intro; [reflexivity..|]. intros s Hs. cbn [below pdir]. destruct (bool_of s ib Hs eq_refl) as [bb E].
      match goal with |- ele ?x _ => change x with (validate_sem Down (assume_sem Down etop
        (wp_block I is_dist k [SAssign [vb] (EVar ib); encode_iter (EVar vb) choice (hey_const (elit 1) Up)] (ev I (elit 1)) s))) end.
      replace (wp_block I is_dist k _ _ s) with (fin 1); [|symmetry].
      + unfold assume_sem, validate_sem. rewrite !leb_top_fin. apply ele_refl.
      + rewrite (choice_at _ _ s bb E). destruct bb; [|apply (ev_elit1 I)].
        rewrite !wp_hey_const, !(ev_elit1 I). apply emin_same.
    - eapply meets_intro; [reflexivity..|]. intros s Hs. cbn [below pdir]. destruct (bool_of s ib Hs eq_refl) as [bb E].
      change (ele (ev I (elit 1) s) (wp_block I is_dist k [SAssign [vb] (EVar ib); encode_iter (EVar vb) choice (hey_const (elit 1) Down)] (ev I (elit 1)) s)).
      rewrite (choice_at _ _ s bb E). destruct bb; [|rewrite !(ev_elit1 I); apply ele_refl].
      rewrite !wp_hey_const, !(ev_elit1 I), emin_same. apply ele_refl.
  Qed.
End Choice.
Lemma choice_lost I s : env_ok s -> s vb = VBool true -> wp I is_dist Least (SWhile (EVar vb) choice) (ev I (elit 1)) s = ebot.
Proof.
  intros Hs E. apply le_ebot. change (wp I is_dist Least (SWhile (EVar vb) choice) (ev I (elit 1))) with (lfp (Phi I is_dist Least (EVar vb) choice (ev I (elit 1)))).
  eapply ele_trans; [apply (lfp_least _ (fun t => if holds I (EVar vb) t then ebot else eone)); auto|].
  - intros t Ht. unfold Phi. destruct (holds I (EVar vb) t) eqn:G.
    + rewrite choice_wp, G. apply emin_r.
    + rewrite ev_elit1. apply ele_refl.
  - unfold holds. cbn [eval]. rewrite E. apply ele_refl.
Qed.
Theorem ost_nondeterminism : exists c body inv past_inv cc post blk ps T',
  ost_transform S 2 T0 "main" [inv; past_inv; cc; post] c body = Ok (blk, ps, T') /\
  is_guard c /\ All (wts is_dist (fun _ => false)) body /\ clear_of_inits S c body [inv; past_inv; post] /\
  is_exp inv /\ is_exp past_inv /\ is_exp post /\ is_ureal cc /\ (forall x, ~ fv x cc) /\
  (forall I, interp_ok I -> subtotal I is_dist Least body /\ verified I is_dist Least ps) /\
  forall I, interp_ok I -> ~ exp_le (ev I inv) (wp I is_dist Least (SWhile c body) (ev I post)).
Proof.
  exists (EVar vb), choice, (elit 1), (EIte TEUReal (EVar vb) (elit 2) (elit 0)), (lit 1), (elit 1). eexists. exists ost_choice. eexists.
  split; [reflexivity|]. split; [split; reflexivity|]. split; [cbn; repeat split; auto|]. split.
  { split.
    - intros x Hx. cbn in Hx. subst x. apply vb_clear.
    - cbn. repeat split; auto; intros x Hx; cbn in Hx; tauto.
    - intros x Hx. assert (x = vb) as -> by (cbn in Hx; intuition congruence). apply vb_clear.
    - intros e He x Hx. cbn in He. assert (x = vb) as -> by (intuition (subst; cbn in *; intuition congruence)). apply vb_clear. }
  do 3 (split; [split; reflexivity|]). split; [split; reflexivity|]. split; [cbn; auto|]. split.
  - intros I HI. split; [intros s Hs; rewrite choice_wp; rewrite emin_same; apply ele_refl | now apply choice_ost].
  - intros I HI H. specialize (H (upd (st 0 0) vb (VBool true))). rewrite choice_lost in H; try apply upd_same; try (apply upd_ok; [apply st_ok | reflexivity]).
    rewrite ev_elit1 in H. specialize (H ltac:(apply upd_ok; [apply st_ok | reflexivity])). apply le_ebot in H. now apply eone_neq_ebot in H.
Qed.

(** ** A walk that goes up with probability 3/4, or down: [while 0 < x { if ⊓ { if flip(1/4) { x = x - 1 } else { x = x + 1 } } else { x = x - 1 } }] *)
Definition wx := mkid "x" 0 TUInt.
Definition wi := mkid "init_x" 1 TUInt.
Definition wc := mkid "c" 3 TBool.
Definition one_e := ELit TUInt (LUInt 1).
Definition down := SAssign [wx] (EBin TUInt OSub (EVar wx) one_e).
Definition up := SAssign [wx] (EBin TUInt OAdd (EVar wx) one_e).
Definition drift := [SDemonic [SVar wc (Some (ECall TBool "flip" [lit (1#4)])); SIf (EVar wc) [down] [up]] [down]].
Definition Tw := mktcx [(wx, true)] [].
Definition wvar := ECast TUReal (EVar wx).
Definition wguard := EBin TBool OLt (ELit TUInt (LUInt 0)) (EVar wx).
Definition drift_ast := Eval vm_compute in procs_of (ast_transform S 1 2 Tw "main" [tt_lit; wvar; EVar vv; lit (1#4); lit 1] wguard drift).
Lemma q4 : Q2R (1#4) = /4. Proof. unfold Q2R. cbn. lra. Qed.
Lemma uint_of s x : env_ok s -> ity x = TUInt -> exists n, s x = VUInt n.
Proof. intros Hs E. specialize (Hs x). unfold has_ty in Hs. rewrite E in Hs. destruct (s x); try discriminate. eauto. Qed.
Section Drift.
  Variables (I : interp) (k : fixkind).
  Hypothesis HI : interp_ok I.
  Lemma drift_wp X s n : s wx = VUInt n -> wp_block I is_dist k drift X s =
    emin (eadd (emul (fin (/4)) (X (upd (upd s wc (VBool true)) wx (VUInt (n - 1))))) (emul (fin (3/4)) (X (upd (upd s wc (VBool false)) wx (VUInt (n + 1))))))
      (X (upd s wx (VUInt (n - 1)))).
  Proof.
    intros E.
    assert (E' : wp_block I is_dist k drift X s =
      emin (eadd (emul (fin (Q2R (1#4))) (X (upd (upd s wc (VBool true)) wx (eval_bin I TUInt OSub (s wx) (VUInt 1)))))
       (eadd (emul (fin (1 - nval (nnr_of (Q2R (1#4))))) (X (upd (upd s wc (VBool false)) wx (eval_bin I TUInt OAdd (s wx) (VUInt 1))))) ebot))
       (X (upd s wx (eval_bin I TUInt OSub (s wx) (VUInt 1))))) by reflexivity.
    rewrite E', eadd_0_r, q4, E. rewrite nval_of by lra. replace (1 - /4) with (3/4) by lra. reflexivity.
  Qed.
  Lemma wguard_at s n : s wx = VUInt n -> holds I wguard s = negb (N.eqb n 0).
  Proof.
    intros E. unfold holds. cbn. fold wx. rewrite E. cbn. f_equal. destruct (N.eqb n 0) eqn:Z.
    - apply N.eqb_eq in Z. subst. reflexivity.
    - apply N.eqb_neq in Z. apply N.leb_gt. lia.
  Qed.
  Lemma drift_iter next X s n : s wi = VUInt n ->
    wp_block I is_dist k [SAssign [wx] (EVar wi); encode_iter wguard drift next] X s =
    if N.eqb n 0 then X (upd s wx (VUInt n)) else wp_block I is_dist k drift (wp_block I is_dist k next X) (upd s wx (VUInt n)).
  Proof.
    intros E. unfold wp_block. cbn [fold_right]. rewrite wp_iter. cbn [wp assign_sem eval]. rewrite E. unfold Phi.
    rewrite (wguard_at _ n) by apply upd_same. destruct (N.eqb n 0); reflexivity.
  Qed.
  Lemma drift_verified : verified I is_dist k drift_ast.
  Proof.
    intros p bd Hin Hb. cbn [In drift_ast] in Hin.
    destruct Hin as [<-|[<-|[<-|[<-|[<-|[<-|[]]]]]]]; cbn [pbody] in Hb; injection Hb as <-.
    - eapply antitone_const; reflexivity.
    - eapply antitone_const; reflexivity.
    - eapply meets_intro; [reflexivity..|]. intros s Hs. cbn [below pdir].
      destruct (uint_of s wi Hs eq_refl) as [n E].
      change (ele eone (wp_block I is_dist k [SAssign [wx] (EVar wi); encode_iter wguard drift []] (fun _ => eone) s)).
      rewrite (drift_iter _ _ s n E). destruct (N.eqb n 0); [apply ele_refl|]. rewrite (drift_wp _ _ n) by apply upd_same.
      cbn [wp_block fold_right]. unfold eone. rewrite !emul_fin, eadd_fin by lra. apply emin_glb; apply ele_fin; lra.
    - eapply meets_check; [reflexivity | right; eexists; reflexivity|]. intros s Hs. destruct (uint_of s wx Hs eq_refl) as [n E].
      rewrite ev_emb; auto; [|split; reflexivity].
      match goal with |- context [holds I ?e s] => replace (holds I e s) with true; auto end. symmetry. unfold holds. cbn. fold wx. rewrite E. cbn.
      destruct (N.leb n 0) eqn:L; [reflexivity|]. cbn. apply N.leb_gt in L. replace (dec _) with false; auto. symmetry. apply not_true_iff_false. intros H.
      apply (proj1 (dec_iff _)) in H. unfold n2r in H. cbn in H. rewrite !nval_of in H by (apply IZR_le; lia). apply le_IZR in H. lia.
    - eapply meets_intro; [reflexivity..|]. intros s Hs. cbn [below pdir].
      destruct (uint_of s wi Hs eq_refl) as [n E].
      match goal with |- ele (wp_block _ _ _ _ ?X s) _ => set (post := X) end.
      assert (P : forall t m, t wx = VUInt m -> post t = fin (n2r m)) by (intros t m Et; unfold post, ev; cbn; fold wx; rewrite Et; reflexivity).
      match goal with |- ele _ (ev I ?a s) => assert (Pa : ev I a s = post (upd s wx (VUInt n))) by (unfold post, ev; cbn; fold wi wx; now rewrite E) end.
      rewrite Pa. clear Pa.
      match goal with |- ele ?a _ => replace a with (wp_block I is_dist k [SAssign [wx] (EVar wi); encode_iter wguard drift []] post s) end.
      + rewrite (drift_iter _ _ s n E). destruct (N.eqb n 0); [apply ele_refl|]. rewrite (drift_wp _ _ n) by apply upd_same. cbn [wp_block fold_right].
        eapply ele_trans; [apply emin_r|]. rewrite upd_upd. rewrite !(P _ _ (upd_same _ _ _)). apply ele_fin; unfold n2r; apply IZR_le; lia.
      + match goal with |- ?a = _ => set (r := a) end.
        match goal with |- _ = ?b => change b with (assume_sem Up ebot r) end. symmetry. apply assume_bot.
    - eapply meets_intro; [reflexivity..|]. intros s Hs. cbn [below pdir].
      destruct (uint_of s wi Hs eq_refl) as [n E].
      match goal with |- ele _ (wp_block _ _ _ _ ?X s) => set (post := X) end.
      match goal with |- ele _ ?x => change x with (wp_block I is_dist k drift post (upd s wx (s wi))) end.
      rewrite E, (drift_wp _ _ n) by apply upd_same. rewrite !upd_upd.
      destruct (N.eqb n 0) eqn:Z.
      + match goal with |- ele (ev I ?a s) _ => replace (ev I a s) with ebot end; [apply ebot_le|].
        apply N.eqb_eq in Z. subst n. symmetry. unfold ev. cbn. fold wx wi. rewrite E. cbn. now rewrite emul_0_l, emul_0_r.
      + apply N.eqb_neq in Z.
        assert (P : forall t, t wi = VUInt n -> t wx = VUInt (n - 1) -> post t = fin 1).
        { intros t E1 E2. unfold post, ev. cbn. fold wx wi. rewrite E1, E2. cbn. rewrite q1. rewrite dec_true; auto.
          unfold n2r. rewrite !nval_of_max. replace (Z.of_N (n - 1)) with (Z.of_N n - 1)%Z by lia. rewrite minus_IZR.
          assert (1 <= IZR (Z.of_N n)) by (apply (IZR_le 1); lia). unfold Rmax. repeat destruct (Rle_dec _ _); lra. }
        match goal with |- ele (ev I ?a s) _ => replace (ev I a s) with (fin (/4)) end.
        * apply emin_glb.
          -- rewrite (P (upd _ wx _)); [| |apply upd_same]; [|unfold upd; cbn; exact E].
             rewrite <- (eadd_0_r (fin (/4))) at 1. apply eadd_mono; [|apply ebot_le]. rewrite emul_fin by lra. apply ele_fin; lra.
          -- rewrite (P (upd _ wx _)); [| |apply upd_same]; [|unfold upd; cbn; exact E]. apply ele_fin; lra.
        * symmetry. unfold ev. cbn. fold wx wi. rewrite E. cbn. destruct (N.leb n 0) eqn:L; [apply N.leb_le in L; lia|]. cbn.
          rewrite !emul_1_l, q4. reflexivity.
  Qed.
End Drift.
Lemma drift_lost I s : env_ok s -> s wx = VUInt 1 -> ~ terminates I is_dist wguard drift s.
Proof.
  intros Hs E T. unfold terminates in T.
  set (Y := fun t : env => match t wx with VUInt n => fin ((/3) ^ N.to_nat n) | _ => eone end).
  assert (P3 : forall m, 0 <= (/3) ^ m) by (intros m; apply pow_le; lra).
  assert (L : ele (lfp (Phi I is_dist Least wguard drift (fun _ => eone)) s) (Y s)).
  { apply (lfp_least _ Y); auto. intros t Ht. unfold Phi. destruct (uint_of t wx Ht eq_refl) as [n En]. rewrite (wguard_at I t n En).
    destruct (N.eqb n 0) eqn:Z; cbn [negb].
    - apply N.eqb_eq in Z. subst n. unfold Y. rewrite En. apply ele_refl.
    - apply N.eqb_neq in Z. rewrite (drift_wp I Least Y t n En). eapply ele_trans; [apply emin_l|]. unfold Y. rewrite !upd_same, En.
      rewrite !emul_fin by (auto; lra). destruct (N.to_nat n) as [|m] eqn:Em; [lia|].
      assert (E1 : N.to_nat (n - 1) = m) by (rewrite N2Nat.inj_sub, Em; cbn; apply Nat.sub_0_r).
      assert (E2 : N.to_nat (n + 1) = S (S m)) by (rewrite N2Nat.inj_add, Em; cbn; now rewrite Nat.add_1_r). rewrite E1, E2. pose proof (P3 m). cbn [pow].
      rewrite eadd_fin by lra. apply ele_fin; lra. }
  change (lfp (Phi I is_dist Least wguard drift (fun _ => eone)) s = eone) in T. rewrite T in L. unfold Y in L. rewrite E in L.
  change (ele (fin 1) (fin ((/3) ^ 1))) in L. rewrite pow_1 in L. apply fin_le in L; lra.
Qed.
Theorem ast_nondeterminism : exists c body inv var v prob decr blk ps T',
  ast_transform S 1 2 Tw "main" [inv; var; EVar v; prob; decr] c body = Ok (blk, ps, T') /\
  is_guard c /\ All (wts is_dist (fun _ => false)) body /\ clear_of_inits S c body [inv; var] /\
  is_guard inv /\ is_ureal var /\ ity v = TUReal /\ is_ureal prob /\ is_ureal decr /\ (forall x, ~ fv x prob) /\ (forall x, ~ fv x decr) /\
  (forall I s, 0 < uval (eval I prob s) /\ 0 < uval (eval I decr s)) /\ (forall x, fv x var -> ~ any (declares x) body) /\
  (forall I, interp_ok I -> subtotal I is_dist Least body /\ verified I is_dist Least ps) /\
  forall I, interp_ok I -> exists s, env_ok s /\ holds I inv s = true /\ ~ terminates I is_dist c body s.
Proof.
  exists wguard, drift, tt_lit, wvar, vv, (lit (1#4)), (lit 1), [], drift_ast. eexists.
  split; [reflexivity|]. split; [split; reflexivity|].
  split; [cbn; repeat split; auto; apply dr_flip; reflexivity|].
  assert (Cx : ~ inits S wx) by (intros [y E]; discriminate). assert (Cc : ~ inits S wc) by (intros [y E]; discriminate). split.
  { split.
    - intros x Hx. cbn in Hx. assert (x = wx) as -> by (intuition congruence). exact Cx.
    - cbn. repeat split; auto; intros x Hx; cbn in Hx; try tauto; assert (x = wx \/ x = wc) as [-> | ->] by (intuition congruence); tauto.
    - intros x Hx. assert (x = wx \/ x = wc) as [-> | ->] by (cbn in Hx; intuition congruence); auto.
    - intros e He x Hx. cbn in He. assert (x = wx) as -> by (intuition (subst; cbn in *; intuition congruence)). exact Cx. }
  split; [split; reflexivity|]. split; [split; reflexivity|]. split; [reflexivity|]. do 2 (split; [split; reflexivity|]). do 2 (split; [cbn; auto|]).
  split; [intros I s; cbn; rewrite q1, q4, !nval_of by lra; lra|].
  split; [intros x Hx; cbn in Hx; subst x; cbn; intuition discriminate|]. split.
  - intros I HI. split; [|now apply drift_verified]. intros s Hs. destruct (uint_of s wx Hs eq_refl) as [n E].
    rewrite (drift_wp I Least _ s n E). apply emin_r.
  - intros I HI. exists (upd (st 0 0) wx (VUInt 1)). assert (Hs : env_ok (upd (st 0 0) wx (VUInt 1))) by (apply upd_ok; [apply st_ok | reflexivity]).
    split; auto. split; [reflexivity|]. apply drift_lost; auto.
Qed.
