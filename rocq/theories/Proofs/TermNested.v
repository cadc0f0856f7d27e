(** The rules for almost-sure termination and optional stopping for a loop whose body is a loop:
    [while b { while b { b = flip(0.5) } }]. *)
From Coq Require Import Bool List String NArith ZArith QArith Qreals Reals Lra Lia FunctionalExtensionality.
From Verif.Model Require Import Syntax Builder TyCtx AstUtil Lits Dist ProofRules Procs LoopProcs.
From Verif.Spec Require Import Eur Sem Wp Frame Loops Calls Termination.
From Verif.Proofs Require Import EurLemmas SemLemmas SimplifyRefuted DistProofs WpLemmas MonoProofs FrameProofs LoopProofs OmegaProofs SimLemmas Additive TermRules TermProcs OstProofs AstProofs TermExamples.
Import ListNotations.
Local Open Scope list_scope.
Local Open Scope R_scope.
Local Arguments emul : simpl never.
Local Arguments eadd : simpl never.
Local Arguments eleb : simpl never.
Local Arguments emonus : simpl never.
Local Arguments eone : simpl never.
Local Arguments ebot : simpl never.

Definition tosses := [SWhile (EVar vb) coin].
Definition ast_nested := Eval vm_compute in procs_of (ast_transform S 1 2 T0 "main" ast_args (EVar vb) tosses).
Definition ost_nested := Eval vm_compute in procs_of (ost_transform S 2 T0 "main" ost_args (EVar vb) tosses).

Lemma half a : eadd (emul (fin (/2)) a) (emul (fin (/2)) a) = a.
Proof.
  destruct (eur_cases a) as [(x & Hx & ->)| ->].
  - rewrite !emul_fin, eadd_fin by lra. f_equal. lra.
  - rewrite emul_Inf_r by lra. reflexivity.
Qed.
Section Tosses.
  Variable I : interp.
  Hypothesis HI : interp_ok I.
  Lemma coin_mono : mono (wp_block I is_dist Least coin).
  Proof.
    intros X Y H s Hs. rewrite !coin_wp. apply eadd_mono; (apply emul_mono; [apply ele_refl|]); apply H, upd_ok; auto; reflexivity.
  Qed.
  Lemma upd_id s x : upd s x (s x) = s.
  Proof. apply functional_extensionality. intros y. unfold upd. destruct (ident_eqb x y) eqn:E; auto. apply ident_eqb_eq in E. now subst. Qed.
  Lemma tosses_wp X s : env_ok s -> wp_block I is_dist Least tosses X s = X (upd s vb (VBool false)).
  Proof.
    intros Hs0. change (wp_block I is_dist Least tosses X s) with (lfp (Phi I is_dist Least (EVar vb) coin X) s).
    set (L := lfp (Phi I is_dist Least (EVar vb) coin X)).
    assert (Mo : mono (Phi I is_dist Least (EVar vb) coin X)) by (apply loop_mono, coin_mono).
    assert (Hf : forall t, env_ok t -> t vb = VBool false -> L t = X t).
    { intros t Ht E. unfold L. rewrite lfp_fix at 1 by auto. unfold Phi at 1, holds. cbn [eval]. now rewrite E. }
    assert (Up : ele (L s) (X (upd s vb (VBool false)))).
    { refine (lfp_least _ (fun t => X (upd t vb (VBool false))) _ s Hs0). intros t Ht. unfold Phi, holds. cbn [eval].
      destruct (bool_of t vb Ht eq_refl) as [bb E]. rewrite E. destruct bb.
      - rewrite coin_wp, !upd_upd. rewrite half. apply ele_refl.
      - rewrite <- E, upd_id. apply ele_refl. }
    destruct (bool_of s vb Hs0 eq_refl) as [bb E]. destruct bb; [|rewrite Hf by auto; now rewrite <- E, upd_id].
    assert (Eq : L s = eadd (emul (fin (/2)) (L s)) (emul (fin (/2)) (X (upd s vb (VBool false))))).
    { unfold L at 1. rewrite lfp_fix at 1 by auto. unfold Phi at 1, holds. cbn [eval]. rewrite E. fold L. rewrite coin_wp.
      rewrite <- E, upd_id. rewrite (Hf (upd s vb (VBool false))) by (try apply upd_same; apply upd_ok; auto; reflexivity). reflexivity. }
    destruct (eur_cases (X (upd s vb (VBool false)))) as [(x & X0 & Ex)|Ex]; rewrite Ex in *.
    - destruct (le_fin _ _ Up X0) as (l & L0 & L1 & El). rewrite El in *. rewrite !emul_fin, eadd_fin in Eq by lra.
      apply fin_inj in Eq; try lra. f_equal. lra.
    - rewrite Eq, emul_Inf_r by lra. apply eadd_Inf_r.
  Qed.
  Lemma tosses_at next X s bb : env_ok s -> s ib = VBool bb ->
    wp_block I is_dist Least [SAssign [vb] (EVar ib); encode_iter (EVar vb) tosses next] X s =
    (if bb then wp_block I is_dist Least next X else X) (upd s vb (VBool false)).
  Proof.
    intros Hs E. unfold wp_block. cbn [fold_right]. rewrite wp_iter. cbn [wp assign_sem eval]. rewrite E. unfold Phi.
    replace (holds I (EVar vb) (upd s vb (VBool bb))) with bb; [|unfold holds; cbn [eval]; now rewrite upd_same].
    destruct bb; [|reflexivity]. rewrite tosses_wp, upd_upd by (apply upd_ok; auto; reflexivity). reflexivity.
  Qed.
  Lemma tosses_ast : verified I is_dist Least ast_nested.
  Proof.
    intros p bd Hin Hb. cbn [In ast_nested] in Hin.
    destruct Hin as [<-|[<-|[<-|[<-|[<-|[<-|[]]]]]]]; cbn [pbody] in Hb; injection Hb as <-.
    - eapply antitone_const; reflexivity.
    - eapply antitone_const; reflexivity.
    - eapply meets_intro; [reflexivity..|]. intros s Hs. cbn [below pdir].
      destruct (bool_of s ib Hs eq_refl) as [bb E].
      change (ele eone (wp_block I is_dist Least [SAssign [vb] (EVar ib); encode_iter (EVar vb) tosses []] (fun _ => eone) s)).
      rewrite (tosses_at _ _ s bb Hs E). destruct bb; apply ele_refl.
    - eapply meets_check; [reflexivity | right; eexists; reflexivity|]. intros s Hs. destruct (bool_of s vb Hs eq_refl) as [bb E].
      rewrite ev_emb; auto; [|split; reflexivity]. replace (holds I _ s) with true; auto. symmetry. unfold holds. cbn [eval]. fold vb. rewrite E.
      destruct bb; [|reflexivity]. cbn. rewrite q1. replace (dec _) with false; auto. symmetry. apply not_true_iff_false. intros H.
      apply (proj1 (dec_iff _)) in H. unfold n2r in H. cbn in H. rewrite !nval_of in H by lra. lra.
    - eapply meets_intro; [reflexivity..|]. intros s Hs. cbn [below pdir].
      destruct (bool_of s ib Hs eq_refl) as [bb E].
      match goal with |- ele (wp_block _ _ _ _ ?X s) _ => set (post := X) end.
      assert (P1 : forall t, t vb = VBool true -> post t = fin 1) by (intros t Et; unfold post, ev; cbn; fold vb; rewrite Et; cbn; now rewrite q1).
      assert (P0 : forall t, t vb = VBool false -> post t = fin 0) by (intros t Et; unfold post, ev; cbn; fold vb; rewrite Et; cbn; now rewrite q0).
      match goal with |- ele _ (ev I ?a s) => assert (Pa : ev I a s = post (upd s vb (VBool bb))) by (unfold post, ev; cbn; fold ib vb; now rewrite E) end.
      rewrite Pa. clear Pa.
      match goal with |- ele ?a _ => replace a with (wp_block I is_dist Least [SAssign [vb] (EVar ib); encode_iter (EVar vb) tosses []] post s) end.
      + rewrite (tosses_at _ _ s bb Hs E). destruct bb; [|apply ele_refl].
        cbn [wp_block fold_right]. rewrite P0, P1 by apply upd_same. apply ele_fin; lra.
      + match goal with |- ?a = _ => set (r := a) end.
        match goal with |- _ = ?b => change b with (assume_sem Up ebot r) end. symmetry. apply assume_bot.
    - eapply meets_intro; [reflexivity..|]. intros s Hs. cbn [below pdir].
      destruct (bool_of s ib Hs eq_refl) as [bb E].
      match goal with |- ele _ (wp_block _ _ _ _ ?X s) => set (post := X) end.
      assert (Hw : wp_block I is_dist Least (SAssign [vb] (EVar ib) :: tosses) post s = post (upd s vb (VBool false))).
      { change (wp_block I is_dist Least (SAssign [vb] (EVar ib) :: tosses) post s) with (wp_block I is_dist Least tosses post (upd s vb (s ib))).
        rewrite tosses_wp, upd_upd by (apply upd_ok; auto; rewrite E; reflexivity). reflexivity. }
      match goal with |- ele _ ?x => change x with (wp_block I is_dist Least (SAssign [vb] (EVar ib) :: tosses) post s) end. rewrite Hw.
      destruct bb.
      + replace (post (upd s vb (VBool false))) with (fin 1).
        * match goal with |- ele (ev I ?a s) _ => replace (ev I a s) with (fin (/2)) end; [apply ele_fin; lra|].
          symmetry. unfold ev. cbn. fold vb ib. rewrite E. cbn. rewrite !emul_1_l, qh. reflexivity.
        * symmetry. unfold post, ev. cbn. fold vb ib. rewrite E. cbn. rewrite q1, q0. rewrite dec_true; auto.
          rewrite !nval_of by (rewrite ?nval_of; lra). lra.
      + match goal with |- ele (ev I ?a s) _ => replace (ev I a s) with ebot end; [apply ebot_le|].
        symmetry. unfold ev. cbn. fold vb ib. rewrite E. cbn. now rewrite emul_0_l, emul_0_r.
  Qed.

  Lemma tosses_ost : verified I is_dist Least ost_nested.
  Proof.
    intros p bd Hin Hb. cbn [In ost_nested] in Hin.
    destruct Hin as [<-|[<-|[<-|[<-|[<-|[<-|[]]]]]]]; cbn [pbody] in Hb; injection Hb as <-.
    - eapply meets_check; [reflexivity | left; reflexivity|]. intros s Hs. destruct (bool_of s vb Hs eq_refl) as [bb E].
      unfold ev. cbn. fold vb. rewrite E. cbn. destruct bb; reflexivity.
    - eapply meets_intro; [reflexivity..|]. intros s Hs. cbn [below pdir]. destruct (bool_of s ib Hs eq_refl) as [bb E].
      set (inv := EIte TEUReal (EVar vb) (elit 2) (elit 0)). set (next := STick (ECast TEUReal (ELit TUInt (LUInt 1))) :: hey_const inv Up).
      match goal with |- ele (wp_block _ _ _ _ ?X s) (ev I ?a s) => set (post := X); assert (Pa : ev I a s = fin (if bb then 2 else 0)) end.
      { rewrite <- (ev_two I (upd s vb (s ib)) bb); [reflexivity|]. now rewrite upd_same. }
      rewrite Pa. change (ele (wp_block I is_dist Least [SAssign [vb] (EVar ib); encode_iter (EVar vb) tosses next] post s) (fin (if bb then 2 else 0))).
      assert (Hn : forall t, wp_block I is_dist Least next post t = eadd (ev I inv t) eone).
      { intros t. rewrite <- (wp_hey_const I is_dist Least inv Up post t). reflexivity. }
      rewrite (tosses_at _ _ s bb Hs E). destruct bb.
      + rewrite Hn, (ev_two I _ false) by apply upd_same. unfold eone. rewrite eadd_fin by lra. apply ele_fin; lra.
      + apply ele_refl.
    - eapply meets_intro; [reflexivity..|]. intros s Hs. cbn [below pdir].
      change (ele (wp_block I is_dist Least tosses (ev I (EIte TEUReal (EBin TBool OLe (elit 1) (elit 1)) (EBin TEUReal OSub (elit 1) (elit 1)) (EBin TEUReal OSub (elit 1) (elit 1)))) (upd s vb (s ib)))
        (ev I (b_cast TEUReal (lit 1)) s)).
      assert (H0 : forall t, ev I (EIte TEUReal (EBin TBool OLe (elit 1) (elit 1)) (EBin TEUReal OSub (elit 1) (elit 1)) (EBin TEUReal OSub (elit 1) (elit 1))) t = fin 0).
      { intros t. unfold ev. cbn. destruct (eleb _ _); rewrite q1; unfold emonus, fin; f_equal; apply nnr_eq; rewrite !nval_of_max; unfold Rmax; repeat destruct (Rle_dec _ _); lra. }
      destruct (bool_of s ib Hs eq_refl) as [bb E]. rewrite tosses_wp by (apply upd_ok; auto; rewrite E; reflexivity). rewrite H0. apply ebot_le.
    - eapply meets_check; [reflexivity | left; reflexivity|]. intros s Hs. destruct (bool_of s vb Hs eq_refl) as [bb E].
      unfold ev. cbn. fold vb. rewrite E. unfold veq. cbn. rewrite dec_true by reflexivity. destruct bb; reflexivity.
    - eapply meets_intro; [reflexivity..|]. intros s Hs. cbn [below pdir]. destruct (bool_of s ib Hs eq_refl) as [bb E].
      match goal with |- ele ?x _ => change x with (validate_sem Down (assume_sem Down etop
        (wp_block I is_dist Least [SAssign [vb] (EVar ib); encode_iter (EVar vb) tosses (hey_const (elit 1) Up)] (ev I (elit 1)) s))) end.
      replace (wp_block I is_dist Least _ _ s) with (fin 1); [|symmetry].
      + unfold assume_sem, validate_sem. rewrite !leb_top_fin. apply ele_refl.
      + rewrite (tosses_at _ _ s bb Hs E). destruct bb; [|apply (ev_elit1 I)].
        rewrite wp_hey_const. apply (ev_elit1 I).
    - eapply meets_intro; [reflexivity..|]. intros s Hs. cbn [below pdir]. destruct (bool_of s ib Hs eq_refl) as [bb E].
      change (ele (ev I (elit 1) s) (wp_block I is_dist Least [SAssign [vb] (EVar ib); encode_iter (EVar vb) tosses (hey_const (elit 1) Down)] (ev I (elit 1)) s)).
      rewrite (tosses_at _ _ s bb Hs E). destruct bb; [|rewrite !(ev_elit1 I); apply ele_refl].
      rewrite wp_hey_const, !(ev_elit1 I). apply ele_refl.
  Qed.

  Lemma tosses_proper isf : proper_loop I is_dist isf (EVar vb) tosses.
  Proof.
    split.
    - split; reflexivity.
    - cbn. split; auto. split; [split; reflexivity|]. split; auto. apply dr_flip; reflexivity.
    - cbn. auto.
    - intros s Hs. rewrite tosses_wp by auto. apply ele_refl.
  Qed.
End Tosses.
Lemma tosses_clear es : (forall e x, In e es -> fv x e -> x = vb) -> clear_of_inits S (EVar vb) tosses es.
Proof.
  intros H. destruct (coin_clear es H) as [C1 C2 C3 C4]. split; auto.
  - split; [|exact Logic.I]. split; auto.
  - intros x Hx. cbn in Hx. destruct Hx as [Hx|[]]. apply C3. cbn. tauto.
Qed.
