(** Loops whose side conditions hold: a coin tossed until it shows tails. *)
From Coq Require Import Bool List String NArith ZArith QArith Qreals Reals Lra Lia FunctionalExtensionality.
From Verif.Model Require Import Syntax Builder TyCtx AstUtil Lits Dist ProofRules Procs LoopProcs.
From Verif.Spec Require Import Eur Sem Wp Frame Loops Calls Termination.
From Verif.Proofs Require Import EurLemmas SemLemmas SimplifyRefuted DistProofs WpLemmas MonoProofs FrameProofs LoopProofs OmegaProofs SimLemmas TermRules TermProcs OstProofs AstProofs PastProofs.
Import ListNotations.
Local Open Scope list_scope.
Local Open Scope R_scope.
Local Arguments emul : simpl never.
Local Arguments eadd : simpl never.
Local Arguments eleb : simpl never.
Local Arguments emonus : simpl never.
Local Arguments eone : simpl never.
Local Arguments ebot : simpl never.

Definition vb := mkid "b" 0 TBool.
Definition ib := mkid "init_b" 1 TBool.
Definition vv := mkid "v" 0 TUReal.
Definition lit (q : Q) := ELit TUReal (LFrac q).
Definition elit (q : Q) := ELit TEUReal (LFrac q).
Definition coin := [SAssign [vb] (ECall TBool "flip" [lit (1#2)])].
Definition T0 := mktcx [(vb, true)] [].
Definition tt_lit := ELit TBool (LBool true).
Definition ast_args := [tt_lit; EIte TUReal (EVar vb) (lit 1) (lit 0); EVar vv; lit (1#2); lit 1].
Definition ost_args := [elit 1; EIte TEUReal (EVar vb) (elit 2) (elit 0); lit 1; elit 1].
Definition past_args := [EIte TEUReal (EVar vb) (elit 2) (elit 0); lit (1#2); lit 1].

Definition procs_of (r : res (list stmt * list proc * tyctx)) : list proc := match r with Ok (_, ps, _) => ps | _ => [] end.
Definition ast_procs := Eval vm_compute in procs_of (ast_transform S 1 2 T0 "main" ast_args (EVar vb) coin).
Definition ost_procs := Eval vm_compute in procs_of (ost_transform S 2 T0 "main" ost_args (EVar vb) coin).
Definition past_procs := Eval vm_compute in procs_of (past_transform S 2 T0 "main" past_args (EVar vb) coin).

Lemma qr q r : IZR (Qnum q) / IZR (Zpos (Qden q)) = r -> Q2R q = r.
Proof. intros <-. reflexivity. Qed.
Lemma q0 : Q2R 0 = 0. Proof. unfold Q2R. cbn. lra. Qed.
Lemma q1 : Q2R 1 = 1. Proof. unfold Q2R. cbn. lra. Qed.
Lemma q2 : Q2R 2 = 2. Proof. unfold Q2R. cbn. lra. Qed.
Lemma qh : Q2R (1#2) = /2. Proof. unfold Q2R. cbn. lra. Qed.

Lemma coin_wp I k X s : wp_block I is_dist k coin X s = eadd (emul (fin (/2)) (X (upd s vb (VBool true)))) (emul (fin (/2)) (X (upd s vb (VBool false)))).
Proof.
  assert (E : wp_block I is_dist k coin X s =
    eadd (emul (fin (Q2R (1#2))) (X (upd s vb (VBool true)))) (eadd (emul (fin (1 - nval (nnr_of (Q2R (1#2))))) (X (upd s vb (VBool false)))) ebot)) by reflexivity.
  rewrite E, eadd_0_r, qh. rewrite nval_of by lra. repeat f_equal. lra.
Qed.
Lemma coin_split I k X s a b : X (upd s vb (VBool true)) = fin a -> X (upd s vb (VBool false)) = fin b -> 0 <= a -> 0 <= b ->
  wp_block I is_dist k coin X s = fin ((a + b) / 2).
Proof.
  intros E1 E2 H1 H2. rewrite coin_wp, E1, E2, !emul_fin, eadd_fin by lra. f_equal. lra.
Qed.
Lemma bool_of s x : env_ok s -> ity x = TBool -> exists b, s x = VBool b.
Proof. intros Hs E. specialize (Hs x). unfold has_ty in Hs. rewrite E in Hs. destruct (s x); try discriminate. eauto. Qed.

Lemma meets_intro I p F d a b : pdir p = d -> pspecs p = [Requires a; Ensures b] ->
  (forall s, env_ok s -> below d (ev I a s) (F (ev I b) s)) -> meets I p F.
Proof.
  intros Hd Hs H s Hok. specialize (H s Hok). unfold requires, ensures, spec_exp. rewrite Hd, Hs. cbn [flat_map app map].
  assert (E : forall x, all_of d [x] = x).
  { intros x. destruct d; cbn.
    - apply ele_antisym; [apply emin_l | apply emin_glb; [apply ele_refl | apply ele_top]].
    - apply ele_antisym; [apply emax_lub; [apply ele_refl | apply ebot_le] | apply emax_l]. }
  rewrite E. replace (fun t => all_of d [ev I b t]) with (ev I b); auto.
  apply functional_extensionality. intros t. symmetry. apply E.
Qed.
Lemma meets_check I isd k p e : pdir p = Down -> (pspecs p = [] \/ exists a, pspecs p = [Requires a]) ->
  (forall s, env_ok s -> ev I e s = etop) -> meets I p (wp_block I isd k [SAssert Down e]).
Proof.
  intros Hd Hs H s Hok. unfold requires, ensures, spec_exp. rewrite Hd. cbn [wp_block fold_right wp]. rewrite H by auto.
  assert (E : ele etop (emin etop etop)) by (apply emin_glb; apply ele_refl).
  destruct Hs as [-> | [a ->]]; cbn [flat_map app map all_of fold_right below]; eapply ele_trans; try exact E; apply ele_top.
Qed.
Lemma antitone_const I isd k p q a x y : pdir p = Down ->
  pspecs p = [Requires a; Ensures (emb (EBin TBool OGe (b_subst (lit q) [(vv, x)]) (b_subst (lit q) [(vv, y)])))] ->
  meets I p (wp_block I isd k []).
Proof.
  intros Hd Hs. apply (meets_intro I p _ Down _ _ Hd Hs). intros s Hok. cbn [wp_block fold_right below].
  replace (ev I (emb _) s) with etop; [apply ele_top|]. symmetry. unfold ev, emb. cbn. rewrite dec_true by apply Rle_refl. reflexivity.
Qed.

Lemma upd_upd s x v w : upd (upd s x v) x w = upd s x w.
Proof. apply functional_extensionality. intros y. unfold upd. now destruct (ident_eqb x y). Qed.
Lemma upd_at s x v y : upd s x v y = if ident_eqb x y then v else s y.
Proof. reflexivity. Qed.
Lemma iter_at I k next X s bb : s ib = VBool bb ->
  wp_block I is_dist k [SAssign [vb] (EVar ib); encode_iter (EVar vb) coin next] X s =
  if bb then wp_block I is_dist k coin (wp_block I is_dist k next X) s else X (upd s vb (VBool false)).
Proof.
  intros E. unfold wp_block. cbn [fold_right]. rewrite wp_iter. cbn [wp assign_sem eval]. rewrite E. unfold Phi.
  replace (holds I (EVar vb) (upd s vb (VBool bb))) with bb; [|unfold holds; cbn [eval]; now rewrite upd_same].
  destruct bb; [|reflexivity]. rewrite coin_wp, !upd_upd. symmetry. apply (coin_wp I k (wp_block I is_dist k next X) s).
Qed.

Lemma assume_bot r : assume_sem Up ebot r = r.
Proof. unfold assume_sem. destruct (eleb r ebot) eqn:El; [|reflexivity]. apply eleb_iff, le_ebot in El. now symmetry. Qed.

Lemma leb_top_fin r : eleb etop (fin r) = false.
Proof. reflexivity. Qed.

Section Coin.
  Variables (I : interp) (k : fixkind).
  Hypothesis HI : interp_ok I.
  Lemma coin_total s : env_ok s -> wp_block I is_dist k coin (fun _ => eone) s = eone.
  Proof. intros Hs. rewrite (coin_split I k _ s 1 1); auto; try lra. unfold eone. f_equal. lra. Qed.

  Lemma coin_ast : verified I is_dist k ast_procs.
  Proof.
    intros p bd Hin Hb. cbn [In ast_procs] in Hin.
    destruct Hin as [<-|[<-|[<-|[<-|[<-|[<-|[]]]]]]]; cbn [pbody] in Hb; injection Hb as <-.
    - eapply antitone_const; reflexivity.
    - eapply antitone_const; reflexivity.
    - eapply meets_intro; [reflexivity..|]. intros s Hs. cbn [below pdir].
      destruct (bool_of s ib Hs eq_refl) as [bb E].
      change (ele eone (wp_block I is_dist k [SAssign [vb] (EVar ib); encode_iter (EVar vb) coin []] (fun _ => eone) s)).
      rewrite (iter_at I k _ _ s bb E). destruct bb; [|apply ele_refl]. rewrite coin_total by auto. apply ele_refl.
    - eapply meets_check; [reflexivity | right; eexists; reflexivity|]. intros s Hs. destruct (bool_of s vb Hs eq_refl) as [bb E].
      rewrite ev_emb; auto; [|split; reflexivity]. replace (holds I _ s) with true; auto. symmetry. unfold holds. cbn [eval]. fold vb. rewrite E.
      destruct bb; [|reflexivity]. cbn. rewrite q1. replace (dec _) with false; auto. symmetry. apply not_true_iff_false. intros H.
      apply (proj1 (dec_iff _)) in H. unfold n2r in H. cbn in H. rewrite !nval_of in H by lra. lra.
    - eapply meets_intro; [reflexivity..|]. intros s Hs. cbn [below pdir].
      destruct (bool_of s ib Hs eq_refl) as [bb E].
      match goal with |- ele (wp_block _ _ _ _ ?X s) _ => set (post := X) end.
      assert (P1 : forall t, t vb = VBool true -> post t = fin 1) by (intros t Et; unfold post, ev; cbn; fold vb; rewrite Et; cbn; now rewrite q1).
      assert (P0 : forall t, t vb = VBool false -> post t = fin 0) by (intros t Et; unfold post, ev; cbn; fold vb; rewrite Et; cbn; now rewrite q0).
      match goal with |- ele _ (ev I ?a s) => assert (Pa : ev I a s = post (upd s vb (VBool bb))) by (unfold post, ev; cbn; fold ib vb; now rewrite E) end.
      rewrite Pa. clear Pa.
      match goal with |- ele ?a _ => replace a with (wp_block I is_dist k [SAssign [vb] (EVar ib); encode_iter (EVar vb) coin []] post s) end.
      + rewrite (iter_at I k _ _ s bb E). destruct bb; [|apply ele_refl].
        rewrite (coin_split I k _ s 1 0); try lra; [|apply P1, upd_same | apply P0, upd_same]. rewrite P1 by apply upd_same. apply ele_fin; lra.
      + match goal with |- ?a = _ => set (r := a) end.
        match goal with |- _ = ?b => change b with (assume_sem Up ebot r) end. symmetry. apply assume_bot.
    - eapply meets_intro; [reflexivity..|]. intros s Hs. cbn [below pdir].
      destruct (bool_of s ib Hs eq_refl) as [bb E].
      match goal with |- ele _ (wp_block _ _ _ _ ?X s) => set (post := X) end.
      assert (Hw : forall X, wp_block I is_dist k (SAssign [vb] (EVar ib) :: coin) X s = wp_block I is_dist k coin X s).
      { intros X. change (wp_block I is_dist k (SAssign [vb] (EVar ib) :: coin) X s) with (wp_block I is_dist k coin X (upd s vb (s ib))). now rewrite !coin_wp, !upd_upd. }
      unfold coin in Hw at 1. fold vb ib. change (ECall TBool "flip" [ELit TUReal (LFrac (1 # 2))]) with (ECall TBool "flip" [lit (1#2)]). rewrite Hw.
      destruct bb.
      + rewrite (coin_split I k post s 0 1); try lra.
        * match goal with |- ele (ev I ?a s) _ => replace (ev I a s) with (fin (/2)) end; [apply ele_fin; lra|].
          symmetry. unfold ev. cbn. fold vb ib. rewrite E. cbn. change (VUReal (nnr_of (Q2R (1#2)))) with (VUReal (nnr_of (Q2R (1#2)))).
          rewrite !emul_1_l, qh. reflexivity.
        * unfold post, ev. cbn. fold vb ib. rewrite E. cbn. rewrite q1. replace (dec _) with false; auto.
          symmetry. apply not_true_iff_false. intros H. apply (proj1 (dec_iff _)) in H. rewrite !nval_of in H by (rewrite ?nval_of; lra). lra.
        * unfold post, ev. cbn. fold vb ib. rewrite E. cbn. rewrite q1, q0. rewrite dec_true; auto.
          rewrite !nval_of by (rewrite ?nval_of; lra). lra.
      + match goal with |- ele (ev I ?a s) _ => replace (ev I a s) with ebot end; [apply ebot_le|].
        symmetry. unfold ev. cbn. fold vb ib. rewrite E. cbn. now rewrite emul_0_l, emul_0_r.
  Qed.

  Lemma ev_two t b : t vb = VBool b -> ev I (EIte TEUReal (EVar vb) (elit 2) (elit 0)) t = fin (if b then 2 else 0).
  Proof. intros E. unfold ev. cbn. rewrite E. destruct b; cbn; now rewrite ?q2, ?q0. Qed.
  Lemma ev_elit1 t : ev I (elit 1) t = fin 1.
  Proof. unfold ev. cbn. now rewrite q1. Qed.
  Lemma coin_ost : verified I is_dist k ost_procs.
  Proof.
    intros p bd Hin Hb. cbn [In ost_procs] in Hin.
    destruct Hin as [<-|[<-|[<-|[<-|[<-|[<-|[]]]]]]]; cbn [pbody] in Hb; injection Hb as <-.
    - eapply meets_check; [reflexivity | left; reflexivity|]. intros s Hs. destruct (bool_of s vb Hs eq_refl) as [bb E].
      unfold ev. cbn. fold vb. rewrite E. cbn. destruct bb; reflexivity.
    - eapply meets_intro; [reflexivity..|]. intros s Hs. cbn [below pdir]. destruct (bool_of s ib Hs eq_refl) as [bb E].
      set (inv := EIte TEUReal (EVar vb) (elit 2) (elit 0)). set (next := STick (ECast TEUReal (ELit TUInt (LUInt 1))) :: hey_const inv Up).
      match goal with |- ele (wp_block _ _ _ _ ?X s) (ev I ?a s) => set (post := X); assert (Pa : ev I a s = fin (if bb then 2 else 0)) end.
      { rewrite <- (ev_two (upd s vb (s ib)) bb); [reflexivity|]. now rewrite upd_same. }
      rewrite Pa. change (ele (wp_block I is_dist k [SAssign [vb] (EVar ib); encode_iter (EVar vb) coin next] post s) (fin (if bb then 2 else 0))).
      assert (Hn : forall t, wp_block I is_dist k next post t = eadd (ev I inv t) eone).
      { intros t. rewrite <- (wp_hey_const I is_dist k inv Up post t). reflexivity. }
      rewrite (iter_at I k _ _ s bb E). destruct bb.
      + rewrite (coin_split I k _ s 3 1); try lra; [apply ele_fin; lra | |]; rewrite Hn.
        * rewrite (ev_two _ true) by apply upd_same. unfold eone. rewrite eadd_fin by lra. f_equal. lra.
        * rewrite (ev_two _ false) by apply upd_same. unfold eone. rewrite eadd_fin by lra. f_equal. lra.
      + apply ele_refl.
    - eapply meets_intro; [reflexivity..|]. intros s Hs. cbn [below pdir].
      change (ele (wp_block I is_dist k coin (ev I (EIte TEUReal (EBin TBool OLe (elit 1) (elit 1)) (EBin TEUReal OSub (elit 1) (elit 1)) (EBin TEUReal OSub (elit 1) (elit 1)))) (upd s vb (s ib)))
        (ev I (b_cast TEUReal (lit 1)) s)).
      assert (H0 : forall t, ev I (EIte TEUReal (EBin TBool OLe (elit 1) (elit 1)) (EBin TEUReal OSub (elit 1) (elit 1)) (EBin TEUReal OSub (elit 1) (elit 1))) t = fin 0).
      { intros t. unfold ev. cbn. destruct (eleb _ _); rewrite q1; unfold emonus, fin; f_equal; apply nnr_eq; rewrite !nval_of_max; unfold Rmax; repeat destruct (Rle_dec _ _); lra. }
      rewrite (coin_split I k _ _ 0 0) by (try apply H0; lra). replace ((0 + 0) / 2) with 0 by lra. apply ebot_le.
    - eapply meets_check; [reflexivity | left; reflexivity|]. intros s Hs. destruct (bool_of s vb Hs eq_refl) as [bb E].
      unfold ev. cbn. fold vb. rewrite E. unfold veq. cbn. rewrite dec_true by reflexivity. destruct bb; reflexivity.
    - eapply meets_intro; [reflexivity..|]. intros s Hs. cbn [below pdir]. destruct (bool_of s ib Hs eq_refl) as [bb E].
      match goal with |- ele ?x _ => change x with (validate_sem Down (assume_sem Down etop
        (wp_block I is_dist k [SAssign [vb] (EVar ib); encode_iter (EVar vb) coin (hey_const (elit 1) Up)] (ev I (elit 1)) s))) end.
      replace (wp_block I is_dist k _ _ s) with (fin 1); [|symmetry].
      + unfold assume_sem, validate_sem. rewrite !leb_top_fin. apply ele_refl.
      + rewrite (iter_at I k _ _ s bb E). destruct bb; [|apply ev_elit1].
        rewrite (coin_split I k _ s 1 1); try lra; [f_equal; lra | |]; rewrite wp_hey_const; apply ev_elit1.
    - eapply meets_intro; [reflexivity..|]. intros s Hs. cbn [below pdir]. destruct (bool_of s ib Hs eq_refl) as [bb E].
      change (ele (ev I (elit 1) s) (wp_block I is_dist k [SAssign [vb] (EVar ib); encode_iter (EVar vb) coin (hey_const (elit 1) Down)] (ev I (elit 1)) s)).
      rewrite (iter_at I k _ _ s bb E). destruct bb; [|rewrite !ev_elit1; apply ele_refl].
      rewrite (coin_split I k _ s 1 1); try lra; [rewrite ev_elit1; apply ele_fin; lra | |]; rewrite wp_hey_const; apply ev_elit1.
  Qed.

  (** Two of the three conditions of @past; the third, as documented; and that its procedure is wrong. *)
  Lemma coin_past : verified I is_dist k (map coerced (firstn 2 past_procs)).
  Proof.
    intros p bd Hin Hb. cbn [In past_procs firstn map] in Hin.
    destruct Hin as [<-|[<-|[]]]; cbn in Hb; injection Hb as <-.
    - eapply meets_check; [reflexivity | left; reflexivity|]. intros s Hs. destruct (bool_of s vb Hs eq_refl) as [bb E].
      unfold ev. cbn. fold vb. rewrite E. destruct bb; cbn; rewrite ?emul_0_l, ?emul_1_l, ?q0, ?q1; rewrite (proj2 (eleb_iff _ _)); auto; apply ebot_le.
    - eapply meets_check; [reflexivity | left; reflexivity|]. intros s Hs. destruct (bool_of s vb Hs eq_refl) as [bb E].
      unfold ev. cbn. fold vb. rewrite E. destruct bb; cbn; rewrite ?emul_0_l, ?emul_1_l, ?q0, ?q1, ?q2; rewrite (proj2 (eleb_iff _ _)); auto; [|apply ebot_le].
      rewrite eadd_0_r. apply ele_fin; lra.
  Qed.
  Lemma coin_decreases s : env_ok s -> holds I (EVar vb) s = true ->
    ele (wp_block I is_dist k coin (ev I (EIte TEUReal (EVar vb) (elit 2) (elit 0))) s) (emonus (ev I (EIte TEUReal (EVar vb) (elit 2) (elit 0)) s) (ev I (b_cast TEUReal (lit (1#2))) s)).
  Proof.
    intros Hs Hg. destruct (bool_of s vb Hs eq_refl) as [bb E]. unfold holds in Hg. cbn [eval] in Hg. rewrite E in Hg. destruct bb; [|discriminate].
    rewrite (coin_split I k _ s 2 0); try lra; [|apply (ev_two _ true), upd_same | apply (ev_two _ false), upd_same].
    rewrite (ev_two s true E). replace (ev I (b_cast TEUReal (lit (1#2))) s) with (fin (/2)) by (unfold ev; cbn; now rewrite qh).
    unfold emonus, fin. change (ele (fin ((2+0)/2)) (fin (nval (nnr_of 2) - nval (nnr_of (/2))))). rewrite !nval_of by lra. apply ele_fin; lra.
  Qed.
  Lemma coin_rejected : ~ verified I is_dist k (skipn 2 past_procs).
  Proof.
    intros V. unfold past_procs in V. cbn [skipn] in V.
    match type of V with verified _ _ _ [?p] => set (p3 := p) in *; assert (M := V p3 (match pbody p3 with Some b => b | None => [] end) ltac:(cbn; auto) eq_refl) end.
    assert (Hs : exists s, env_ok s /\ s ib = VBool true /\ s vb = VBool true).
    { exists (st 0 0). split; [apply st_ok|]. split; reflexivity. }
    destruct Hs as (s & Hs & E1 & E2).
    pose proof (meets_one I p3 Down _ _ _ s eq_refl eq_refl M Hs) as H. cbn [below] in H. clear M V.
    match type of H with ele (ev I ?a s) (wp_block _ _ _ _ ?X s) => assert (Pa : ev I a s = fin (3/2)); [|rewrite Pa in H; set (post := X) in H] end.
    { unfold ev. cbn. fold vb ib. rewrite E1, E2. cbn. rewrite emul_1_l, q2, qh. unfold emonus, fin. f_equal. apply nnr_eq. rewrite !nval_of by (rewrite ?nval_of; lra). lra. }
    change (ele (fin (3/2)) (wp_block I is_dist k [SAssign [vb] (EVar ib); encode_iter (EVar vb) coin (hey_const (EIte TEUReal (EVar vb) (elit 2) (elit 0)) Down)] post s)) in H.
    rewrite (iter_at I k _ _ s true E1) in H. rewrite (coin_split I k _ s 2 0) in H; try lra.
    - apply fin_le in H; lra.
    - rewrite wp_hey_const. apply (ev_two _ true), upd_same.
    - rewrite wp_hey_const. apply (ev_two _ false), upd_same.
  Qed.
End Coin.

Lemma coin_proper I isf : interp_ok I -> proper_loop I is_dist isf (EVar vb) coin.
Proof.
  intros HI. split.
  - split; reflexivity.
  - split; [|exact Logic.I]. apply dr_flip; reflexivity.
  - cbn. auto.
  - intros s Hs. rewrite coin_total by auto. apply ele_refl.
Qed.
Lemma vb_clear : ~ inits S vb.
Proof. intros [y E]. discriminate. Qed.
Lemma coin_clear es : (forall e x, In e es -> fv x e -> x = vb) -> clear_of_inits S (EVar vb) coin es.
Proof.
  intros H. split.
  - intros x Hx. cbn in Hx. subst x. apply vb_clear.
  - split; [|exact Logic.I]. intros x Hx. cbn in Hx. tauto.
  - intros x Hx. cbn in Hx. destruct Hx as [Hx|[]]. assert (x = vb) as -> by (cbn in Hx; intuition congruence). apply vb_clear.
  - intros e He x Hx. rewrite (H e x He Hx). apply vb_clear.
Qed.
