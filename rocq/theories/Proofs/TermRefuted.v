(** Loops accepted although they do not terminate, and certificates rejected although they are right. *)
From Coq Require Import Bool List String NArith ZArith QArith Qreals Reals Lra Lia FunctionalExtensionality.
From Verif.Model Require Import Syntax Builder TyCtx AstUtil Lits Dist ProofRules Procs LoopProcs Encode.
From Verif.Spec Require Import Eur Sem Wp Frame Loops Calls Termination.
From Verif.Proofs Require Import EurLemmas SemLemmas SimplifyRefuted DistProofs WpLemmas MonoProofs FrameProofs LoopProofs OmegaProofs UnrollProofs SimLemmas TermRules TermProcs OstProofs AstProofs PastProofs TermExamples.
Import ListNotations.
Local Open Scope list_scope.
Local Open Scope R_scope.
Local Arguments emul : simpl never.
Local Arguments eadd : simpl never.
Local Arguments eleb : simpl never.
Local Arguments emonus : simpl never.
Local Arguments eone : simpl never.
Local Arguments ebot : simpl never.

(** ** @past accepts [while true {}] *)
Definition spin_past := Eval vm_compute in procs_of (past_transform S 2 empty_tcx "main" [elit 5; lit (1#2); lit 1] tt_e []).
Lemma q5 : Q2R 5 = 5. Proof. unfold Q2R. cbn. lra. Qed.
Lemma spin_forever I isd k s : env_ok s -> iterations I isd k tt_e [] s = etop.
Proof.
  intros Hs. apply top_le. unfold iterations, lfp. apply einf_glb. intros r (Y & HY & ->). specialize (HY s Hs). cbn in HY.
  change (ele (eadd eone (Y s)) (Y s)) in HY. destruct (Y s) as [x|]; [|apply ele_refl]. exfalso.
  rewrite (Fin_fin x) in HY. unfold eone in HY. pose proof (nval_nonneg x). rewrite eadd_fin in HY by lra. apply fin_le in HY; lra.
Qed.
Lemma past_spin I isd k : interp_ok I -> verified I isd k (map coerced spin_past).
Proof.
  intros HI p bd Hin Hb. cbn [In spin_past map] in Hin. destruct Hin as [<-|[<-|[<-|[]]]]; cbn in Hb; injection Hb as <-.
  - eapply meets_check; [reflexivity | left; reflexivity|]. intros s Hs. unfold ev. cbn.
    rewrite emul_0_l, q1. rewrite (proj2 (eleb_iff _ _)); auto. apply ebot_le.
  - eapply meets_check; [reflexivity | left; reflexivity|]. intros s Hs. unfold ev. cbn.
    rewrite !emul_1_l, eadd_0_r, q1, q5. rewrite (proj2 (eleb_iff _ _)); auto. apply ele_fin; lra.
  - eapply meets_intro; [reflexivity..|]. intros s Hs. cbn [below pdir].
    unfold coerced; cbn [below pdir].
    match goal with |- ele _ ?b => replace b with (fin 5) end.
    + unfold ev. cbn. rewrite emul_1_l, q5, qh. change (ele (fin (nval (nnr_of 5) - nval (nnr_of (/2)))) (fin 5)). rewrite !nval_of by lra. apply ele_fin; lra.
    + symmetry. change (wp_block I isd k (hey_const (elit 5) Down) (ev I (ECast TEUReal (ELit TUInt (LUInt 0)))) s = fin 5).
      rewrite wp_hey_const. unfold ev. cbn. now rewrite q5.
Qed.
Theorem past_accepts_divergence : exists c body inv eps K blk ps T', past_transform S 2 empty_tcx "main" [inv; eps; K] c body = Ok (blk, ps, T') /\
  is_guard c /\ is_exp inv /\ is_ureal eps /\ is_ureal K /\ (forall I isd k, interp_ok I -> verified I isd k (map coerced ps)) /\
  forall I isd k s, env_ok s -> iterations I isd k c body s = etop.
Proof.
  exists tt_e, [], (elit 5), (lit (1#2)), (lit 1), [], spin_past. eexists. split; [reflexivity|].
  repeat (split; [split; reflexivity|]). split; [intros; now apply past_spin | intros; now apply spin_forever].
Qed.

(** ** @past rejects the documented example *)
Definition vx : ident := mkid "x" 0 TUInt.
Definition ix : ident := mkid "init_x" 1 TUInt.
Definition pc : ident := mkid "prob_choice" 0 TBool.
Definition walk : list stmt := [SAssign [pc] (ECall TBool "flip" [lit (1#2)]); SIf (EVar pc) [SAssign [vx] (EBin TUInt OSub (EVar vx) (ELit TUInt (LUInt 1)))] []].
Definition walk_inv : expr := ECast TEUReal (EBin TUInt OAdd (EVar vx) (ELit TUInt (LUInt 1))).
Definition walk_guard : expr := EBin TBool OLt (ELit TUInt (LUInt 0)) (EVar vx).
Definition T1 : tyctx := mktcx [(vx, true); (pc, true)] [].
Definition walk_past := Eval vm_compute in procs_of (past_transform S 2 T1 "main" [walk_inv; lit (1#2); lit 1] walk_guard walk).
Lemma walk_wp I k X s : env_ok s -> exists n, s vx = VUInt n /\
  wp_block I is_dist k walk X s = eadd (emul (fin (/2)) (X (upd (upd s pc (VBool true)) vx (VUInt (n - 1))))) (emul (fin (/2)) (X (upd s pc (VBool false)))).
Proof.
  intros Hs. pose proof (Hs vx) as H. cbn in H. destruct (s vx) as [| |n| | | |] eqn:E; try discriminate. exists n. split; auto.
  assert (E' : wp_block I is_dist k walk X s =
    eadd (emul (fin (Q2R (1#2))) (X (upd (upd s pc (VBool true)) vx (eval_bin I TUInt OSub (s vx) (VUInt 1)))))
     (eadd (emul (fin (1 - nval (nnr_of (Q2R (1#2))))) (X (upd s pc (VBool false)))) ebot)) by reflexivity.
  rewrite E', eadd_0_r, qh, E. rewrite nval_of by lra. repeat f_equal. lra.
Qed.
Lemma ev_walk I s n : s vx = VUInt n -> ev I walk_inv s = fin (n2r n + 1).
Proof. intros E. unfold ev. cbn. rewrite E. cbn. unfold n2r. f_equal. rewrite N2Z.inj_add, plus_IZR. reflexivity. Qed.
Lemma walk_decreases I k s : env_ok s -> holds I walk_guard s = true ->
  ele (wp_block I is_dist k walk (ev I walk_inv) s) (emonus (ev I walk_inv s) (ev I (b_cast TEUReal (lit (1#2))) s)).
Proof.
  intros Hs Hg. destruct (walk_wp I k (ev I walk_inv) s Hs) as (n & E & ->). unfold holds in Hg. cbn in Hg. rewrite E in Hg.
  assert (Hn : (1 <= n)%N) by (destruct n; [discriminate | lia]).
  rewrite (ev_walk I _ (n - 1)) by apply upd_same. rewrite (ev_walk I (upd s pc _) n), (ev_walk I s n E) by (rewrite upd_other by discriminate; auto).
  assert (Hp : 1 <= n2r n) by (unfold n2r; apply IZR_le; lia).
  assert (Hm : n2r (n - 1) = n2r n - 1) by (unfold n2r; rewrite N2Z.inj_sub, minus_IZR by auto; reflexivity).
  rewrite Hm, !emul_fin, eadd_fin by lra.
  replace (ev I (b_cast TEUReal (lit (1#2))) s) with (fin (/2)) by (unfold ev; cbn; now rewrite qh).
  change (ele (fin (/ 2 * (n2r n - 1 + 1) + / 2 * (n2r n + 1))) (fin (nval (nnr_of (n2r n + 1)) - nval (nnr_of (/2))))).
  rewrite !nval_of by lra. apply ele_fin; lra.
Qed.
Lemma walk_conditions I k : interp_ok I -> verified I is_dist k (map coerced (firstn 2 walk_past)).
Proof.
  intros HI p bd Hin Hb. cbn [In walk_past firstn map] in Hin. destruct Hin as [<-|[<-|[]]]; cbn in Hb; injection Hb as <-.
  - eapply meets_check; [reflexivity | left; reflexivity|]. intros s Hs. pose proof (Hs vx) as H. destruct (s vx) as [| |n| | | |] eqn:E; try discriminate.
    unfold ev. cbn. fold vx. rewrite E. cbn. rewrite q1. destruct n as [|n]; cbn.
    + rewrite emul_1_l. rewrite (proj2 (eleb_iff _ _)); auto. apply ele_refl.
    + rewrite emul_0_l. rewrite (proj2 (eleb_iff _ _)); auto. apply ebot_le.
  - eapply meets_check; [reflexivity | left; reflexivity|]. intros s Hs. pose proof (Hs vx) as H. destruct (s vx) as [| |n| | | |] eqn:E; try discriminate.
    unfold ev. cbn. fold vx. rewrite E. cbn. rewrite q1. destruct n as [|n]; cbn.
    + rewrite !emul_0_l. rewrite (proj2 (eleb_iff _ _)); auto. apply ebot_le.
    + rewrite !emul_1_l, eadd_0_r. rewrite (proj2 (eleb_iff _ _)); auto. apply ele_fin; try lra; unfold n2r; apply IZR_le; lia.
Qed.
Lemma walk_rejected I k : ~ verified I is_dist k (skipn 2 walk_past).
Proof.
  intros V. unfold walk_past in V. cbn [skipn] in V.
  match type of V with verified _ _ _ [?p] => set (p3 := p) in *; assert (M := V p3 (match pbody p3 with Some b => b | None => [] end) ltac:(cbn; auto) eq_refl) end.
  set (s := upd (st 0 0) vx (VUInt 5)). assert (Hs : env_ok s) by (apply upd_ok; [apply st_ok | reflexivity]).
  pose proof (meets_one I p3 Down _ _ _ s eq_refl eq_refl M Hs) as H. cbn [below] in H. clear M V.
  match type of H with ele (ev I ?a s) ?b => assert (Pa : ev I a s = fin (/2)); [|rewrite Pa in H; assert (Pb : b = ebot) by reflexivity; rewrite Pb in H] end.
  { unfold ev. cbn. rewrite emul_1_l, qh. unfold emonus, fin. f_equal. apply nnr_eq. rewrite !nval_of by (unfold n2r; cbn; rewrite ?nval_of; lra). unfold n2r. cbn. lra. }
  unfold ebot in H. apply fin_le in H; lra.
Qed.

(** ** @ast: the probability may be zero *)
Definition spin_ast := Eval vm_compute in procs_of (ast_transform S 1 2 empty_tcx "main" [tt_lit; lit 1; EVar vv; lit 0; lit 1] tt_e []).
Lemma ast_spin I isd k : interp_ok I -> verified I isd k spin_ast.
Proof.
  intros HI p bd Hin Hb. cbn [In spin_ast] in Hin. destruct Hin as [<-|[<-|[<-|[<-|[<-|[<-|[]]]]]]]; cbn [pbody] in Hb; injection Hb as <-.
  - eapply antitone_const; reflexivity.
  - eapply antitone_const; reflexivity.
  - eapply meets_intro; [reflexivity..|]. intros s Hs. apply ele_refl.
  - eapply meets_check; [reflexivity | right; eexists; reflexivity|]. intros s Hs. unfold ev. cbn. rewrite q1. replace (dec _) with false; auto. symmetry. apply not_true_iff_false. intros H.
    apply (proj1 (dec_iff _)) in H. unfold n2r in H. cbn in H. rewrite !nval_of in H by lra. lra.
  - eapply meets_intro; [reflexivity..|]. intros s Hs. cbn [below pdir].
    match goal with |- ele ?a ?b => change a with (assume_sem Up ebot b) end. rewrite assume_bot. apply ele_refl.
  - eapply meets_intro; [reflexivity..|]. intros s Hs. cbn [below pdir].
    match goal with |- ele ?a _ => replace a with ebot end; [apply ebot_le|]. symmetry. unfold ev. cbn. rewrite q0, !emul_1_l. reflexivity.
Qed.
Lemma spin_diverges I isd s : env_ok s -> ~ terminates I isd tt_e [] s.
Proof.
  intros Hs H. unfold terminates in H. change (lfp (Phi I isd Least tt_e [] (fun _ => eone)) s = eone) in H. rewrite lfp_skip in H by auto.
  symmetry in H. revert H. apply eone_neq_ebot.
Qed.
Theorem ast_zero_probability : exists c body inv var v prob decr blk ps T',
  ast_transform S 1 2 empty_tcx "main" [inv; var; EVar v; prob; decr] c body = Ok (blk, ps, T') /\
  is_guard c /\ is_guard inv /\ is_ureal var /\ ity v = TUReal /\ is_ureal prob /\ is_ureal decr /\
  (forall x, ~ fv x prob) /\ (forall x, ~ fv x decr) /\
  (forall I isd k, interp_ok I -> verified I isd k ps) /\
  forall I isd s, interp_ok I -> env_ok s -> holds I inv s = true /\ ~ terminates I isd c body s.
Proof.
  exists tt_e, [], tt_lit, (lit 1), vv, (lit 0), (lit 1), [], spin_ast. eexists. split; [reflexivity|].
  do 3 (split; [split; reflexivity|]). split; [reflexivity|]. do 2 (split; [split; reflexivity|]). do 2 (split; [intros x []|]).
  split; [intros; now apply ast_spin|]. intros I isd s HI Hs. split; [reflexivity|]. now apply spin_diverges.
Qed.

(** ** @ast: the decrease may depend on the program's variables *)
Definition vr : ident := mkid "x" 0 TUReal.
Definition ir : ident := mkid "init_x" 1 TUReal.
Definition halve : list stmt := [SAssign [vr] (EBin TUReal OMul (lit (1#2)) (EVar vr))].
Definition pos : expr := EBin TBool OLt (lit 0) (EVar vr).
Definition decr_x : expr := EIte TUReal pos (EBin TUReal OMul (lit (1#2)) (EVar vr)) (lit 1).
Definition T2 : tyctx := mktcx [(vr, true)] [].
Definition halve_ast := Eval vm_compute in procs_of (ast_transform S 1 2 T2 "main" [tt_lit; EVar vr; EVar vv; lit 1; decr_x] pos halve).
Lemma ureal_of s x : env_ok s -> ity x = TUReal -> exists r, 0 <= r /\ s x = VUReal (nnr_of r).
Proof.
  intros Hs E. specialize (Hs x). unfold has_ty in Hs. rewrite E in Hs. destruct (s x); try discriminate. exists (nval x0). split; [apply nval_nonneg|].
  f_equal. apply nnr_eq. now rewrite nval_of by apply nval_nonneg.
Qed.
Lemma halve_wp I isd k X s r : isd = is_dist -> s vr = VUReal (nnr_of r) -> 0 <= r -> wp_block I isd k halve X s = X (upd s vr (VUReal (nnr_of (r / 2)))).
Proof.
  intros -> E Hr. change (X (upd s vr (eval_bin I TUReal OMul (VUReal (nnr_of (Q2R (1#2)))) (s vr))) = X (upd s vr (VUReal (nnr_of (r / 2))))).
  rewrite E. cbn. rewrite qh, !nval_of by lra. now replace (/ 2 * r) with (r / 2) by lra.
Qed.
Lemma pos_at I s r : s vr = VUReal (nnr_of r) -> 0 <= r -> holds I pos s = negb (dec (r <= 0)).
Proof. intros E Hr. unfold holds. cbn. rewrite E. cbn. now rewrite q0, !nval_of by lra. Qed.
Lemma dec_false (P : Prop) : ~ P -> dec P = false.
Proof. intros H. apply not_true_iff_false. intros E. apply (proj1 (dec_iff _)) in E. contradiction. Qed.

Lemma ast_halve I k : interp_ok I -> verified I is_dist k halve_ast.
Proof.
  intros HI p bd Hin Hb. cbn [In halve_ast] in Hin. destruct Hin as [<-|[<-|[<-|[<-|[<-|[<-|[]]]]]]]; cbn [pbody] in Hb; injection Hb as <-.
  - eapply antitone_const; reflexivity.
  - eapply meets_intro; [reflexivity..|]. intros s Hs. cbn [below pdir wp_block fold_right].
    match goal with |- ele _ ?b => change b with (ev I (emb (EBin TBool OGe decr_x decr_x)) s) end.
    rewrite (ev_emb I (EBin TBool OGe decr_x decr_x)); auto; [|split; reflexivity]. replace (holds I (EBin TBool OGe decr_x decr_x) s) with true; [apply ele_top|].
    unfold holds. cbn [eval]. assert (W : is_ureal decr_x) by (split; reflexivity).
    change (true = match eval_bin I TBool OGe (eval I decr_x s) (eval I decr_x s) with VBool b => b | _ => false end).
    rewrite (eval_ureal I decr_x s) by auto. cbn. now rewrite dec_true by apply Rle_refl.
  - eapply meets_intro; [reflexivity..|]. intros s Hs. cbn [below pdir].
    change (ele eone (wp_block I is_dist k [SAssign [vr] (EVar ir); encode_iter pos halve []] (fun _ => eone) s)).
    unfold wp_block. cbn [fold_right]. rewrite wp_iter. cbn [wp assign_sem]. unfold Phi. destruct (holds I pos _); apply ele_refl.
  - eapply meets_check; [reflexivity | right; eexists; reflexivity|]. intros s Hs. destruct (ureal_of s vr Hs eq_refl) as (r & Hr & E).
    unfold ev. cbn. fold vr. rewrite E. cbn. rewrite q0. unfold n2r. cbn. rewrite !nval_of by lra. destruct (dec (r <= 0)); reflexivity.
  - eapply meets_intro; [reflexivity..|]. intros s Hs. cbn [below pdir]. destruct (ureal_of s ir Hs eq_refl) as (r & Hr & E).
    match goal with |- ele ?a ?b => change a with (assume_sem Up ebot (wp_block I is_dist k [encode_iter pos halve []] (ev I (ECast TEUReal (EVar vr))) (upd s vr (s ir))));
      change b with (ev I (ECast TEUReal (EVar vr)) (upd s vr (s ir))) end.
    rewrite assume_bot. unfold wp_block. cbn [fold_right]. rewrite wp_iter. unfold Phi. destruct (holds I pos _); [|apply ele_refl].
    rewrite E. rewrite (halve_wp I is_dist k _ _ r) by (auto; apply upd_same).
    unfold wp_block. cbn [fold_right]. unfold ev. cbn [eval]. rewrite !upd_same. cbn. apply ele_fin; lra.
  - eapply meets_intro; [reflexivity..|]. intros s Hs. cbn [below pdir]. destruct (ureal_of s ir Hs eq_refl) as (r & Hr & E).
    match goal with |- ele (ev I ?a s) (wp_block _ _ _ _ ?X s) => set (post := X);
      assert (Pa : ev I a s = if negb (dec (r <= 0)) then fin 1 else ebot) end.
    { unfold ev. cbn. fold ir vr. rewrite E. cbn. rewrite q0, q1, !nval_of by lra. rewrite emul_1_l. destruct (dec (r <= 0)); cbn; rewrite ?emul_1_l, ?emul_0_l; reflexivity. }
    rewrite Pa. destruct (dec (r <= 0)) eqn:D; cbn [negb]; [apply ebot_le|].
    assert (Hp : 0 < r) by (apply Rnot_le_lt; intros H; rewrite dec_true in D by auto; discriminate).
    change (ele (fin 1) (wp_block I is_dist k halve post (upd s vr (s ir)))). rewrite E, (halve_wp I is_dist k _ _ r) by (auto; apply upd_same).
    set (t := upd (upd s vr (VUReal (nnr_of r))) vr (VUReal (nnr_of (r / 2)))).
    assert (Et : t vr = VUReal (nnr_of (r / 2))) by apply upd_same. assert (Ei : t ir = VUReal (nnr_of r)) by exact E. clearbody t.
    replace (post t) with (fin 1); [apply ele_refl|]. symmetry. unfold post, ev. cbn [eval]. cbn. fold ir vr. rewrite Et, Ei. cbn.
    rewrite q0, qh. rewrite !(nval_of 0), !(nval_of (r/2)), !(nval_of (/2)), !(nval_of r) by lra. rewrite (dec_false (r / 2 <= 0)) by lra. cbn.
    rewrite !(nval_of (/ 2 * (r / 2))) by lra. rewrite nval_of by lra. rewrite dec_true by lra. reflexivity.
Qed.
Lemma halve_diverges I s : s vr = VUReal (nnr_of 1) -> env_ok s -> ~ terminates I is_dist pos halve s.
Proof.
  intros E Hs H. unfold terminates in H.
  change (lfp (Phi I is_dist Least pos halve (fun _ => eone)) s = eone) in H.
  pose proof (lfp_least (Phi I is_dist Least pos halve (fun _ => eone)) (fun s => if holds I pos s then ebot else eone)) as L.
  assert (Hl : exp_le (Phi I is_dist Least pos halve (fun _ => eone) (fun s => if holds I pos s then ebot else eone)) (fun s => if holds I pos s then ebot else eone)).
  { intros t Ht. unfold Phi. destruct (ureal_of t vr Ht eq_refl) as (r & Hr & Er). rewrite (pos_at I t r) by auto. destruct (dec (r <= 0)) eqn:D; cbn [negb]; [apply ele_refl|].
    assert (Hp : 0 < r) by (apply Rnot_le_lt; intros Hn; rewrite dec_true in D by auto; discriminate).
    rewrite (halve_wp I is_dist Least _ t r) by auto. cbv beta. rewrite (pos_at I _ (r / 2)) by (try apply upd_same; lra). rewrite dec_false by lra. apply ele_refl. }
  specialize (L Hl s Hs). cbv beta in L. rewrite (pos_at I s 1) in L by (auto; lra). rewrite dec_false in L by lra. cbn [negb] in L.
  rewrite H in L. apply le_ebot in L. revert L. apply eone_neq_ebot.
Qed.
Theorem ast_decrease_of_state : exists c body inv var v prob decr blk ps T',
  ast_transform S 1 2 T2 "main" [inv; var; EVar v; prob; decr] c body = Ok (blk, ps, T') /\
  is_guard c /\ is_guard inv /\ is_ureal var /\ ity v = TUReal /\ is_ureal prob /\ is_ureal decr /\
  (forall I s, env_ok s -> 0 < uval (eval I prob s) /\ 0 < uval (eval I decr s)) /\
  (forall I k, interp_ok I -> verified I is_dist k ps) /\
  forall I, interp_ok I -> exists s, env_ok s /\ holds I inv s = true /\ ~ terminates I is_dist c body s.
Proof.
  exists pos, halve, tt_lit, (EVar vr), vv, (lit 1), decr_x, [], halve_ast. eexists. split; [reflexivity|].
  do 3 (split; [split; reflexivity|]). split; [reflexivity|]. do 2 (split; [split; reflexivity|]). split; [intros I s Hs | split; [intros; now apply ast_halve |]].
  - split; [cbn; rewrite q1, nval_of; lra|]. destruct (ureal_of s vr Hs eq_refl) as (r & Hr & E). cbn. fold vr. rewrite E. cbn. rewrite q0, !nval_of by lra.
    destruct (dec (r <= 0)) eqn:D; cbn; [rewrite q1, nval_of; lra|].
    assert (Hp : 0 < r) by (apply Rnot_le_lt; intros Hn; rewrite dec_true in D by auto; discriminate).
    rewrite qh. repeat rewrite nval_of by (rewrite ?nval_of; lra). lra.
  - intros I HI. exists (upd (st 0 0) vr (VUReal (nnr_of 1))). split; [apply upd_ok; [apply st_ok | reflexivity]|]. split; [reflexivity|].
    apply halve_diverges; [apply upd_same | apply upd_ok; [apply st_ok | reflexivity]].
Qed.

(** ** The loop is replaced by nothing, and that is claimed to be exact *)
Lemma coin_ends I s : env_ok s -> wp I is_dist Least (SWhile (EVar vb) coin) (ev I (ivs (EVar vb))) s = ebot.
Proof.
  intros Hs. apply le_ebot. change (wp I is_dist Least (SWhile (EVar vb) coin) (ev I (ivs (EVar vb)))) with (lfp (Phi I is_dist Least (EVar vb) coin (ev I (ivs (EVar vb))))).
  apply (lfp_least _ (fun _ => ebot)); auto. intros t Ht. unfold Phi. destruct (bool_of t vb Ht eq_refl) as [bb E]. unfold holds. cbn [eval]. rewrite E.
  destruct bb; [rewrite coin_wp, !emul_0_r, eadd_0_r; apply ele_refl|]. unfold ev, ivs. cbn. fold vb. rewrite E. apply ele_refl.
Qed.
Theorem ast_not_exact : exists c body args ps T', get_approximation Ast LFP EXACT (Some Wp) = EXACT /\
  ast_transform S 1 2 T0 "main" args c body = Ok ([], ps, T') /\ (forall I k, interp_ok I -> verified I is_dist k ps) /\
  forall I, interp_ok I -> exists X s, env_ok s /\ wp_block I is_dist Least [] X s = eone /\ wp I is_dist Least (SWhile c body) X s = ebot.
Proof.
  exists (EVar vb), coin, ast_args, ast_procs. eexists. split; [reflexivity|]. split; [reflexivity|]. split; [intros; now apply coin_ast|].
  intros I HI. exists (ev I (ivs (EVar vb))), (st 0 0). split; [apply st_ok|]. split; [reflexivity|]. apply coin_ends, st_ok.
Qed.
Theorem past_not_exact : exists c body args ps T', get_approximation Past LFP EXACT (Some Ert) = EXACT /\
  past_transform S 2 empty_tcx "main" args c body = Ok ([], ps, T') /\ (forall I k, interp_ok I -> verified I is_dist k (map coerced ps)) /\
  forall I, interp_ok I -> exists X s, env_ok s /\ wp_block I is_dist Least [] X s = eone /\ wp I is_dist Least (SWhile c body) X s = ebot.
Proof.
  exists tt_e, [], [elit 5; lit (1#2); lit 1], spin_past. eexists. split; [reflexivity|]. split; [reflexivity|]. split; [intros; now apply past_spin|].
  intros I HI. exists (fun _ => eone), (st 0 0). split; [apply st_ok|]. split; [reflexivity|].
  change (lfp (Phi I is_dist Least tt_e [] (fun _ => eone)) (st 0 0) = ebot). apply lfp_skip, st_ok.
Qed.

Lemma walk_refused : exists blk ps T', past_transform S 2 T1 "main" [walk_inv; lit (1#2); lit 1] walk_guard walk = Ok (blk, ps, T') /\
  forall I k, ~ verified I is_dist k (skipn 2 ps).
Proof. exists [], walk_past. eexists. split; [reflexivity|]. exact walk_rejected. Qed.
Lemma coin_refused : exists c body inv eps K blk ps T', past_transform S 2 T0 "main" [inv; eps; K] c body = Ok (blk, ps, T') /\
  forall I k, interp_ok I -> verified I is_dist k (map coerced (firstn 2 ps)) /\
  (forall s, env_ok s -> holds I c s = true -> ele (wp_block I is_dist k body (ev I inv) s) (emonus (ev I inv s) (ev I (b_cast TEUReal eps) s))) /\
  ~ verified I is_dist k (skipn 2 ps).
Proof.
  exists (EVar vb), coin, (EIte TEUReal (EVar vb) (elit 2) (elit 0)), (lit (1#2)), (lit 1), [], past_procs. eexists. split; [reflexivity|].
  intros I k HI. split; [now apply coin_past|]. split; [intros s; apply coin_decreases | now apply coin_rejected].
Qed.
Lemma past_ill_typed variant dspan T base inv eps K c body blk ps T' : past_transform variant dspan T base [inv; eps; K] c body = Ok (blk, ps, T') ->
  exists p e, nth_error ps 1 = Some p /\ pbody p = Some [SAssert Down e] /\ ty_of e = TBool.
Proof.
  intros E. unfold past_transform in E. cbv zeta in E. unfold past_conditions in E.
  apply rbind_ok in E as [qe [Ee E]]. apply rbind_ok in E as [qk [Ek E]]. destruct (Qle_bool qk qe) eqn:Hq; [discriminate|].
  apply rbind_ok in E as [iv [_ E]]. apply rbind_ok in E as [[is T1] [_ E]]. apply rbind_ok in E as [ies [_ E]].
  apply rbind_ok in E as [ias [_ E]]. apply rbind_ok in E as [[ii T2] [_ E]]. apply rbind_ok in E as [v1 [_ E]]. apply rbind_ok in E as [i1 [_ E]].
  apply rbind_ok in E as [[p1 T3] [G1 E]]. apply rbind_ok in E as [v2 [_ E]]. apply rbind_ok in E as [i2 [_ E]].
  apply rbind_ok in E as [[p2 T4] [G2 E]]. apply rbind_ok in E as [i3 [_ E]]. apply rbind_ok in E as [o3 [_ E]].
  apply rbind_ok in E as [[p3 T5] [_ E]]. injection E as <- <- <-.
  apply generate_proc_ok in G2. destruct G2 as (D2 & S2 & B2). eexists. eexists. split; [reflexivity|]. split; [exact B2 | reflexivity].
Qed.
