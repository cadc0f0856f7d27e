(** Explanations of programs with negations are rejected; where explained and plain conditions differ. *)
From Coq Require Import Bool List String NArith ZArith QArith Reals Lia Lra.
From Verif.Model Require Import Syntax Builder Lits TyCtx AstUtil Dist VcGen Subst Unfolder Constfold Negations ProofRules Procs Explain.
From Verif.Spec Require Import Eur Sem Wp Folding Exprs Reach Linear Calls Explained.
From Verif.Proofs Require Import EurLemmas SemLemmas WpLemmas TyCtxProofs SubstProofs DistProofs VcGenProofs SimLemmas UnfolderProofs ConstfoldProofs PipelineProofs
  SimplifyRefuted ExplainBase ExplainProofs ExplainThms.
Import ListNotations.
Local Open Scope nat_scope.

Section Neg.
Variables (C : tcx) (procs : string -> option proc) (orc : nat -> oracle) (qs : expr -> nat).
Variable A : string -> bool.
Hypothesis HA : forall a, A a = true -> C a = Some DSlicingAnn.

Definition kd {B} (N : Prop) (m : X B) : Prop := forall st e st', m st = (Ok e, st') -> x_dir st = Down -> N /\ x_dir st' = Down.
Lemma kd_bind {B D} (N1 N2 : Prop) (m : X B) (f : B -> X D) : kd N1 m -> (forall a, kd N2 (f a)) -> kd (N1 /\ N2) (xbind m f).
Proof.
  intros H1 H2 st e st' H Hd. unfold xbind in H. destruct (m st) as [[a| |] st1] eqn:E; try discriminate.
  destruct (H1 _ _ _ E Hd) as [K1 K2]. destruct (H2 _ _ _ _ H K2). auto.
Qed.
Lemma kd_imp {B} (N N' : Prop) (m : X B) : kd N m -> (N -> N') -> kd N' m.
Proof. intros H HN st e st' K Hd. destruct (H _ _ _ K Hd). auto. Qed.
Lemma kd_lift {B} (m : res B) : kd True (xlift m).
Proof. intros st e st' H Hd. injection H as _ <-. auto. Qed.
Lemma kd_add sp e b : kd True (add_expr sp e b).
Proof.
  intros st r st' H Hd. split; auto. destruct (add_expr_cases _ _ _ _ _ _ H) as (en & -> & _). exact Hd.
Qed.
Lemma kd_done {N : Prop} sp m : kd N m -> kd N (let! e := m in let! _ := add_expr sp e false in xret e).
Proof.
  intros H. eapply kd_imp; [apply (kd_bind N True); [exact H|]|tauto]. intros a. eapply kd_imp; [apply (kd_bind True True); [apply kd_add|]|tauto].
  intros _. apply (kd_lift (Ok a)).
Qed.
Lemma kd_subst sp e : kd True (explain_subst orc qs sp e).
Proof.
  eapply kd_imp; [apply (kd_bind True True); [apply kd_add|]|tauto]. intros _ st r st' H Hd. split; auto.
  destruct (apply_subst qs (x_tcx st) e) as [[e1 T1]| |]; try discriminate.
  match type of H with ?m ?s = _ => assert (G : kd True m) end.
  { eapply kd_imp; [apply (kd_bind True True); [apply kd_add|]|tauto]. intros _ st1 r1 st1' H1 Hd1. split; auto.
    destruct (unfold_expr _ _ _ _) as [[e2 [T2 n]]| |]; try discriminate. injection H1 as _ <-. exact Hd1. }
  destruct (G _ _ _ H Hd). auto.
Qed.
Lemma kd_assign sp e xs p : kd True (xassign C procs orc qs sp e xs p).
Proof.
  assert (G : forall e, kd True (let! e := xlift (generate_assign C e xs p) in explain_subst orc qs sp e)).
  { intros e0. eapply kd_imp; [apply (kd_bind True True); [apply kd_lift|intros; apply kd_subst]|tauto]. }
  unfold xassign. destruct e; auto. destruct (C f) as [[]|], (procs f); auto. apply kd_subst.
Qed.
Lemma kd_block {N : Prop} sp p m : kd N m -> kd N (in_block sp p m).
Proof.
  intros Hm st r st' H Hd. unfold in_block in H. destruct (Nat.eqb (send sp) 0); [discriminate|].
  match type of H with (let (_, _) := ?m in _) = _ => destruct m as [r1 st1] eqn:E end. injection H as -> <-.
  assert (G : kd (True /\ N) (let! _ := add_expr (brace sp) p true in m)) by (apply kd_bind; [apply kd_add|auto]).
  destruct (G _ _ _ E Hd) as [[_ G1] G2]. auto.
Qed.

Theorem negation_rejected s : every not_while (erase s) -> every (anns_in A) (erase s) -> spanned s -> forall p, kd (every not_negate (erase s)) (xgen C procs orc qs s p).
Proof.
  assert (HB : forall b, Forall (fun s => every not_while (erase s) -> every (anns_in A) (erase s) -> spanned s -> forall p, kd (every not_negate (erase s)) (xgen C procs orc qs s p)) b ->
    All (every not_while) (map erase b) -> All (every (anns_in A)) (map erase b) -> fold_right (fun s P => spanned s /\ P) True b ->
    forall p, kd (All (every not_negate) (map erase b)) (xgen_stmts C procs orc qs b p)).
  { induction 1 as [|s0 b Hs Hb IH]; cbn [map All fold_right xgen_stmts]; intros W1 W2 W3 p.
    - apply (kd_lift (Ok p)).
    - eapply kd_imp; [apply kd_bind; [apply IH; tauto|intros; apply Hs; tauto]|tauto]. }
  induction s using xstmt_rect'; intros W1 W2 W3 p; cbn [xgen]; rewrite ?(xgen_stmts_eq C procs orc qs); cbn [spanned] in W3.
  - cbn [erase] in *. destruct s; cbn [atomic] in W3; try discriminate; cbn [xatom].
    all: try (apply (kd_imp True); [apply kd_done, kd_lift|intros _; cbn; auto]; fail).
    + destruct init; (apply (kd_imp True); [apply kd_done; auto using kd_assign, kd_lift|intros _; cbn; auto]).
    + apply (kd_imp True); [apply kd_done, kd_assign|intros _; cbn; auto].
    + apply (kd_imp False); [apply kd_done|tauto]. intros st e st' H Hd. rewrite Hd in H. destruct d; cbn in H; discriminate.
    + destruct (returns_early d p); (apply (kd_imp True); [auto using kd_done, kd_lift|intros _; cbn; auto]).
  - cbn [erase every] in *. eapply kd_imp; [apply kd_done, HB; [exact H|tauto..]|cbn; auto].
  - assert (Q : (All (every not_while) (map erase b1) /\ All (every not_while) (map erase b2)) /\ (All (every (anns_in A)) (map erase b1) /\ All (every (anns_in A)) (map erase b2))).
    { destruct c; cbn [erase every] in W1, W2; tauto. }
    eapply kd_imp; [apply kd_done, kd_bind; [apply kd_block, HB; [exact H|tauto..]|intros; apply kd_bind; [apply kd_block, HB; [exact H0|tauto..]|intros; apply (kd_lift (Ok _))]]|].
    destruct c; cbn [erase every not_negate]; tauto.
  - cbn [erase every] in *.
    eapply kd_imp; [apply kd_done, kd_bind; [apply kd_block, HB; [exact H|tauto..]|intros; apply kd_bind; [apply kd_block, HB; [exact H0|tauto..]|intros; apply (kd_lift (Ok _))]]|].
    cbn [not_negate]; tauto.
  - cbn [erase every not_while] in W1. tauto.
  - cbn [erase every anns_in] in *. rewrite (HA _ (proj1 W2)). eapply kd_imp; [apply IHs; tauto|]. cbn [not_negate]; tauto.
Qed.

(** In a proc, every explained program with a negation is rejected. *)
Theorem negation_block_rejected T sp b post e st : every not_while (SSeq (map erase b)) -> every (anns_in A) (SSeq (map erase b)) -> Forall spanned b ->
  explain_raw_vc C procs orc qs T sp b post Down = (Ok e, st) -> every not_negate (SSeq (map erase b)).
Proof.
  intros H1 H2 H3 H. unfold explain_raw_vc, xgen_block in H. cbn [every] in *.
  assert (G : kd (All (every not_negate) (map erase b)) (in_block sp post (xgen_stmts C procs orc qs b post))).
  { apply kd_block. destruct H1 as [_ H1], H2 as [_ H2]. clear H e st. induction b as [|s b IH]; cbn [map All xgen_stmts] in *; [apply (kd_lift (Ok post))|].
    inversion H3; subst. eapply kd_imp; [apply kd_bind; [apply IH; tauto|intros; apply negation_rejected; tauto]|tauto]. }
  destruct (G _ _ _ H eq_refl). split; auto. exact Logic.I.
Qed.
End Neg.

(** * Witnesses *)
Definition x_s1 := mkspan 0 10 12 0.
Definition x_s2 := mkspan 0 14 16 0.
Definition x_s3 := mkspan 0 17 18 0.
Definition x_s4 := mkspan 0 19 20 0.
Definition x_s0 := mkspan 0 0 30 0.
Definition x_x := mkid "x" 0 TInt.
Definition x_y := mkid "y" 1 TInt.
Definition x_C : tcx := fun _ => None.
Definition x_P : string -> option proc := fun _ => None.
Definition x_O : nat -> oracle := fun _ _ _ => false.
Definition x_T : tyctx := mktcx [(x_x, true); (x_y, true)] [].
Definition x_half : expr := ECast TEUReal (ELit TUReal (LFrac (1 # 2))).
Definition x_one : expr := ECast TEUReal (b_uint 1).
Notation run T b := (explain_raw_vc x_C x_P x_O (fun _ => 0) T x_s0 b b_inf Down).

Lemma x_tcx_ok : tcx_ok x_C (fun _ => false) (fun _ => false) (fun _ => false).
Proof. repeat split; discriminate. Qed.
Lemma x_sound n : sound_oracle (x_O n).
Proof. intros m G H. discriminate. Qed.

(** y = 0 - x; assert ?(y == x) *)
Definition sub_block : list xstmt :=
  [ XAtom x_s1 (SAssign [x_y] (EBin TInt OSub (ECast TInt (b_uint 0)) (EVar x_x)));
    XAtom x_s2 (SAssert Down (EUn TEUReal OEmbed (EBin TBool OEq (EVar x_y) (EVar x_x)))) ].
Lemma sub_core : core_block (fun _ => false) (fun _ => false) (fun _ => false) x_T sub_block.
Proof.
  unfold core_block. cbn. repeat split; try (intros x Hx; repeat (destruct Hx as [<-|Hx]; [reflexivity|]); destruct Hx);
    repeat constructor.
Qed.
Theorem explain_fold_refuted : exists T sp b e st e0, core_block (fun _ => false) (fun _ => false) (fun _ => false) T b /\
  explain_raw_vc x_C x_P x_O (fun _ => 0) T sp b b_inf Down = (Ok e, st) /\ vcgen_block x_C (map erase b) b_inf = Ok e0 /\
  (forall I s, interp_ok I -> env_ok s -> ev I e s = etop) /\ exists I s, interp_ok I /\ env_ok s /\ ev I e0 s = ebot.
Proof.
  exists x_T, x_s0, sub_block.
  exists (EUn TEUReal OEmbed (EBin TBool OEq (EVar x_x) (EVar x_x))). eexists. eexists.
  split; [exact sub_core|]. split; [vm_compute; reflexivity|]. split; [reflexivity|]. split.
  - intros I s HI Hs. unfold ev. cbn [eval eval_un eval_bin]. pose proof (Hs x_x) as H. cbn [x_x ity] in H. unfold x_x in *.
    destruct (s _); try contradiction; try discriminate. cbn. now rewrite (proj2 (dec_iff (VInt z = VInt z)) eq_refl).
  - exists I5, (st 0 1). split; [apply I5_ok|]. split; [apply st_ok|].
    apply le_ebot. eapply ele_trans; [apply emin_l|]. cbn. rewrite (proj2 (dec_false _)) by discriminate. apply ele_refl.
Qed.

(** validate; y = x; assume 1; assert 1/2 *)
Definition val_block : list xstmt :=
  [ XAtom x_s1 (SValidate Down); XAtom x_s2 (SAssign [x_y] (EVar x_x)); XAtom x_s3 (SAssume Down x_one); XAtom x_s4 (SAssert Down x_half) ].
Theorem explain_validate_refuted : exists T sp b e st e0, explain_raw_vc x_C x_P x_O (fun _ => 0) T sp b b_inf Down = (Ok e, st) /\
  Forall foldable (x_folds st) /\ vcgen_block x_C (map erase b) b_inf = Ok e0 /\
  forall I s, interp_ok I -> env_ok s -> ev I e s = ebot /\ ev I e0 s = etop.
Proof.
  exists x_T, x_s0, val_block. eexists. eexists. eexists. split; [vm_compute; reflexivity|].
  split. { cbn. repeat constructor; discriminate. } split; [reflexivity|]. intros I s HI Hs. split.
  - cbn. destruct (Rle_dec _ _) as [H|H]; [|reflexivity]. exfalso. rewrite !nval_of in H; unfold n2r, Q2R in *; cbn in *; lra.
  - cbn. destruct (Rle_dec _ _) as [H|H]; cbn.
    + exfalso. rewrite !nval_of in H; unfold n2r, Q2R in *; cbn in *; lra.
    + destruct (Rle_dec (nval (nnr_of (Q2R (1 # 2)))) (nval (nnr_of 0))) as [K|K]; cbn.
      * exfalso. rewrite !nval_of in K; unfold Q2R in *; cbn in *; lra.
      * destruct (Rle_dec (nval (nnr_of 0)) (nval (nnr_of 0))) as [L|L]; [reflexivity|]. exfalso. apply L. lra.
Qed.

(** Two negations that the ordinary check accepts: rejected with explanations, in either direction of the procedure. *)
Theorem explain_negations_refuted : exists sp b, map erase b = [SNegate Down; SNegate Up] /\ mono_check Down (map erase b) = true /\
  (exists e0, vcgen_block x_C (map erase b) b_inf = Ok e0 /\ forall I s, ev I e0 s = etop) /\
  forall T d, exists m st, explain_raw_vc x_C x_P x_O (fun _ => 0) T sp b b_inf d = (Err m, st).
Proof.
  exists x_s0, [XAtom x_s1 (SNegate Down); XAtom x_s2 (SNegate Up)]. split; [reflexivity|]. split; [reflexivity|]. split.
  - eexists. split; [reflexivity|]. intros I s. cbn. destruct (Rle_dec _ _) as [L|L]; [reflexivity|]. exfalso. apply L. lra.
  - intros T d. destruct d; eexists; eexists; reflexivity.
Qed.

(** The encoding of @omega_invariant gives a choice, one of its blocks and its statements the same span. *)
Theorem explain_spans_refuted : exists sp b, Forall spanned b /\ (exists e0, vcgen_block x_C (map erase b) b_inf = Ok e0) /\
  forall T d, exists m st, explain_raw_vc x_C x_P x_O (fun _ => 0) T sp b b_inf d = (Panic m, st).
Proof.
  exists x_s0, [XChoice x_s1 CDemonic x_s1 [] x_s1 [XAtom x_s1 (STick x_one)]]. split.
  { constructor; [|constructor]. cbn. repeat split; discriminate. }
  split; [eexists; reflexivity|]. intros T d. destruct d; eexists; eexists; reflexivity.
Qed.

(** A block that ends at offset 0, such as an empty raw program, has no last character. *)
Theorem explain_dummy_refuted : forall T b post d, exists m st, explain_raw_vc x_C x_P x_O (fun _ => 0) T (mkspan 0 0 0 0) b post d = (Panic m, st).
Proof. intros. eexists. eexists. reflexivity. Qed.

(** * An explained program: if n == 0 { tick 1 } else { n = n + 1 }; assert n *)
Definition x_n := mkid "n" 2 TUInt.
Definition x_Tn : tyctx := mktcx [(x_n, true)] [].
Definition x_b1 := mkspan 0 2 6 0.
Definition x_b2 := mkspan 0 7 13 0.
Definition x_i := mkspan 0 1 14 0.
Definition ex_block : list xstmt :=
  [ XIf x_i (EBin TBool OEq (EVar x_n) (b_uint 0)) x_b1 [XAtom (mkspan 0 3 4 0) (STick x_one)]
      x_b2 [XAtom (mkspan 0 8 10 0) (SAssign [x_n] (EBin TUInt OAdd (EVar x_n) (b_uint 1)))];
    XAtom x_s3 (SAssert Down (ECast TEUReal (EVar x_n))) ].
Lemma ex_core : core_block (fun _ => false) (fun _ => false) (fun _ => false) x_Tn ex_block.
Proof.
  unfold core_block. cbn. repeat split; try (intros x Hx; repeat (destruct Hx as [<-|Hx]; [reflexivity|]); destruct Hx);
    repeat constructor; try discriminate.
Qed.
Lemma ex_nodup : NoDup (flat_map positions ex_block ++ [brace x_s0]).
Proof. cbn. repeat constructor; cbn; intuition discriminate. Qed.
Lemma ex_run : exists e st, run x_Tn ex_block = (Ok e, st) /\ Forall foldable (x_folds st) /\ Forall fits (x_folds st) /\ x_folds st <> [] /\ List.length (x_entries st) = 7.
Proof.
  eexists. eexists. split; [vm_compute; reflexivity|]. cbn. split; [|split; [|split; [discriminate|reflexivity]]].
  - repeat constructor; cbn; try discriminate. 
  - repeat constructor; cbn; try discriminate.
    intros _. exists I5, (st 0 0). split; [apply I5_ok|]. split; [apply st_ok|]. intros n H. injection H as <-. reflexivity.
Qed.

(** f(a) with precondition cast(a), called as n = f(n + 1) *)
Definition x_a := mkid "a" 3 TUInt.
Definition x_f : proc := mkproc Down "f" [x_a] [mkid "r" 4 TUInt] [Requires (ECast TEUReal (EVar x_a))] None.
Definition x_Cf : tcx := fun f => if String.eqb f "f" then Some DProc else None.
Definition x_Pf : string -> option proc := fun f => if String.eqb f "f" then Some x_f else None.
Definition x_Tf : tyctx := mktcx [(x_n, true); (x_a, true)] [].

Definition x_arg : expr := EBin TUInt OAdd (EVar x_n) (b_uint 1).
Lemma call_example : Forall is_exp (requires x_f) /\ Forall2 (fun x a => wt a = true /\ ty_of a = ity x) (pins x_f) [x_arg] /\
  (forall x, In x (pins x_f ++ flat_map ids (requires x_f) ++ flat_map ids [x_arg]) -> is_var x_Tf x) /\
  (exists e st', xgen x_Cf x_Pf x_O (fun _ => 0) (XAtom x_s1 (SAssign [x_n] (ECall TUInt "f" [x_arg]))) b_inf (mkx Down [] None x_Tf []) = (Ok e, st') /\
    Forall foldable (x_folds st')) /\
  exists b T', encode_assign x_Pf (fun _ => 0) x_Tf [x_n] (ECall TUInt "f" [x_arg]) = Ok (Some (b, T')).
Proof.
  split; [repeat constructor|]. split; [repeat constructor|]. split.
  { cbn. intros x Hx. repeat (destruct Hx as [<-|Hx]; [reflexivity|]). destruct Hx. }
  split.
  - eexists. eexists. split; [vm_compute; reflexivity|]. repeat constructor; cbn; try discriminate.
  - eexists. eexists. vm_compute. reflexivity.
Qed.

(** @unroll(2, 0) while n == 0 { tick 1; n = n + 1 } *)
Definition x_Cl : tcx := fun _ => Some DOtherDecl.
Definition x_w : xstmt := XWhile x_i (EBin TBool OEq (EVar x_n) (b_uint 0)) x_b2
  [XAtom (mkspan 0 8 9 0) (STick x_one); XAtom (mkspan 0 10 11 0) (SAssign [x_n] x_arg)].
Lemma unroll_example : exists e st', xgen x_Cl x_P x_O (fun _ => 0) (XAnn x_s3 "unroll" [b_uint 2; b_cast TEUReal (b_uint 0)] x_w) b_inf (mkx Up [] None x_Tn []) = (Ok e, st') /\
  Forall foldable (x_folds st') /\ Forall fits (x_folds st') /\ x_Cl "unroll"%string <> Some DSlicingAnn /\ List.length (x_entries st') = 4.
Proof.
  eexists. eexists. split; [vm_compute; reflexivity|]. split; [repeat constructor; cbn; discriminate|]. split; [|split; [discriminate|reflexivity]].
  repeat constructor; cbn; try discriminate.
  all: intros _; exists I5, (st 0 0); split; [apply I5_ok|]; split; [apply st_ok|]; intros n H; injection H as <-; reflexivity.
Qed.
Lemma invariant_example : exists e st', xgen x_Cl x_P x_O (fun _ => 0) (XAnn x_s3 "invariant" [x_one] x_w) b_inf (mkx Up [] None x_Tn []) = (Ok e, st') /\
  x_Cl "invariant"%string <> Some DSlicingAnn /\ e = x_one /\ List.length (x_entries st') = 4.
Proof. eexists. eexists. split; [vm_compute; reflexivity|]. repeat split. discriminate. Qed.
Lemma ex_no_negations : Forall (every not_negate) (map erase ex_block).
Proof. cbn. repeat constructor. Qed.

(** * Procedures *)
Theorem explain_decl C procs orc qs isd isf A k : tcx_ok C isd isf A -> (forall n, sound_oracle (orc n)) ->
  forall T p sp b e st, core_block isd isf A T b -> send sp <> 0 -> Forall is_exp (ensures p) -> (forall x, In x (flat_map ids (ensures p)) -> is_var T x) ->
  explain_decl_vc C procs orc qs T p sp b = (Ok e, st) -> Forall foldable (x_folds st) ->
  (forall I s, interp_ok I -> env_ok s -> ev I e s = wp_block I isd k (map erase b) (spec_exp I (pdir p) (ensures p)) s) /\
  (pdir p = Down -> every not_negate (SSeq (map erase b))).
Proof.
  intros HT HO T p sp b e st HC Hz He Hv H Hf. unfold explain_decl_vc in H.
  assert (V : forall x, In x (ids (fold_spec p (ensures p))) -> is_var T x).
  { apply fold_spec_okv. apply Forall_forall. intros r Hr x Hx. apply Hv. apply in_flat_map. eauto. }
  split.
  - intros I s HI Hs. destruct (core_block_good C procs orc qs isd isf A k HT HO T sp b _ _ HC Hz (fold_spec_exp p _ He) V _ _ H Hf) as [G _].
    destruct (G e eq_refl) as (_ & _ & _ & _ & A5 & _). apply A5; auto. intros s0 Hs0. rewrite fold_spec_value by auto. reflexivity.
  - intros D. rewrite D in H. destruct HC as (_ & H2 & _ & H4 & _ & H6). eapply (negation_block_rejected C procs orc qs A); eauto. apply HT.
Qed.
Definition x_pr : proc := mkproc Down "p" [] [x_n] [Ensures (ECast TEUReal (EVar x_n)); Ensures x_one] None.
Lemma procedure_example : Forall is_exp (ensures x_pr) /\ List.length (ensures x_pr) = 2 /\ pdir x_pr = Down /\
  (forall x, In x (flat_map ids (ensures x_pr)) -> is_var x_Tn x) /\
  exists e st, explain_decl_vc x_C x_P x_O (fun _ => 0) x_Tn x_pr x_s0 ex_block = (Ok e, st) /\ Forall foldable (x_folds st).
Proof.
  split; [repeat constructor|]. split; [reflexivity|]. split; [reflexivity|]. split.
  - cbn. intros x [<-|[]]. reflexivity.
  - eexists. eexists. split; [vm_compute; reflexivity|]. repeat constructor; cbn; try discriminate.
Qed.
