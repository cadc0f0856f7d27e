(** Calls whose encoding is not sound. *)
From Coq Require Import Bool List String NArith QArith Reals Lra Qreals FunctionalExtensionality.
From Verif.Model Require Import Syntax TyCtx AstUtil Dist Procs.
From Verif.Spec Require Import Eur Sem Wp Calls.
From Verif.Proofs Require Import EurLemmas SemLemmas DistProofs SimplifyRefuted CallProofs SpecCallProofs.
Import ListNotations.
Local Open Scope list_scope.
Local Open Scope nat_scope.
Local Arguments eleb : simpl never.

Definition emb (e : expr) : expr := EUn TEUReal OEmbed e.
Definition e_top : expr := ELit TEUReal LInf.
Definition e_one : expr := ELit TEUReal (LFrac 1).
Definition e_false : expr := emb (ELit TBool (LBool false)).
Definition shift (n : nat) : nat := 10 + n.
Definition table (l : list proc) (f : string) : option proc := find (fun p => String.eqb (pname p) f) l.

(** A verified callee, a caller that verifies after its calls are replaced, and whose run violates its specification. *)
Definition unsound_call (callee caller : proc) : Prop :=
  exists cb b T b' T', pbody callee = Some cb /\ pbody caller = Some b /\
  (forall I, meets I callee (wp_block I is_dist Least cb)) /\
  sc_block (table [callee]) shift (pdir caller) b T = Ok (b', T') /\
  (forall I, meets I caller (wp_block I is_dist Least b')) /\
  forall I, ~ meets I caller (wpc_block I is_dist (fun f => if String.eqb f (pname callee) then Some (body_behaviour I is_dist Least callee cb) else None) Least b).

Lemma emin_bot_l a : emin ebot a = ebot. Proof. unfold emin. now rewrite (proj2 (eleb_iff _ _) (ebot_le a)). Qed.
Lemma emin_top_l a : emin etop a = a.
Proof. unfold emin. destruct (eleb etop a) eqn:L; auto. apply eleb_iff, top_le in L. auto. Qed.
Lemma emin_top_r a : emin a etop = a.
Proof. unfold emin. now rewrite (proj2 (eleb_iff _ _) (ele_top a)). Qed.
Lemma q_one : Q2R 1 = 1%R. Proof. unfold Q2R. cbn. lra. Qed.
Lemma q_half : Q2R (1#2) = (/2)%R. Proof. unfold Q2R. cbn. lra. Qed.

(** ** No postcondition *)
Definition v_b := mkid "b" 0 TBool.
Definition half_f : proc := mkproc Down "f" [] [] []
  (Some [SAssign [v_b] (ECall TBool "flip" [ELit TUReal (LFrac (1#2))]); SAssert Down (emb (EVar v_b))]).
Definition call_f : proc := mkproc Down "g" [] [] [Requires e_one; Ensures e_one] (Some [SAssign [] (ECall TBool "f" [])]).
Lemma half_wp I X s : wp_block I is_dist Least [SAssign [v_b] (ECall TBool "flip" [ELit TUReal (LFrac (1#2))]); SAssert Down (emb (EVar v_b))] X s
  = emul (fin (/2)) (X (upd s v_b (VBool true))).
Proof.
  assert (E : wp_block I is_dist Least [SAssign [v_b] (ECall TBool "flip" [ELit TUReal (LFrac (1#2))]); SAssert Down (emb (EVar v_b))] X s =
    eadd (emul (fin (Q2R (1#2))) (emin etop (X (upd s v_b (VBool true)))))
      (eadd (emul (fin (1 - nval (nnr_of (Q2R (1#2))))) (emin ebot (X (upd s v_b (VBool false))))) ebot)) by reflexivity.
  rewrite E, emin_top_l, emin_bot_l, emul_0_r, !eadd_0_r, q_half. reflexivity.
Qed.
Lemma e_one_ev I s : ev I e_one s = fin 1.
Proof. unfold ev. cbn. now rewrite q_one. Qed.
Theorem no_post_refuted : unsound_call half_f call_f.
Proof.
  unfold unsound_call. do 2 eexists. exists empty_tcx. do 2 eexists. split; [reflexivity|]. split; [reflexivity|]. split; [|split; [reflexivity|split]].
  - intros I s Hs. cbn [pdir half_f below]. rewrite half_wp. change (spec_exp I Down (ensures half_f) _) with Inf. rewrite emul_Inf_r by lra. apply ele_top.
  - intros I s Hs. cbn [pdir call_f below].
    assert (P : forall s, spec_exp I Down [e_one] s = fin 1).
    { intros s0. unfold spec_exp. cbn [map all_of fold_right]. rewrite e_one_ev. apply emin_top_r. }
    change (requires call_f) with [e_one]. change (ensures call_f) with [e_one]. rewrite P.
    change (ele (fin 1) (havoc_sem Down [] (spec_exp I Down [e_one]) s)).
    apply einf_glb. intros r (s' & _ & ->). rewrite P. apply ele_refl.
  - intros I H. specialize (H (st 0 0) (st_ok 0 0)). cbn [pdir call_f below] in H.
    assert (P : forall s, spec_exp I Down [e_one] s = fin 1).
    { intros s0. unfold spec_exp. cbn [map all_of fold_right]. rewrite e_one_ev. apply emin_top_r. }
    change (requires call_f) with [e_one] in H. change (ensures call_f) with [e_one] in H. rewrite P in H.
    assert (K : ele (fin 1) (fin (/2))).
    { eapply ele_trans; [exact H|]. unfold wpc_block. cbn [fold_right wpc call_sem]. cbn [String.eqb]. change (String.eqb "f" (pname half_f)) with true. cbv iota.
      unfold body_behaviour. cbn [pdir half_f]. eapply ele_trans; [apply einf_lb; exists (st 0 0); split; [apply st_ok | reflexivity]|].
      rewrite half_wp. rewrite P. rewrite emul_fin by lra. rewrite Rmult_1_r. apply ele_refl. }
    apply (proj1 (ele_fin 1 (/2) ltac:(lra) ltac:(lra))) in K. lra.
Qed.

(** ** A variable assigned twice by one call *)
Definition v_r1 := mkid "r1" 1 TBool. Definition v_r2 := mkid "r2" 2 TBool. Definition v_x := mkid "x" 3 TBool.
Definition two_f : proc := mkproc Down "f" [] [v_r1; v_r2] [Requires e_top; Ensures (emb (EBin TBool ONe (EVar v_r1) (EVar v_r2)))]
  (Some [SAssign [v_r1] (ELit TBool (LBool true)); SAssign [v_r2] (ELit TBool (LBool false))]).
Definition dup_g : proc := mkproc Down "g" [] [] [Requires e_top; Ensures e_top]
  (Some [SVar v_x None; SAssign [v_x; v_x] (ECall TBool "f" []); SAssert Down e_false]).
Lemma ne_true I a b s : eval I a s = VBool true -> eval I b s = VBool false -> ev I (emb (EBin TBool ONe a b)) s = etop.
Proof.
  intros A B. unfold ev, emb. cbn [eval]. rewrite A, B. cbn. rewrite (proj2 (dec_false _)); [reflexivity | discriminate].
Qed.
Lemma ne_same I a s b : eval I a s = VBool b -> ev I (emb (EBin TBool ONe a a)) s = ebot.
Proof. intros A. unfold ev, emb. cbn [eval]. rewrite A. cbn. rewrite dec_true by reflexivity. reflexivity. Qed.
Lemma two_f_meets I : meets I two_f (wp_block I is_dist Least [SAssign [v_r1] (ELit TBool (LBool true)); SAssign [v_r2] (ELit TBool (LBool false))]).
Proof.
  intros s Hs. cbn [pdir two_f below].
  assert (E : wp_block I is_dist Least [SAssign [v_r1] (ELit TBool (LBool true)); SAssign [v_r2] (ELit TBool (LBool false))] (spec_exp I Down (ensures two_f)) s =
    emin (ev I (emb (EBin TBool ONe (EVar v_r1) (EVar v_r2))) (upd (upd s v_r1 (VBool true)) v_r2 (VBool false))) etop) by reflexivity.
  rewrite E, ne_true by reflexivity. apply ele_top.
Qed.
Lemma compare_bot I e x s : ev I e s = ebot -> validate_sem Down (assume_sem Down (ev I e s) x) = etop.
Proof. intros ->. unfold assume_sem, validate_sem. now rewrite (proj2 (eleb_iff _ _) (ebot_le _)). Qed.
Lemma bot_not_top : ~ ele etop ebot.
Proof. intros H. apply top_le in H. now apply ebot_neq_etop. Qed.
Theorem duplicate_lhs_refuted : unsound_call two_f dup_g.
Proof.
  unfold unsound_call. do 2 eexists. exists (mktcx [(v_x, true)] []). do 2 eexists. split; [reflexivity|]. split; [reflexivity|]. split; [|split; [reflexivity|split]].
  - apply two_f_meets.
  - intros I s Hs. cbn [pdir dup_g below].
    match goal with |- ele _ (wp_block _ _ _ ?b ?X s) => assert (E : wp_block I is_dist Least b X s = emin etop (havoc_sem Down [v_x; v_x]
       (fun s' => validate_sem Down (assume_sem Down (ev I (subst_all (emb (EBin TBool ONe (EVar v_r1) (EVar v_r2))) [(v_r1, EVar v_x); (v_r2, EVar v_x)]) s') (emin ebot (X s')))) s)) by reflexivity end.
    rewrite E, emin_top_l. eapply ele_trans; [apply ele_top|]. apply einf_glb. intros r (s' & H & ->).
    rewrite compare_bot; [apply ele_refl|].
    pose proof (havocked_ok _ _ _ Hs H v_x) as Tx. apply has_ty_inv in Tx. cbn in Tx. destruct Tx as [bx Ex].
    unfold ev. rewrite subst_all_env. unfold sub_env, emb. cbn [fold_right fst snd eval].
    rewrite (upd_same _ v_r1). rewrite (upd_other _ v_r1 v_r2) by discriminate. rewrite upd_same. rewrite (upd_other _ v_r2 v_x) by discriminate.
    rewrite Ex. cbn. rewrite dec_true by reflexivity. reflexivity.
  - intros I H. specialize (H (st 0 0) (st_ok 0 0)). apply bot_not_top. cbn [pdir dup_g below] in H. eapply ele_trans; [exact H|].
    unfold wpc_block. cbn [fold_right wpc call_sem]. change (String.eqb "f" (pname two_f)) with true. cbv iota.
    unfold body_behaviour. cbn [pdir two_f]. eapply ele_trans; [apply einf_lb; exists (st 0 0); split; [apply st_ok | reflexivity]|].
    cbn [wp_block fold_right wp assign_sem]. change (ev I e_false _) with ebot. rewrite emin_bot_l. apply ele_refl.
Qed.

(** ** A coproc called in an initialiser of a proc *)
Definition co_c : proc := mkproc Up "c" [] [v_r1] [Requires e_top; Ensures (ELit TEUReal (LFrac 0))] (Some [SAssign [v_r1] (ELit TBool (LBool true))]).
Definition init_g : proc := mkproc Down "g" [] [] [Requires e_top; Ensures e_top] (Some [SVar v_x (Some (ECall TBool "c" [])); SAssert Down e_false]).
Theorem initialiser_refuted : unsound_call co_c init_g.
Proof.
  unfold unsound_call. do 2 eexists. exists (mktcx [(v_x, true)] []). do 2 eexists. split; [reflexivity|]. split; [reflexivity|]. split; [|split; [reflexivity|split]].
  - intros I s Hs. cbn [pdir co_c below]. change (spec_exp I Up (requires co_c) s) with (emax etop ebot). eapply ele_trans; [apply ele_top | apply emax_l].
  - intros I s Hs. cbn [pdir init_g below].
    match goal with |- ele _ (wp_block _ _ _ ?b ?X s) => assert (E : wp_block I is_dist Least b X s = emax etop (havoc_sem Up [v_x]
      (fun s' => validate_sem Up (assume_sem Up (ev I (subst_all (ELit TEUReal (LFrac 0)) [(v_r1, EVar v_x)]) s') (emin ebot (X s')))) s)) by reflexivity end.
    rewrite E. eapply ele_trans; [apply ele_top | apply emax_l].
  - intros I H. specialize (H (st 0 0) (st_ok 0 0)). apply bot_not_top. cbn [pdir init_g below] in H. eapply ele_trans; [exact H|].
    unfold wpc_block. cbn [fold_right wpc call_sem]. change (String.eqb "c" (pname co_c)) with true. cbv iota.
    unfold body_behaviour. cbn [pdir co_c]. apply esup_lub. intros r (s' & _ & ->).
    cbn [wp_block fold_right wp assign_sem]. change (ev I e_false _) with ebot. rewrite emin_bot_l. apply ele_refl.
Qed.
(** The same call as an assignment is rejected. *)
Example assignment_rejected : sc_block (table [co_c]) shift Down [SAssign [v_x] (ECall TBool "c" [])] (mktcx [(v_x, true)] []) = Err "ProcDirectionMismatch".
Proof. reflexivity. Qed.

(** ** Recursive calls whose arguments (or results) permute the parameters *)
(** The procedure verifies against its own specification, but no solution of the recursion satisfies it. *)
Definition unsound_recursion (p : proc) : Prop :=
  exists b T b' T', pbody p = Some b /\ sc_block (table [p]) shift (pdir p) b T = Ok (b', T') /\
  (forall I, interp_ok I -> meets I p (wp_block I is_dist Least b')) /\
  forall I E, ~ satisfies I p (greatest I is_dist Least (table [p]) E (pname p)).

Definition v_a := mkid "a" 4 TUInt. Definition v_c := mkid "c" 5 TUInt.
Definition swap_f : proc := mkproc Down "f" [v_a; v_c] [] [Requires (emb (EBin TBool OLe (EVar v_a) (EVar v_c))); Ensures e_top]
  (Some [SIf (EBin TBool OLt (EVar v_a) (EVar v_c)) [SAssign [] (ECall TBool "f" [EVar v_c; EVar v_a])]
           [SIf (EBin TBool OLt (EVar v_c) (EVar v_a)) [SAssert Down e_false] []]]).
Lemma le_ev I s a b m n : eval I a s = VUInt m -> eval I b s = VUInt n -> ev I (emb (EBin TBool OLe a b)) s = etruth (N.leb m n).
Proof. intros A B. unfold ev, emb. cbn [eval]. rewrite A, B. reflexivity. Qed.
Lemma lt_holds I s a b m n : eval I a s = VUInt m -> eval I b s = VUInt n -> holds I (EBin TBool OLt a b) s = negb (N.leb n m).
Proof. intros A B. unfold holds. cbn [eval]. rewrite A, B. reflexivity. Qed.
Theorem permuted_arguments_refuted : unsound_recursion swap_f.
Proof.
  unfold unsound_recursion. eexists. exists empty_tcx. do 2 eexists. split; [reflexivity|]. split; [reflexivity|]. split.
  - intros I HI s Hs. cbn [pdir swap_f below].
    pose proof (has_ty_inv _ _ (Hs v_a)) as [m Em]. pose proof (has_ty_inv _ _ (Hs v_c)) as [n En].
    assert (Pre : spec_exp I Down (requires swap_f) s = etruth (N.leb m n)).
    { change (spec_exp I Down (requires swap_f) s) with (emin (ev I (emb (EBin TBool OLe (EVar v_a) (EVar v_c))) s) etop).
      rewrite emin_top_r. now apply le_ev. }
    rewrite Pre. destruct (N.leb m n) eqn:L; [|apply ebot_le]. cbn [etruth].
    match goal with |- ele _ (wp_block _ _ _ ?b ?X s) => assert (E : wp_block I is_dist Least b X s =
      if holds I (EBin TBool OLt (EVar v_a) (EVar v_c)) s then
        emin (ev I (subst_all (emb (EBin TBool OLe (EVar v_a) (EVar v_c))) [(v_a, EVar v_c); (v_c, EVar v_a)]) s)
             (havoc_sem Down [] (fun s' => validate_sem Down (assume_sem Down etop (X s'))) s)
      else if holds I (EBin TBool OLt (EVar v_c) (EVar v_a)) s then emin ebot (X s) else X s) by reflexivity end.
    rewrite E. rewrite (lt_holds I s (EVar v_a) (EVar v_c) m n Em En), (lt_holds I s (EVar v_c) (EVar v_a) n m En Em). rewrite L. cbn [negb].
    destruct (N.leb n m); cbn [negb].
    + change (spec_exp I Down (ensures swap_f) s) with etop. apply ele_refl.
    + assert (S : ev I (subst_all (emb (EBin TBool OLe (EVar v_a) (EVar v_c))) [(v_a, EVar v_c); (v_c, EVar v_a)]) s = etop).
      { unfold ev. rewrite subst_all_env. unfold sub_env, emb. cbn [fold_right fst snd eval].
        rewrite (upd_same _ v_a), (upd_other _ v_a v_c) by discriminate. rewrite !upd_same. rewrite Em. cbn. now rewrite N.leb_refl. }
      rewrite S, emin_top_l. apply einf_glb. intros r (s' & _ & ->). apply ele_refl.
  - intros I E H. specialize (H [VUInt 1; VUInt 2] (st 0 0)).
    assert (Tv : typed (pins swap_f) [VUInt 1; VUInt 2]) by (repeat constructor).
    specialize (H Tv (st_ok 0 0)). cbn [pdir swap_f below] in H.
    apply bot_not_top. eapply ele_trans; [|eapply ele_trans; [exact H|]].
    + change (spec_exp I Down (requires swap_f) _) with (emin etop etop). rewrite emin_top_l. apply ele_refl.
    + apply esup_lub. intros r (D & W & L & ->).
      assert (L1 : forall Y, ele (D "f"%string [VUInt 1; VUInt 2] Y) (D "f"%string [VUInt 2; VUInt 1] (fun _ => Y []))).
      { intros Y. eapply ele_trans; [apply (L "f"%string swap_f); [reflexivity | exact Tv]|].
        unfold unfold_bodies. change (table [swap_f] "f") with (Some swap_f). cbn [pbody swap_f pdir].
        apply einf_lb. exists (st 0 0). split; [apply st_ok|]. reflexivity. }
      eapply ele_trans; [apply L1|]. eapply ele_trans; [apply (L "f"%string swap_f); [reflexivity | repeat constructor]|].
      unfold unfold_bodies. change (table [swap_f] "f") with (Some swap_f). cbn [pbody swap_f pdir].
      match goal with |- ele (einf ?P) _ => assert (P ebot) as B end; [|apply einf_lb; exact B].
      exists (st 0 0). split; [apply st_ok|]. symmetry.
      match goal with |- ?l = _ => change l with (emin ebot etop) end. apply emin_bot_l.
Qed.

Definition swap_out : proc := mkproc Down "f" [] [v_r1; v_r2] [Requires e_top; Ensures (emb (EBin TBool ONe (EVar v_r1) (EVar v_r2)))]
  (Some [SDemonic [SAssign [v_r1] (ELit TBool (LBool true)); SAssign [v_r2] (ELit TBool (LBool false))]
                  [SAssign [v_r2; v_r1] (ECall TBool "f" []); SAssert Down e_false]]).
Theorem permuted_results_refuted : unsound_recursion swap_out.
Proof.
  unfold unsound_recursion. eexists. exists (mktcx [(v_r1, true); (v_r2, true)] []). do 2 eexists. split; [reflexivity|]. split; [reflexivity|]. split.
  - intros I HI s Hs. cbn [pdir swap_out below].
    match goal with |- ele _ (wp_block _ _ _ ?b ?X s) => assert (E : wp_block I is_dist Least b X s =
      emin (wp_block I is_dist Least [SAssign [v_r1] (ELit TBool (LBool true)); SAssign [v_r2] (ELit TBool (LBool false))] X s)
       (emin etop (havoc_sem Down [v_r2; v_r1]
       (fun s' => validate_sem Down (assume_sem Down (ev I (subst_all (emb (EBin TBool ONe (EVar v_r1) (EVar v_r2))) [(v_r1, EVar v_r2); (v_r2, EVar v_r1)]) s') (emin ebot (X s')))) s))) by reflexivity end.
    rewrite E. apply emin_glb; [exact (two_f_meets I s Hs)|]. rewrite emin_top_l. eapply ele_trans; [apply ele_top|].
    apply einf_glb. intros r (s' & H & ->). rewrite compare_bot; [apply ele_refl|].
    pose proof (havocked_ok _ _ _ Hs H v_r1) as Tx. apply has_ty_inv in Tx. cbn in Tx. destruct Tx as [bx Ex].
    unfold ev. rewrite subst_all_env. unfold sub_env, emb. cbn [fold_right fst snd eval].
    rewrite (upd_same _ v_r1). rewrite (upd_other _ v_r1 v_r2) by discriminate. rewrite !upd_same.
    rewrite Ex. cbn. rewrite dec_true by reflexivity. reflexivity.
  - intros I E H. specialize (H [] (st 0 0)).
    assert (Tv : typed (pins swap_out) []) by constructor.
    specialize (H Tv (st_ok 0 0)). cbn [pdir swap_out below] in H.
    apply bot_not_top. eapply ele_trans; [|eapply ele_trans; [exact H|]].
    + change (spec_exp I Down (requires swap_out) _) with (emin etop etop). rewrite emin_top_l. apply ele_refl.
    + apply esup_lub. intros r (D & W & L & ->).
      assert (L1 : forall Y, ele (D "f"%string [] Y) (D "f"%string [] (fun _ => ebot))).
      { intros Y. eapply ele_trans; [apply (L "f"%string swap_out); [reflexivity | exact Tv]|].
        unfold unfold_bodies. change (table [swap_out] "f") with (Some swap_out). cbn [pbody swap_out pdir].
        eapply ele_trans; [apply einf_lb; exists (st 0 0); split; [apply st_ok | reflexivity]|].
        cbn [upds wpc_block fold_right wpc]. eapply ele_trans; [apply emin_r|]. cbn [fold_right wpc call_sem]. unfold den. change (table [swap_out] "f") with (Some swap_out). cbv iota.
        apply (W "f"%string swap_out eq_refl); [exact Tv|]. intros o _. cbn [wp]. apply emin_l. }
      eapply ele_trans; [apply L1|]. eapply ele_trans; [apply (L "f"%string swap_out); [reflexivity | exact Tv]|].
      unfold unfold_bodies. change (table [swap_out] "f") with (Some swap_out). cbn [pbody swap_out pdir].
      eapply ele_trans; [apply einf_lb; exists (st 0 0); split; [apply st_ok | reflexivity]|].
      cbn [upds wpc_block fold_right wpc]. eapply ele_trans; [apply emin_l|]. apply ele_refl.
Qed.

(** ** A [let] in a postcondition *)
Definition let_f : proc := mkproc Down "f" [] [v_r1] [Ensures (emb (ESubst v_x (EVar v_r1) (EVar v_x)))] None.
Theorem let_post_refuted : exists b T w, sc_block (table [let_f]) shift Down b T = Panic w.
Proof. exists [SAssign [v_x] (ECall TBool "f" [])], (mktcx [(v_x, true)] []). eexists. reflexivity. Qed.

(** ** Recursion under least fixpoints *)
(** [proc f() -> () pre 1 post 1 { f() }] verifies, but under the least fixpoint it has value 0. *)
Definition rec_f : proc := mkproc Down "f" [] [] [Requires e_one; Ensures e_one] (Some [SAssign [] (ECall TBool "f" [])]).
Theorem least_recursion_refuted : exists p b T b' T', pbody p = Some b /\ sc_block (table [p]) shift (pdir p) b T = Ok (b', T') /\
  (forall I, meets I p (wp_block I is_dist Least b')) /\ forall I E, ~ satisfies I p (least I is_dist Least (table [p]) E (pname p)).
Proof.
  exists rec_f. eexists. exists empty_tcx. do 2 eexists. split; [reflexivity|]. split; [reflexivity|]. split.
  - intros I s Hs. cbn [pdir rec_f below].
    assert (P : forall s, spec_exp I Down [e_one] s = fin 1).
    { intros s0. unfold spec_exp. cbn [map all_of fold_right]. rewrite e_one_ev. apply emin_top_r. }
    change (requires rec_f) with [e_one]. change (ensures rec_f) with [e_one]. rewrite P.
    match goal with |- ele _ (wp_block _ _ _ ?b ?X s) => assert (E : wp_block I is_dist Least b X s =
      emin (ev I e_one s) (havoc_sem Down [] (fun s' => validate_sem Down (assume_sem Down (ev I e_one s') (X s'))) s)) by reflexivity end.
    rewrite E, e_one_ev. apply emin_glb; [apply ele_refl|]. apply einf_glb. intros r (s' & _ & ->). rewrite e_one_ev, P.
    unfold assume_sem. rewrite (proj2 (eleb_iff _ _) (ele_refl _)). apply ele_top.
  - intros I E H. specialize (H [] (st 0 0) ltac:(constructor) (st_ok 0 0)). cbn [pdir rec_f below] in H.
    assert (P : forall s, spec_exp I Down [e_one] s = fin 1).
    { intros s0. unfold spec_exp. cbn [map all_of fold_right]. rewrite e_one_ev. apply emin_top_r. }
    change (requires rec_f) with [e_one] in H. rewrite P in H.
    assert (K : ele (fin 1) (fin 0)).
    { eapply ele_trans; [exact H|]. apply einf_lb. exists (fun _ _ _ => ebot). split; [intros f p _ v Y Z _ _; apply ele_refl|].
      split; [|reflexivity]. intros f p v Y Hp Tv. unfold unfold_bodies. rewrite Hp.
      assert (p = rec_f) as ->. { unfold table in Hp. cbn [find] in Hp. destruct (String.eqb _ f); congruence. }
      cbn [pbody rec_f pdir]. eapply ele_trans; [apply einf_lb; exists (st 0 0); split; [apply st_ok | reflexivity]|].
      cbn [wpc_block fold_right wpc call_sem]. unfold den. change (table [rec_f] "f") with (Some rec_f). apply ele_refl. }
    apply (proj1 (ele_fin 1 0 ltac:(lra) ltac:(lra))) in K. lra.
Qed.
