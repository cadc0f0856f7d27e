(** Programs meeting the hypotheses of C11 and C12. *)
From Coq Require Import Bool List String NArith QArith Reals Lra Qreals.
From Verif.Model Require Import Syntax TyCtx AstUtil Dist VcGen Procs Pipeline.
From Verif.Spec Require Import Eur Sem Wp Calls.
From Verif.Proofs Require Import EurLemmas SemLemmas VcGenProofs DistProofs SimplifyRefuted CallProofs SpecCallProofs RecProofs ProcVc CallRefuted.
Import ListNotations.
Local Open Scope list_scope.
Local Open Scope nat_scope.
Local Arguments eleb : simpl never.

(** A coin: [proc coin() -> (r: Bool) pre 1/2 post [r] { r = flip(1/2) }] *)
Definition v_r := mkid "r" 6 TBool.
Definition coin_body : list stmt := [SAssign [v_r] (ECall TBool "flip" [ELit TUReal (LFrac (1#2))])].
Definition coin : proc := mkproc Down "coin" [] [v_r] [Requires (ELit TEUReal (LFrac (1#2))); Ensures (EUn TEUReal OIverson (EVar v_r))] (Some coin_body).
Definition msgs (a : string) : bool := String.eqb a "error_msg" || String.eqb a "success_msg".
Definition coin_tcx : tcx := fun f => if is_dist f then Some DProcIntrin else if msgs f then Some DSlicingAnn else None.
Lemma coin_facts : tcx_ok coin_tcx is_dist (fun _ => false) msgs /\ proc_wf is_dist (fun _ => false) msgs coin coin_body /\
  forall I, interp_ok I -> meets I coin (wp_block I is_dist Least coin_body).
Proof.
  split; [|split].
  - split; [|split].
    + intros f H. unfold coin_tcx. now rewrite H.
    + discriminate.
    + intros a H. unfold msgs in H. apply orb_prop in H. destruct H as [H|H]; apply String.eqb_eq in H; subst a; reflexivity.
  - split; [reflexivity|]. split; [split; [apply dr_flip; reflexivity | exact Logic.I]|].
    split; [cbn; auto|]. split; [cbn; auto|]. split; [cbn; auto|]. split; [reflexivity|]. split; [reflexivity|].
    split; intros e [<-|[]]; split; reflexivity.
  - intros I HI s Hs. cbn [pdir coin below].
    assert (E : wp_block I is_dist Least coin_body (spec_exp I Down (ensures coin)) s =
      eadd (emul (fin (Q2R (1#2))) (emin eone etop)) (eadd (emul (fin (1 - nval (nnr_of (Q2R (1#2))))) (emin ebot etop)) ebot)) by reflexivity.
    rewrite E. rewrite !emin_top_r, emul_1_r, emul_0_r, !eadd_0_r. cbn [requires flat_map pspecs coin app]. unfold spec_exp. cbn [map all_of fold_right]. rewrite emin_top_r. apply ele_refl.
Qed.

(** [proc f(x: UInt) -> (y: UInt) pre oo post ?(x <= y) { if demonic { y = f(x + 1) } else { y = x } }] *)
Definition v_n := mkid "x" 7 TUInt. Definition v_y := mkid "y" 8 TUInt.
Definition up_body : list stmt :=
  [SDemonic [SAssign [v_y] (ECall TUInt "f" [EBin TUInt OAdd (EVar v_n) (ELit TUInt (LUInt 1))])] [SAssign [v_y] (EVar v_n)]].
Definition up_f : proc := mkproc Down "f" [v_n] [v_y] [Requires e_top; Ensures (emb (EBin TBool OLe (EVar v_n) (EVar v_y)))] (Some up_body).
Definition temps (y : ident) : Prop := exists x, y = temp shift x.
Lemma not_temp x : ispan x < 10 -> ~ temps x.
Proof. intros H [z E]. subst x. cbn [temp ispan shift] in H. apply (PeanoNat.Nat.lt_irrefl 10). eapply PeanoNat.Nat.le_lt_trans; [|exact H]. apply PeanoNat.Nat.le_add_r. Qed.
Lemma up_decl : decl_ok temps up_f.
Proof.
  constructor.
  - repeat constructor; cbn; intuition discriminate.
  - intros x [<-|[<-|[]]]; apply not_temp; cbn; repeat constructor.
  - intros e [<-|[]]. split; [split; reflexivity|]. intros y [].
  - intros e [<-|[]]. split; [split; reflexivity|]. cbn. intuition.
Qed.
Lemma up_call : call_ok is_dist temps (fun x => In x (pins up_f)) up_f [v_y] [EBin TUInt OAdd (EVar v_n) (ELit TUInt (LUInt 1))].
Proof.
  constructor.
  - repeat constructor.
  - repeat constructor.
  - repeat constructor. intros y H. cbn in H. destruct H as [->|[]]. apply not_temp; cbn; repeat constructor.
  - repeat constructor.
  - intros x [<-|[]]. split; [apply not_temp; cbn; repeat constructor|]. intros [H|[]]. discriminate.
  - repeat constructor. intros [].
  - discriminate.
  - intros e _. cbn. auto.
  - intros e _. cbn. auto.
Qed.
Lemma up_checked I : interp_ok I -> checked I is_dist (fun _ => false) Least (table [up_f]) shift temps up_f up_body.
Proof.
  intros HI. split; [|split].
  - assert (A1 : assignc_ok is_dist (fun _ => false) (table [up_f]) temps (fun x => In x (pins up_f)) [v_y]
        (ECall TUInt "f" [EBin TUInt OAdd (EVar v_n) (ELit TUInt (LUInt 1))])).
    { split; [apply up_decl | apply up_call]. }
    assert (A2 : assignc_ok is_dist (fun _ => false) (table [up_f]) temps (fun x => In x (pins up_f)) [v_y] (EVar v_n)).
    { split; [split; reflexivity|]. split; [|split].
      - intros y H. cbn in H. subst y. apply not_temp; cbn; repeat constructor.
      - apply not_temp; cbn; repeat constructor.
      - intros [H|[]]. discriminate. }
    cbn [All every up_body stmt_ok]. tauto.
  - cbn. tauto.
  - exists (mktcx [(v_n, true); (v_y, true)] []). do 2 eexists. split; [reflexivity|].
    intros s Hs. cbn [pdir up_f below].
    match goal with |- ele _ (wp_block _ _ _ ?b ?X s) => assert (E : wp_block I is_dist Least b X s =
      emin (emin etop (havoc_sem Down [v_y] (fun s' => validate_sem Down (assume_sem Down
              (ev I (subst_all (emb (EBin TBool OLe (EVar v_n) (EVar v_y))) [(v_n, EVar (temp shift v_n)); (v_y, EVar v_y)]) s') (X s')))
            (upd s (temp shift v_n) (eval I (EBin TUInt OAdd (EVar v_n) (ELit TUInt (LUInt 1))) s))))
           (X (upd s v_y (s v_n)))) by reflexivity end.
    rewrite E. eapply ele_trans; [apply ele_top|]. clear E.
    pose proof (has_ty_inv _ _ (Hs v_n)) as [n En]. cbn in n.
    assert (Post : forall s' a b, s' v_n = VUInt a -> s' v_y = VUInt b -> spec_exp I Down (ensures up_f) s' = etruth (N.leb a b)).
    { intros s' a b Ea Eb. change (spec_exp I Down (ensures up_f) s') with (emin (ev I (emb (EBin TBool OLe (EVar v_n) (EVar v_y))) s') etop).
      rewrite emin_top_r. now apply le_ev. }
    apply emin_glb.
    + rewrite emin_top_l. apply einf_glb. intros r (s' & [H1 H2] & ->).
      pose proof (has_ty_inv _ _ (H2 v_y (or_introl eq_refl))) as [m Em].
      assert (En' : s' v_n = VUInt n). { rewrite H1 by (intros [C|[]]; discriminate). rewrite upd_other by discriminate. exact En. }
      assert (Et : s' (temp shift v_n) = VUInt (n + 1)). { rewrite H1 by (intros [C|[]]; discriminate). rewrite upd_same. cbn [eval]. rewrite En. reflexivity. }
      rewrite (Post s' n m En' Em).
      assert (Ev : ev I (subst_all (emb (EBin TBool OLe (EVar v_n) (EVar v_y))) [(v_n, EVar (temp shift v_n)); (v_y, EVar v_y)]) s' = etruth (N.leb (n + 1) m)).
      { unfold ev. rewrite subst_all_env. unfold sub_env, emb. cbn [fold_right fst snd eval].
        rewrite (upd_same _ v_n), (upd_other _ v_n v_y), (upd_same _ v_y), (upd_other _ v_y (temp shift v_n)) by discriminate. rewrite Et, Em. reflexivity. }
      rewrite Ev. unfold assume_sem.
      destruct (N.leb_spec (n + 1) m) as [L|L].
      * assert (L' : N.leb n m = true) by (apply N.leb_le; eapply N.le_trans; [|exact L]; apply N.le_add_r). rewrite L'. cbn [etruth].
        rewrite (proj2 (eleb_iff _ _) (ele_refl _)). apply ele_refl.
      * cbn [etruth]. rewrite (proj2 (eleb_iff _ _) (ebot_le _)). apply ele_refl.
    + rewrite (Post _ n n); [rewrite N.leb_refl; apply ele_refl| |].
      * rewrite upd_other by discriminate. exact En.
      * rewrite upd_same. exact En.
Qed.
Lemma up_program I : interp_ok I -> (forall m n, shift m = shift n -> m = n) /\ (forall x, temps (temp shift x)) /\
  program_ok I is_dist (fun _ => false) Least (table [up_f]) shift temps Down (fun _ _ _ => ebot) /\ table [up_f] "f" = Some up_f.
Proof.
  intros HI. split; [intros m n H; injection H; auto|]. split; [intros x; now exists x|]. split; [|reflexivity].
  intros f p Hp. unfold table in Hp. cbn [find] in Hp. destruct (String.eqb _ f); [|discriminate]. injection Hp as <-.
  split; [reflexivity|]. split; [apply up_decl | apply up_checked; auto].
Qed.
