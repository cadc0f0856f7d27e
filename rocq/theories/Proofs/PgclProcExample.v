(** A program that is verified by the direct encoding. *)
From Coq Require Import Bool List String ZArith NArith QArith Qreals Reals Lia Lra.
From Verif.Model Require Import Syntax Builder Dist ProofRules Pgcl PgclProc.
From Verif.Spec Require Import Eur Sem Wp Frame Loops PgclSem PgclCost PgclProcSpec.
From Verif.Proofs Require Import EurLemmas SemLemmas WpLemmas LoopProofs PgclProofs PgclExamples PgclProcProofs.
Import ListNotations.
Local Open Scope string_scope.
Local Open Scope nat_scope.
Local Open Scope list_scope.

(** A fair coin is tossed until it shows heads: the expected value of one is at most one. *)
Definition toss : list pinstr := [PWhile (EVar vb) [PChoice half [PAsgn vb (b_bool false)] [PSkip]]].
Definition toss_body : list stmt := Eval vm_compute in
  match k_ind_proc vpc Up false [vb] toss one [(1, one)] with Some (_, b, _) => b | None => [] end.
Lemma toss_proc : k_ind_proc vpc Up false [vb] toss one [(1, one)] = Some (one, toss_body, []).
Proof. reflexivity. Qed.
Lemma toss_ok : All (pok is_dist vpc) toss /\ Forall (good_annot vpc) [(1, one)] /\ clean vpc one /\
  (forall x, In x [vb] -> All (pok is_dist (init_var x)) toss /\ clean (init_var x) one) /\
  (forall x y, In x [vb] -> In y [vb] -> x <> init_var y) /\ simple one /\ (forall x, fv x one -> In x [vb]).
Proof.
  split; [pok_tac|]. split; [constructor; [split; [cbn; lia|]; split; [split; reflexivity | clean_tac] | constructor]|].
  split; [clean_tac|]. split; [intros x [<-|[]]; split; [pok_tac | clean_tac]|].
  split; [intros x y [<-|[]] [<-|[]]; discriminate|]. split; [exact Logic.I|]. intros x [].
Qed.
Lemma half_half : eadd (emul (fin (Q2R (1 # 2)%Q)) eone) (emul (fin (1 - nval (nnr_of (Q2R (1 # 2)%Q)))) eone) = eone.
Proof.
  assert (Q : Q2R (1 # 2)%Q = (1 / 2)%R) by (unfold Q2R; cbn; lra). rewrite Q.
  assert (N : nval (nnr_of (1 / 2)) = (1 / 2)%R) by (apply nval_of; lra). rewrite N.
  unfold eone. rewrite !emul_fin, eadd_fin by lra. f_equal. lra.
Qed.

Lemma toss_verified I s : interp_ok I -> env_ok s -> dle Up (ev I one s) (wp_block I is_dist Least toss_body (ev I one) s).
Proof.
  intros HI Hs.
  assert (One : forall t, ev I one t = eone) by reflexivity.
  set (loop := tl (tl toss_body)).
  set (B := wp_block I is_dist Least (tl (tl (tl (tl loop)))) (ev I one)).
  assert (V : forall t, env_ok t -> exists c, t vb = VBool c).
  { intros t Ht. specialize (Ht vb). unfold has_ty in Ht. destruct (t vb); try discriminate; eauto. }
  assert (HB : forall t, env_ok t -> B t = eone).
  { intros t Ht. unfold B, loop, toss_body. unfold wp_block. cbn [tl fold_right wp].
    change (mkid "b" 0 TBool) with vb. change (mkid "prob_choice" 0 TBool) with vpc. unfold holds. cbn [eval].
    destruct (V t Ht) as [[|] E]; rewrite E; [|reflexivity].
    unfold assign_sem. change (is_dist "flip") with true. cbn [map eval]. unfold eval_lit.
    unfold dist_sem. cbn [String.eqb Ascii.eqb Bool.eqb expected]. rewrite !upd_same. cbn [fold_right wp assign_sem].
    change (ECast TEUReal (ELit TUInt (LUInt 1))) with one. change (ECast TEUReal (ELit TUInt (LUInt 0))) with (extreme_lit Down).
    rewrite !ev_extreme, !assume_bot, !One. change (emin eone (dtop Down)) with (dmeet Down eone (dtop Down)). rewrite dmeet_top.
    rewrite eadd_0_r. exact half_half. }
  assert (L : forall t, env_ok t -> wp_block I is_dist Least loop (ev I one) t = eone).
  { intros t Ht.
    assert (E : wp_block I is_dist Least loop (ev I one) t =
      dmeet Up (ev I one t) (havoc_sem Up [vb] (fun t' => validate_sem Up (assume_sem Up (ev I one t') (B t'))) t)) by reflexivity.
    rewrite E.
    destruct (havoc_check Up [vb] (fun t' => dle Up (ev I one t') (B t')) (fun t' => validate_sem Up (assume_sem Up (ev I one t') (B t'))) t
      (fun _ _ => validate_assume_sem _ _ _)) as [[H _]|[_ (t' & Ht' & N)]].
    - rewrite H, dmeet_top. apply One.
    - exfalso. apply N. rewrite HB by exact (havocked_ok _ _ _ Ht Ht'). apply dle_refl. }
  change (wp_block I is_dist Least toss_body (ev I one) s) with
    (wp I is_dist Least (SAssign [vb] (EVar (init_var vb))) (wp_block I is_dist Least loop (ev I one)) s).
  rewrite wp_asgn by exact Logic.I. rewrite L by (apply upd_ok; auto; exact (Hs (init_var vb))). apply dle_refl.
Qed.
