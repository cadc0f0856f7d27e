(** Tossing a coin: lower bounds for wlp with an invariant of at most one. *)
From Coq Require Import Bool List String ZArith NArith QArith Qreals Reals Lia Lra.
From Verif.Model Require Import Syntax Builder Dist ProofRules Pgcl PgclProc PgclOmega.
From Verif.Spec Require Import Eur Sem Wp Frame Loops PgclSem PgclCost PgclProcSpec PgclWlp.
From Verif.Proofs Require Import EurLemmas SemLemmas WpLemmas LoopProofs PgclProofs PgclExamples PgclProcProofs PgclProcExample PgclWlpProofs PgclOmegaExample.
Import ListNotations.
Local Open Scope string_scope.
Local Open Scope nat_scope.
Local Open Scope list_scope.

Definition lib_body : list stmt := Eval vm_compute in
  match k_ind_proc vpc Down false [vb] toss one [(1, one)] with Some (_, b, _) => b | None => [] end.
Lemma lib_proc : k_ind_proc vpc Down false [vb] toss one [(1, one)] = Some (one, lib_body, []).
Proof. reflexivity. Qed.
Lemma lib_proper I : All (proper I) toss.
Proof.
  split; [|exact Logic.I]. cbn. split; [|tauto]. split; [|tauto]. intros s q _ E. injection E as <-.
  assert (Q : Q2R (1 # 2)%Q = (1 / 2)%R) by (unfold Q2R; cbn; lra). rewrite Q, nval_of; lra.
Qed.
Lemma lib_annots I : Forall (fun a => good_annot vpc a /\ forall s, env_ok s -> ele (ev I (snd a) s) eone) [(1, one)].
Proof. constructor; [|constructor]. split; [exact (Forall_inv (proj1 (proj2 toss_ok)))|]. intros s _. apply ele_refl. Qed.
Lemma lib_verified I s : interp_ok I -> env_ok s -> dle Down (ev I one s) (wp_block I is_dist Least lib_body (ev I one) s).
Proof.
  intros HI Hs.
  assert (One : forall t, ev I one t = eone) by reflexivity.
  set (loop := tl (tl lib_body)).
  set (B := wp_block I is_dist Least (tl (tl (tl (tl loop)))) (ev I one)).
  assert (V : forall t, env_ok t -> exists c, t vb = VBool c).
  { intros t Ht. specialize (Ht vb). unfold has_ty in Ht. destruct (t vb); try discriminate; eauto. }
  assert (HB : forall t, env_ok t -> B t = eone).
  { intros t Ht. unfold B, loop, lib_body. unfold wp_block. cbn [tl fold_right wp].
    change (mkid "b" 0 TBool) with vb. change (mkid "prob_choice" 0 TBool) with vpc. unfold holds. cbn [eval].
    destruct (V t Ht) as [[|] E]; rewrite E; [|reflexivity].
    unfold assign_sem. change (is_dist "flip") with true. cbn [map eval]. unfold eval_lit.
    unfold dist_sem. cbn [String.eqb Ascii.eqb Bool.eqb expected]. rewrite !upd_same. cbn [fold_right wp assign_sem].
    change (ECast TEUReal (ELit TUInt (LUInt 1))) with one. change (ECast TEUReal (ELit TUInt (LUInt 0))) with (extreme_lit Down).
    rewrite !ev_extreme, !assume_bot, !One. change (emin eone (dtop Down)) with (dmeet Down eone (dtop Down)). rewrite dmeet_top.
    rewrite eadd_0_r. exact half_half. }
  assert (L : forall t, env_ok t -> wp_block I is_dist Least loop (ev I one) t = eone).
  { intros t Ht.
    assert (E : wp_block I is_dist Least loop (ev I one) t =
      dmeet Down (ev I one t) (havoc_sem Down [vb] (fun t' => validate_sem Down (assume_sem Down (ev I one t') (B t'))) t)) by reflexivity.
    rewrite E.
    destruct (havoc_check Down [vb] (fun t' => dle Down (ev I one t') (B t')) (fun t' => validate_sem Down (assume_sem Down (ev I one t') (B t'))) t
      (fun _ _ => validate_assume_sem _ _ _)) as [[H _]|[_ (t' & Ht' & N)]].
    - rewrite H, dmeet_top. apply One.
    - exfalso. apply N. rewrite HB by exact (havocked_ok _ _ _ Ht Ht'). apply dle_refl. }
  change (wp_block I is_dist Least lib_body (ev I one) s) with
    (wp I is_dist Least (SAssign [vb] (EVar (init_var vb))) (wp_block I is_dist Least loop (ev I one)) s).
  rewrite wp_asgn by exact Logic.I. rewrite L by (apply upd_ok; auto; exact (Hs (init_var vb))). apply dle_refl.
Qed.
Lemma lib_case : interp_ok I1 /\ is_dist "flip"%string = true /\ ity vpc = TBool /\ All (pok is_dist vpc) toss /\ All (proper I1) toss /\
  Forall (fun a => good_annot vpc a /\ forall s, env_ok s -> ele (ev I1 (snd a) s) eone) [(1%nat, one)] /\ clean vpc one /\
  (forall s, env_ok s -> ele (ev I1 one s) eone) /\ simple one /\ (forall x, fv x one -> In x [vb]) /\
  k_ind_proc vpc Down false [vb] toss one [(1%nat, one)] = Some (one, lib_body, []) /\
  (forall s, env_ok s -> ele (ev I1 one s) (wp_block I1 is_dist Least lib_body (ev I1 one) s)) /\
  exists s, env_ok s /\ forall x, In x [vb] -> s (init_var x) = s x.
Proof.
  split; [exact I1_ok|]. split; [reflexivity|]. split; [reflexivity|]. split; [apply toss_ok|]. split; [apply lib_proper|]. split; [apply lib_annots|].
  split; [apply toss_ok|]. split; [intros s _; apply ele_refl|]. split; [exact Logic.I|]. split; [intros x []|]. split; [exact lib_proc|].
  split; [intros s; exact (lib_verified I1 s I1_ok)|]. exists s1. split; [exact s1_ok|]. intros x _. reflexivity.
Qed.
Lemma meaning_case : pok is_dist vpc (PWhile down_c (PTick one :: down_b)) /\ clean vpc down_inv /\
  omega_procs vpc vn CErt [vx] [PWhile down_c (PTick one :: down_b)] down_inv <> None /\
  env_ok s1 /\ forall x, In x ([vx] ++ [vn]) -> s1 (init_var x) = s1 x.
Proof. split; [pok_tac|]. split; [clean_tac|]. split; [discriminate|]. split; [exact s1_ok|]. reflexivity. Qed.
