(** Lower bounds for wlp with invariants above one. *)
From Coq Require Import Bool List String ZArith NArith Reals Lia.
From Verif.Model Require Import Syntax Builder Dist ProofRules Pgcl PgclProc.
From Verif.Spec Require Import Eur Sem Wp Frame Loops PgclSem PgclCost PgclProcSpec.
From Verif.Proofs Require Import EurLemmas SemLemmas WpLemmas LoopProofs PgclProofs PgclSound PgclMore PgclTicks PgclExamples PgclProcProofs.
Import ListNotations.
Local Open Scope list_scope.

Definition forever : list pinstr := [PWhile (EVar vb) [PAsgn vb (b_bool true)]].
Definition big : expr := EIte TEUReal (EVar vb) b_inf one.
Definition forever_loop : list stmt := pgcl_spec Down big [vb] ++ [encode_iter (EVar vb) [SAssign [vb] (b_bool true)] (pgcl_const big)].
Lemma forever_proc : k_ind_proc vpc Down false [vb] forever big [(1%nat, big)] = Some (to_init big, init_assign [vb] ++ forever_loop, []).
Proof. reflexivity. Qed.
Lemma big_val I s c : s vb = VBool c -> ev I big s = if c then etop else eone.
Proof. intros E. unfold ev, big. cbn [eval]. rewrite E. destruct c; reflexivity. Qed.
Lemma bool_val x s : env_ok s -> ity x = TBool -> exists c, s x = VBool c.
Proof. intros Hs Hx. specialize (Hs x). rewrite Hx in Hs. unfold has_ty in Hs. destruct (s x); try discriminate; eauto. Qed.
Lemma forever_iter I s : env_ok s -> ele (ev I big s) (wp_block I is_dist Greatest [encode_iter (EVar vb) [SAssign [vb] (b_bool true)] (pgcl_const big)] (ev I one) s).
Proof.
  intros Hs. destruct (bool_val vb s Hs eq_refl) as [c E]. rewrite (big_val I s c E).
  unfold wp_block. cbn [fold_right]. rewrite wp_iter. unfold Loops.Phi. unfold holds. cbn [eval]. rewrite E.
  destruct c; [|apply ele_refl].
  change (ele etop (wp I is_dist Greatest (SAssign [vb] (b_bool true)) (wp_block I is_dist Greatest (pgcl_const big) (ev I one)) s)).
  rewrite wp_asgn by exact Logic.I. rewrite const_sem. rewrite (big_val I _ true); [apply ele_refl|]. rewrite upd_same. reflexivity.
Qed.
Lemma forever_verified I s : env_ok s -> ele (ev I (to_init big) s) (wp_block I is_dist Greatest (init_assign [vb] ++ forever_loop) (ev I one) s).
Proof.
  intros Hs.
  change (ele (ev I (to_init big) s) (wp I is_dist Greatest (SAssign [vb] (EVar (init_var vb))) (wp_block I is_dist Greatest forever_loop (ev I one)) s)).
  rewrite wp_asgn by exact Logic.I. set (t := upd s vb (eval I (EVar (init_var vb)) s)).
  assert (Ht : env_ok t) by (apply upd_ok; auto; exact (Hs (init_var vb))).
  assert (Ep : ev I (to_init big) s = ev I big t).
  { unfold ev. rewrite (eval_init I big t s); auto; [cbn; tauto|]. intros x Hx. cbn in Hx. destruct Hx as [Hx|[[]|[]]]. subst x. unfold t. now rewrite upd_same. }
  rewrite Ep. set (B := wp_block I is_dist Greatest [encode_iter (EVar vb) [SAssign [vb] (b_bool true)] (pgcl_const big)] (ev I one)).
  assert (E : wp_block I is_dist Greatest forever_loop (ev I one) t =
    dmeet Down (ev I big t) (havoc_sem Down [vb] (fun t' => validate_sem Down (assume_sem Down (ev I big t') (B t'))) t)) by reflexivity.
  rewrite E.
  destruct (havoc_check Down [vb] (fun t' => dle Down (ev I big t') (B t')) (fun t' => validate_sem Down (assume_sem Down (ev I big t') (B t'))) t
    (fun _ _ => validate_assume_sem _ _ _)) as [[H _]|[_ (t' & Ht' & N)]].
  - rewrite H, dmeet_top. apply ele_refl.
  - exfalso. apply N. apply forever_iter. exact (havocked_ok _ _ _ Ht Ht').
Qed.
Theorem liberal_refuted : exists I l vars inv b s, interp_ok I /\ env_ok s /\ All (pok is_dist vpc) l /\ good_annot vpc (1%nat, inv) /\
  k_ind_proc vpc Down false vars l inv [(1%nat, inv)] = Some (to_init inv, b, []) /\
  (forall s, env_ok s -> ele (ev I (to_init inv) s) (wp_block I is_dist Greatest b (ev I one) s)) /\
  ~ ele (ev I inv s) eone.
Proof.
  exists I1, forever, [vb], big, (init_assign [vb] ++ forever_loop), s1.
  split; [exact I1_ok|]. split; [exact s1_ok|]. split; [pok_tac|].
  split; [split; [cbn; lia|]; split; [split; reflexivity | clean_tac]|]. split; [exact forever_proc|]. split; [exact (forever_verified I1)|].
  rewrite (big_val I1 s1 true eq_refl). intros H. exact H.
Qed.
