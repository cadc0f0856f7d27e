(** Loops that the rule for positive almost-sure termination accepts. *)
From Coq Require Import Bool List String ZArith NArith QArith Qreals Reals Lia Lra.
From Verif.Model Require Import Syntax Builder Dist ProofRules LoopProcs Pgcl PgclProc PgclOmega PgclPast.
From Verif.Spec Require Import Eur Sem Wp Frame Loops PgclSem PgclCost PgclProcSpec PgclIter.
From Verif.Proofs Require Import EurLemmas SemLemmas WpLemmas FrameProofs LoopProofs TermRules OstProofs PgclProofs PgclSound PgclExamples PgclProcProofs PgclOmegaProofs PgclOmegaExample PgclPastProofs.
Import ListNotations.
Local Open Scope list_scope.
Local Open Scope R_scope.

Lemma Q2R_1 : Q2R 1 = 1. Proof. unfold Q2R. cbn. lra. Qed.
Lemma Q2R_zero : Q2R 0 = 0. Proof. unfold Q2R. cbn. lra. Qed.
Lemma Q2R_half : Q2R (1 # 2) = / 2. Proof. unfold Q2R. cbn. lra. Qed.
Lemma assert_top I isd k e s : is_guard e -> interp_ok I -> env_ok s -> holds I e s = true -> ele etop (wp_block I isd k [SAssert Down (emb e)] (fun _ => etop) s).
Proof.
  intros W HI Hs H. unfold wp_block. cbn [fold_right]. rewrite wp_assert, ev_emb, H by auto. apply emin_glb; apply ele_refl.
Qed.

(** [while (true) { skip }] with the number zero for [eps] *)
Definition stuck : list pinstr := [PWhile (b_bool true) [PSkip]].
Definition stuck_c1 := Eval cbv in match past_procs vpc [] stuck (num 1) 0 1 with Some (a, _, _) => a | None => b_inf end.
Definition stuck_c2 := Eval cbv in match past_procs vpc [] stuck (num 1) 0 1 with Some (_, a, _) => a | None => b_inf end.
Definition stuck_p3 := Eval cbv in match past_procs vpc [] stuck (num 1) 0 1 with Some (_, _, (a, _)) => a | None => b_inf end.
Definition stuck_b3 := [encode_iter (b_bool true) [] (pgcl_const (num 1))].
Lemma stuck_procs : past_procs vpc [] stuck (num 1) 0 1 = Some (stuck_c1, stuck_c2, (stuck_p3, stuck_b3)).
Proof. reflexivity. Qed.
Lemma stuck_forever I s : env_ok s -> pgcl_iterations I (b_bool true) [PSkip] s = etop.
Proof.
  intros Hs. apply top_le. unfold pgcl_iterations, lfp. apply einf_glb. intros r (Y & HY & ->). specialize (HY s Hs).
  change (ele (eadd eone (Y s)) (Y s)) in HY. destruct (Y s) as [x|]; [|apply ele_refl]. exfalso.
  rewrite (Fin_fin x) in HY. unfold eone in HY. pose proof (nval_nonneg x). rewrite eadd_fin in HY by lra. apply fin_le in HY; lra.
Qed.
Lemma stuck_verified I k s : interp_ok I -> env_ok s -> ele etop (wp_block I is_dist k [SAssert Down stuck_c1] (fun _ => etop) s) /\
  ele etop (wp_block I is_dist k [SAssert Down stuck_c2] (fun _ => etop) s) /\ ele (wp_block I is_dist k stuck_b3 (fun _ => ebot) s) (ev I stuck_p3 s).
Proof.
  intros HI Hs. split; [|split].
  - apply assert_top; auto; [split; reflexivity|]. unfold holds. cbn -[eleb emul eone ebot fin]. fold eone ebot.
    change (eleb (emul ebot (fin (Q2R 1))) (fin (Q2R 1)) = true). rewrite emul_0_l. apply eleb_iff, ebot_le.
  - apply assert_top; auto; [split; reflexivity|].
    change (eleb (emul eone (fin (Q2R 1))) (eadd (emul eone (fin (Q2R 1))) ebot) = true). rewrite eadd_0_r. apply eleb_iff, ele_refl.
  - assert (E : wp_block I is_dist k stuck_b3 (fun _ => ebot) s = fin (Q2R 1)).
    { unfold stuck_b3, wp_block. cbn [fold_right]. rewrite wp_iter. unfold Loops.Phi.
      change (holds I (b_bool true) s) with true. cbv iota.
      change (wp_block I is_dist k (pgcl_const (num 1)) (fun _ => ebot) s = fin (Q2R 1)). now rewrite const_sem. }
    rewrite E. change (ele (fin (Q2R 1)) (emul eone (emonus (fin (Q2R 1)) (fin (Q2R 0))))).
    rewrite emul_1_l, Q2R_1, Q2R_zero, emonus_fin by lra. apply ele_fin; lra.
Qed.
Theorem past_zero : exists I c b inv eps k c1 c2 p3 b3 s, interp_ok I /\ env_ok s /\ pok is_dist vpc (PWhile c b) /\ is_exp inv /\
  past_procs vpc [] [PWhile c b] inv eps k = Some (c1, c2, (p3, b3)) /\
  (forall s, env_ok s -> ele etop (wp_block I is_dist Least [SAssert Down c1] (fun _ => etop) s)) /\
  (forall s, env_ok s -> ele etop (wp_block I is_dist Least [SAssert Down c2] (fun _ => etop) s)) /\
  (forall s, env_ok s -> ele (wp_block I is_dist Least b3 (fun _ => ebot) s) (ev I p3 s)) /\
  ev I inv s <> etop /\ pgcl_iterations I c b s = etop.
Proof.
  exists I1, (b_bool true), [PSkip], (num 1), 0%Q, 1%Q, stuck_c1, stuck_c2, stuck_p3, stuck_b3, s1.
  split; [exact I1_ok|]. split; [exact s1_ok|]. split; [pok_tac|]. split; [split; reflexivity|]. split; [exact stuck_procs|].
  split; [intros s Hs; now apply (stuck_verified I1 Least s I1_ok)|]. split; [intros s Hs; now apply (stuck_verified I1 Least s I1_ok)|].
  split; [intros s Hs; now apply (stuck_verified I1 Least s I1_ok)|]. split; [discriminate|]. apply stuck_forever, s1_ok.
Qed.

(** Counting down. *)
Definition cd_inv : expr := ECast TEUReal (EVar vx).
Definition cd_c1 := Eval cbv in match past_procs vpc [vx] [PWhile down_c down_b] cd_inv (1 # 2) 1 with Some (a, _, _) => a | None => b_inf end.
Definition cd_c2 := Eval cbv in match past_procs vpc [vx] [PWhile down_c down_b] cd_inv (1 # 2) 1 with Some (_, a, _) => a | None => b_inf end.
Definition cd_p3 : expr := to_init (mul (ivs down_c) (EBin TEUReal OSub cd_inv (num (1 # 2)))).
Definition cd_b3 := [SAssign [vx] (EVar (init_var vx)); encode_iter down_c (plains vpc down_b) (pgcl_const cd_inv)].
Lemma cd_procs : past_procs vpc [vx] [PWhile down_c down_b] cd_inv (1 # 2) 1 = Some (cd_c1, cd_c2, (cd_p3, cd_b3)).
Proof. reflexivity. Qed.
Lemma uint_val x s : env_ok s -> ity x = TUInt -> exists m, s x = VUInt m.
Proof. intros Hs Hx. specialize (Hs x). rewrite Hx in Hs. unfold has_ty in Hs. destruct (s x); try discriminate; eauto. Qed.
Lemma n2r_pos m : 0 <= n2r m. Proof. unfold n2r. apply IZR_le. lia. Qed.
Lemma cd_holds I s m : s vx = VUInt m -> holds I down_c s = (0 <? m)%N.
Proof. intros E. unfold holds, down_c. cbn [eval]. rewrite E. destruct m; reflexivity. Qed.
Lemma cd_val I s m : s vx = VUInt m -> ev I cd_inv s = fin (n2r m).
Proof. intros E. unfold ev, cd_inv. cbn [eval]. rewrite E. reflexivity. Qed.
Lemma cd_ok : (forall x, x = vpc \/ In x (map init_var [vx]) -> pok is_dist x (PWhile down_c down_b)) /\
  (forall x y, In x [vx] -> In y [vx] -> x <> init_var y) /\ simple cd_inv /\ simple down_c /\ (forall x, fv x cd_inv -> In x [vx]) /\
  (forall x, fv x down_c -> In x [vx]) /\ clean vpc cd_inv /\ is_exp cd_inv /\ (0 < 1 # 2)%Q.
Proof.
  split; [intros x [->|[<-|[]]]; pok_tac|]. split; [intros x y [<-|[]] [<-|[]]; discriminate|].
  split; [exact Logic.I|]. split; [cbn; auto|]. split; [cbn; intros x ->; auto|]. split; [cbn; intros x [[]| ->]; auto|].
  split; [clean_tac|]. split; [split; reflexivity|]. reflexivity.
Qed.
Lemma cd_second I k s : interp_ok I -> env_ok s -> ele etop (wp_block I is_dist k [SAssert Down cd_c2] (fun _ => etop) s).
Proof.
  intros HI Hs. apply assert_top; auto; [split; reflexivity|]. destruct (uint_val vx s Hs eq_refl) as [m E].
  assert (H : holds I (EBin TBool OLe (mul (ivs down_c) (num 1)) (EBin TEUReal OAdd (mul (ivs down_c) cd_inv) (ivs (neg down_c)))) s =
    eleb (emul (if (0 <? m)%N then eone else ebot) (fin (Q2R 1)))
         (eadd (emul (if (0 <? m)%N then eone else ebot) (fin (n2r m))) (if negb (0 <? m)%N then eone else ebot))).
  { unfold holds, mul, ivs, neg, cd_inv, down_c, num. cbn [eval]. rewrite E. destruct m; reflexivity. }
  etransitivity; [exact H|]. apply eleb_iff. destruct (N.ltb_spec 0 m) as [Hm|Hm]; cbn [negb].
  - rewrite !emul_1_l, eadd_0_r, Q2R_1. apply ele_fin; [lra | apply n2r_pos|]. unfold n2r. apply IZR_le. lia.
  - rewrite emul_0_l. apply ebot_le.
Qed.
Lemma cd_third I k s : interp_ok I -> env_ok s -> ele (wp_block I is_dist k cd_b3 (fun _ => ebot) s) (ev I cd_p3 s).
Proof.
  intros HI Hs. destruct (uint_val (init_var vx) s Hs eq_refl) as [m E].
  assert (Ep : ev I cd_p3 s = emul (if (0 <? m)%N then eone else ebot) (emonus (fin (n2r m)) (fin (Q2R (1 # 2))))).
  { unfold ev, cd_p3, mul, ivs, cd_inv, down_c, num. cbn [to_init eval]. rewrite E. destruct m; reflexivity. }
  rewrite Ep.
  change (wp_block I is_dist k cd_b3 (fun _ => ebot) s) with
    (wp I is_dist k (SAssign [vx] (EVar (init_var vx))) (wp_block I is_dist k [encode_iter down_c (plains vpc down_b) (pgcl_const cd_inv)] (fun _ => ebot)) s).
  rewrite wp_asgn by exact Logic.I. cbn [eval]. rewrite E. set (t := upd s vx (VUInt m)).
  assert (Et : t vx = VUInt m) by apply upd_same.
  unfold wp_block at 1. cbn [fold_right]. rewrite wp_iter. unfold Loops.Phi. rewrite (cd_holds I t m Et).
  destruct (N.ltb_spec 0 m) as [Hm|Hm]; [|apply ebot_le].
  change (ele (wp I is_dist k (SAssign [vx] (EBin TUInt OSub (EVar vx) (b_uint 1))) (wp_block I is_dist k (pgcl_const cd_inv) (fun _ => ebot)) t)
    (emul eone (emonus (fin (n2r m)) (fin (Q2R (1 # 2)))))).
  rewrite wp_asgn by exact Logic.I. rewrite const_sem, (cd_val I _ (m - 1)).
  - rewrite emul_1_l, Q2R_half, emonus_fin by (try apply n2r_pos; lra).
    assert (H : n2r (m - 1) = n2r m - 1) by (unfold n2r; rewrite N2Z.inj_sub, minus_IZR by lia; reflexivity).
    pose proof (n2r_pos (m - 1)). rewrite H in *. apply ele_fin; lra.
  - rewrite upd_same. cbn [eval]. rewrite Et. reflexivity.
Qed.

Theorem past_rejects pc vars l inv eps k : past_procs pc vars l inv eps k <> None ->
  (eps < k)%Q /\ exists l1 c b l2, l = l1 ++ PWhile c b :: l2 /\ (forall c' b', ~ In (PWhile c' b') (l1 ++ l2)) /\ list_sum (map loops b) = 0%nat.
Proof.
  unfold past_procs. destruct (the_loop l) as [[c b]|] eqn:T; [|congruence]. destruct (Qle_bool k eps) eqn:Hq; [congruence|].
  destruct (directs false pc Down b []) as [[bs st]|] eqn:D; [|congruence]. intros _.
  split; [apply Qnot_le_lt; intros H; apply Qle_bool_iff in H; congruence|].
  unfold the_loop in T. destruct (filter is_loop l) as [|i [|j r]] eqn:F; try discriminate; [|destruct i; discriminate].
  destruct i; try discriminate. injection T as -> ->. destruct (filter_one is_loop l _ F) as (l1 & l2 & -> & K).
  exists l1, c, b, l2. split; [reflexivity|]. split; [|exact (proj1 (no_annots _ _ _ _ _ _ D))].
  intros c' b' H. assert (H' : In (PWhile c' b') (filter is_loop (l1 ++ l2))) by (apply filter_In; auto). rewrite K in H'. destruct H'.
Qed.
