(** Models that are not marked as MDPs have at most one enabled edge in every state. *)
From Coq Require Import Bool List PeanoNat Lia.
From Verif.Model Require Import Syntax Dist Procs Jani.
From Verif.Spec Require Import JaniSem.
From Verif.Proofs Require Import JaniFrag.
Import ListNotations.
Local Open Scope nat_scope.

Definition det_list (l : list edge) : Prop :=
  match l with
  | [] | [_] => True
  | [a; b] => exists g, e_guard a = Some g /\ e_guard b = Some (JNot g)
  | _ => False
  end.
Definition det (es : list edge) : Prop := forall k, det_list (filter (at_loc (LStmt k)) es).

Definition shape (a a' : auto) (es : list edge) : Prop :=
  a_edges a' = a_edges a ++ es /\ a_nloc a <= a_nloc a' /\ srcs (a_nloc a) (a_nloc a') es /\
  (a_nondet a' = false -> a_nondet a = false /\ det es).

Lemma det_nil : det []. Proof. intros k. exact Logic.I. Qed.
Lemma det_app lo mid hi a b : srcs lo mid a -> srcs mid hi b -> det a -> det b -> det (a ++ b).
Proof.
  intros Sa Sb Da Db k. rewrite filter_app. destruct (Nat.lt_ge_cases k mid).
  - rewrite (srcs_out _ _ b k Sb) by lia. rewrite app_nil_r. apply Da.
  - rewrite (srcs_out _ _ a k Sa) by lia. apply Db.
Qed.
Lemma det_one e : det [e].
Proof. intros k. cbn [filter]. destruct (at_loc (LStmt k) e); exact Logic.I. Qed.
(** A new location with two edges and the fragments behind it. *)
Lemma det_two lo mid hi es1 es2 e1 e2 g : srcs (S lo) mid es1 -> srcs mid hi es2 -> S lo <= mid -> det es1 -> det es2 ->
  e_src e1 = LStmt lo -> e_src e2 = LStmt lo -> e_guard e1 = Some g -> e_guard e2 = Some (JNot g) -> det (es1 ++ [e1] ++ es2 ++ [e2]).
Proof.
  intros S1 S2 Hm D1 D2 E1 E2 G1 G2 k. assert (T1 : srcs lo (S lo) [e1]) by (apply srcs_one with lo; auto).
  assert (T2 : srcs lo (S lo) [e2]) by (apply srcs_one with lo; auto). rewrite !filter_app. destruct (Nat.eq_dec k lo) as [->|Nk].
  - rewrite (srcs_out _ _ es1 lo S1), (srcs_out _ _ es2 lo S2), !filter_one by (auto; lia). cbn. eauto.
  - rewrite (srcs_out _ _ [e1] k T1), (srcs_out _ _ [e2] k T2) by lia. cbn [app]. rewrite app_nil_r, <- filter_app.
    now apply (det_app (S lo) mid hi).
Qed.

Lemma shape_refl a : shape a a [].
Proof. split; [now rewrite app_nil_r|]. split; [lia|]. split; [constructor|]. auto using det_nil. Qed.
Lemma shape_trans a b c x y : shape a b x -> shape b c y -> shape a c (x ++ y).
Proof.
  intros (A1 & A2 & A3 & A4) (B1 & B2 & B3 & B4). split; [rewrite B1, A1; now rewrite app_assoc|]. split; [lia|].
  split; [apply srcs_app; eapply srcs_weaken; eauto; lia|]. intros H. destruct (B4 H) as [N1 D1], (A4 N1) as [N2 D2].
  split; auto. eapply det_app; eauto.
Qed.

Lemma shape_assign fbody lhs e next a r a' : tr_assign fbody lhs e next a = Ok (r, a') -> exists es, shape a a' es.
Proof.
  assert (K : forall ds, exists es, shape a (add_edge (mkedge (LStmt (a_nloc a)) None ds) (mkauto (S (a_nloc a)) (a_edges a) (a_nondet a))) es).
  { intros ds. eexists. split; [reflexivity|]. cbn [add_edge a_nloc a_edges a_nondet]. split; [lia|].
    split; [eapply srcs_one; [reflexivity | lia]|]. intros H. split; auto using det_one. }
  intros H. unfold tr_assign in H. cbn [fresh_loc] in H.
  assert (Pl : (let? v := jtr fbody e in Ok (LStmt (a_nloc a), add_edge (mkedge (LStmt (a_nloc a)) None [mkdest None [(lhs, v)] next])
            (mkauto (S (a_nloc a)) (a_edges a) (a_nondet a)))) = Ok (r, a') -> exists es, shape a a' es).
  { destruct (jtr fbody e); try discriminate. cbn [rbind]. intros E. injection E as <- <-. apply K. }
  destruct e; try (exact (Pl H)). destruct (is_dist f); [|exact (Pl H)]. destruct (apply_dist f args); try discriminate. cbn [rbind] in H.
  destruct (mapM _ a0); try discriminate. cbn [rbind] in H. injection H as <- <-. apply K.
Qed.

(** Branching: [x] after the first edge, [y] after the second fragment; nondeterministic or guarded. *)
Lemma shape_branch a x y e1 e2 es1 es2 nd :
  shape (mkauto (S (a_nloc a)) (a_edges a) (nd || a_nondet a)) x es1 -> shape (add_edge e1 x) y es2 ->
  e_src e1 = LStmt (a_nloc a) -> e_src e2 = LStmt (a_nloc a) ->
  (nd = false -> exists g, e_guard e1 = Some g /\ e_guard e2 = Some (JNot g)) ->
  exists es, shape a (add_edge e2 y) es.
Proof.
  intros (A1 & A2 & A3 & A4) (B1 & B2 & B3 & B4) E1 E2 G. cbn [add_edge a_nloc a_edges a_nondet] in *.
  exists (es1 ++ [e1] ++ es2 ++ [e2]). unfold shape. cbn [add_edge a_nloc a_edges a_nondet].
  split; [rewrite B1, A1; now rewrite <- !app_assoc|]. split; [lia|]. split.
  - repeat apply srcs_app; try (eapply srcs_one; eauto; lia); eapply srcs_weaken; eauto; lia.
  - intros H. destruct (B4 H) as [N1 D1], (A4 N1) as [N2 D2]. apply orb_false_iff in N2. destruct N2 as [-> N2]. split; auto.
    destruct (G eq_refl) as (g & G1 & G2). eapply det_two; eauto.
Qed.

Lemma shape_stmt fbody dir st : forall next a r a', tr_stmt fbody dir st next a = Ok (r, a') -> exists es, shape a a' es.
Proof.
  assert (HB : forall b, Forall (fun st => forall next a r a', tr_stmt fbody dir st next a = Ok (r, a') -> exists es, shape a a' es) b ->
    forall next a r a', tr_block fbody dir b next a = Ok (r, a') -> exists es, shape a a' es).
  { induction 1 as [|st0 b Hst Hb IH]; intros next a r a' Ht; cbn [tr_block] in Ht; [injection Ht as <- <-; eauto using shape_refl|].
    destruct (tr_block fbody dir b next a) as [[l a1]| |] eqn:Eb; try discriminate. cbn [rbind] in Ht.
    destruct (IH _ _ _ _ Eb) as [es1 S1], (Hst _ _ _ _ Ht) as [es2 S2]. exists (es1 ++ es2). eapply shape_trans; eauto. }
  induction st using stmt_rect'; intros next a0 r a' Ht; cbn [tr_stmt] in Ht; try discriminate Ht.
  - rewrite tr_block_eq in Ht. eauto.
  - destruct i as [e|]; [|discriminate]. destruct (is_constant e); [injection Ht as <- <-; eauto using shape_refl | eapply shape_assign; eauto].
  - destruct xs as [|x [|? ?]]; try discriminate Ht. eapply shape_assign; eauto.
  - assert (Q : tr_quant_assert fbody next e a0 = Ok (r, a') -> exists es, shape a0 a' es).
    { intros Hq. unfold tr_quant_assert in Hq. cbn [fresh_loc] in Hq.
      destruct (tr_assign fbody reward_var e LErr _) as [[ret a3]| |] eqn:Ea; try discriminate. cbn [rbind] in Hq. injection Hq as <- <-.
      destruct (shape_assign _ _ _ _ _ _ _ Ea) as [es2 S2].
      eapply (shape_branch a0 (mkauto (S (a_nloc a0)) (a_edges a0) (true || a_nondet a0)) a3 _ _ [] es2 true (shape_refl _) S2); try reflexivity. discriminate. }
    assert (B : forall c, tr_bool_assert fbody d next c a0 = Ok (r, a') -> exists es, shape a0 a' es).
    { intros c Hq. unfold tr_bool_assert in Hq. destruct (jtr fbody c) as [c'| |]; try discriminate. cbn [rbind fresh_loc] in Hq. injection Hq as <- <-.
      eapply (shape_branch a0 _ _ (from_to_if (LStmt (a_nloc a0)) next (when_dir d c')) (from_to_if (LStmt (a_nloc a0)) LErr (JNot (when_dir d c'))) [] [] false (shape_refl _) (shape_refl _));
        try reflexivity. intros _. eexists. split; reflexivity. }
    destruct d, dir; try discriminate Ht; destruct (extract_embed e); eauto.
  - destruct (extract_embed e) as [c|]; [|discriminate]. destruct (jtr fbody c) as [c'| |]; try discriminate. cbn [rbind fresh_loc] in Ht.
    destruct (tr_miracle d _) as [mir a3] eqn:Em. injection Ht as <- <-. unfold tr_miracle in Em. cbn [fresh_loc] in Em. injection Em as <- <-.
    eapply (shape_branch a0 (mkauto (S (a_nloc a0)) (a_edges a0) (a_nondet a0)) _ (from_to_if (LStmt (a_nloc a0)) next (when_dir d c')) _ [] _ false (shape_refl _)).
    + split; [reflexivity|]. cbn [add_edge a_nloc a_edges a_nondet]. split; [lia|]. split; [eapply srcs_one; [reflexivity | lia]|].
      intros H. split; auto using det_one.
    + reflexivity.
    + reflexivity.
    + intros _. eexists. split; reflexivity.
  - eapply shape_assign; eauto.
  - destruct dir; [|discriminate]. cbn [fresh_loc] in Ht. rewrite tr_block_eq in Ht.
    destruct (tr_block fbody Down a _ _) as [[l1 a2]| |] eqn:Ea; try discriminate. cbn [rbind] in Ht. rewrite tr_block_eq in Ht.
    destruct (tr_block fbody Down b _ _) as [[l2 a3]| |] eqn:Eb; try discriminate. cbn [rbind] in Ht. injection Ht as <- <-.
    destruct (HB a H _ _ _ _ Ea) as [es1 S1], (HB b H0 _ _ _ _ Eb) as [es2 S2].
    eapply (shape_branch a0 _ _ _ _ es1 es2 true S1 S2); try reflexivity. discriminate.
  - destruct dir; [discriminate|]. cbn [fresh_loc] in Ht. rewrite tr_block_eq in Ht.
    destruct (tr_block fbody Up a _ _) as [[l1 a2]| |] eqn:Ea; try discriminate. cbn [rbind] in Ht. rewrite tr_block_eq in Ht.
    destruct (tr_block fbody Up b _ _) as [[l2 a3]| |] eqn:Eb; try discriminate. cbn [rbind] in Ht. injection Ht as <- <-.
    destruct (HB a H _ _ _ _ Ea) as [es1 S1], (HB b H0 _ _ _ _ Eb) as [es2 S2].
    eapply (shape_branch a0 _ _ _ _ es1 es2 true S1 S2); try reflexivity. discriminate.
  - cbn [fresh_loc] in Ht. destruct (jtr fbody c) as [c'| |]; try discriminate. cbn [rbind] in Ht. rewrite tr_block_eq in Ht.
    destruct (tr_block fbody dir a _ _) as [[l1 a2]| |] eqn:Ea; try discriminate. cbn [rbind] in Ht. rewrite tr_block_eq in Ht.
    destruct (tr_block fbody dir b _ _) as [[l2 a3]| |] eqn:Eb; try discriminate. cbn [rbind] in Ht. injection Ht as <- <-.
    destruct (HB a H _ _ _ _ Ea) as [es1 S1], (HB b H0 _ _ _ _ Eb) as [es2 S2].
    eapply (shape_branch a0 _ _ _ _ es1 es2 false S1 S2); try reflexivity. intros _. eexists. split; reflexivity.
  - cbn [fresh_loc] in Ht. destruct (jtr fbody c) as [c'| |]; try discriminate. cbn [rbind] in Ht. rewrite tr_block_eq in Ht.
    destruct (tr_block fbody dir b _ _) as [[l1 a2]| |] eqn:Ea; try discriminate. cbn [rbind] in Ht. injection Ht as <- <-.
    destruct (HB b H _ _ _ _ Ea) as [es1 S1].
    eapply (shape_branch a0 a2 _ (from_to_if (LStmt (a_nloc a0)) l1 c') (from_to_if (LStmt (a_nloc a0)) next (JNot c')) es1 [] false S1 (shape_refl _)); try reflexivity.
    intros _. eexists. split; reflexivity.
  - eauto.
  - injection Ht as <- <-. eauto using shape_refl.
Qed.
Lemma shape_block fbody dir b : forall next a r a', tr_block fbody dir b next a = Ok (r, a') -> exists es, shape a a' es.
Proof.
  induction b as [|st b IH]; intros next a r a' Ht; cbn [tr_block] in Ht; [injection Ht as <- <-; eauto using shape_refl|].
  destruct (tr_block fbody dir b next a) as [[l a1]| |] eqn:Eb; try discriminate. cbn [rbind] in Ht.
  destruct (IH _ _ _ _ Eb) as [es1 S1], (shape_stmt _ _ _ _ _ _ _ Ht) as [es2 S2]. exists (es1 ++ es2). eapply shape_trans; eauto.
Qed.

Lemma det_enabled J t l : det_list l -> length (filter (guard_on J t) l) <= 1.
Proof.
  destruct l as [|a [|b [|? ?]]]; cbn [det_list]; intros H; try contradiction; cbn [filter length]; [lia | destruct (guard_on J t a); cbn; lia|].
  destruct H as (g & G1 & G2). unfold guard_on. rewrite G1, G2. cbn [jeval]. destruct (jeval J g t) as [[|]| |]; cbn; lia.
Qed.

Theorem dtmc fbody o calc p m : proc_to_model fbody o calc p = Ok m -> m_mdp m = false -> forall J l t, length (enabled J m l t) <= 1.
Proof.
  unfold proc_to_model. destruct (match calc with None => true | Some _ => _ end); [|discriminate]. destruct (encode_proc_verify p) as [[dir block]|]; [|discriminate].
  destruct (extract_pre fbody dir _ block) as [[pre b1]| |]; try discriminate. cbn [rbind].
  destruct (extract_post fbody dir b1) as [[post b2]| |]; try discriminate. cbn [rbind].
  destruct (tr_vars fbody o p _) as [[consts vars]| |]; try discriminate. cbn [rbind].
  destruct (tr_block fbody dir b2 LEnd _) as [[start a]| |] eqn:E; try discriminate. cbn [rbind]. intros H. injection H as <-. cbn [m_mdp]. intros Nd J l t.
  destruct (shape_block _ _ _ _ _ _ _ E) as (es & E1 & _ & E3 & E4). destruct (E4 Nd) as [_ D]. cbn [a_edges app] in E1.
  rewrite enabled_outs. apply det_enabled. unfold outs. cbn [m_edges]. rewrite E1, filter_app.
  destruct l as [k| | |]; [cbn [filter spec_edges]; unfold at_loc; cbn [from_to e_src loc_eqb]; rewrite app_nil_r; apply D| | |].
  all: assert (Z : forall l', (forall k, l' <> LStmt k) -> filter (at_loc l') es = [])
    by (intros l' Hl; clear - E3 Hl; induction E3 as [|e es' (k & Ek & _) H IH]; [reflexivity|]; cbn [filter]; unfold at_loc at 1; rewrite Ek;
        destruct l'; [now elim (Hl n)|..]; exact IH).
  all: rewrite Z by discriminate; exact Logic.I.
Qed.
