(** A verified omega-invariant, and programs for which verified procedures do not prove what the translator claims. *)
From Coq Require Import Bool List String ZArith NArith Reals Lia Lra.
From Verif.Model Require Import Syntax Builder Dist ProofRules Pgcl PgclProc PgclOmega.
From Verif.Spec Require Import Eur Sem Wp Frame Loops PgclSem PgclCost PgclProcSpec.
From Verif.Proofs Require Import EurLemmas SemLemmas WpLemmas FrameProofs LoopProofs PgclProofs PgclSound PgclMore PgclTicks PgclExamples PgclProcProofs PgclOmegaProofs PgclOmegaMain.
Import ListNotations.
Local Open Scope string_scope.
Local Open Scope N_scope.
Local Open Scope list_scope.

Lemma one_not_bot : ~ ele eone ebot.
Proof. intros H. assert (E : eone = ebot) by (apply ele_antisym; [exact H | apply ebot_le]). unfold eone, ebot in E. apply fin_inj in E; lra. Qed.

Definition vn := mkid "n" 0 TUInt.

(** Count down: after [n] iterations, the loop has ended if it started with at most [n]. *)
Definition down_c : expr := EBin TBool OLt (b_uint 0) (EVar vx).
Definition down_b : list pinstr := [PAsgn vx (EBin TUInt OSub (EVar vx) (b_uint 1))].
Definition down_inv : expr := iverson (EBin TBool OLe (EVar vx) (EVar vn)).
Definition down_start : list stmt := [SAssign [vx] (EVar (init_var vx)); SAssign [vn] (EVar (init_var vn))].
Definition down_1 : list stmt := down_start ++ [encode_iter down_c (plains vpc down_b) (pgcl_const (ECast TEUReal (b_uint 0)))].
Definition down_2 : list stmt := down_start ++ [encode_iter down_c (plains vpc down_b) (pgcl_const down_inv)].
Definition down_p1 : expr := to_init (put vn (b_uint 0) down_inv).
Definition down_p2 : expr := to_init (put vn (EBin TUInt OAdd (EVar vn) (b_uint 1)) down_inv).
Lemma down_procs : omega_procs vpc vn CWp [vx] [PWhile down_c down_b] down_inv = Some ((down_p1, down_1), (down_p2, down_2)).
Proof. reflexivity. Qed.
Lemma down_ok : (forall x, x = vpc \/ x = vn \/ In x (map init_var ([vx] ++ [vn])) -> pok is_dist x (PWhile down_c down_b) /\ clean x one) /\
  (forall x y, In x ([vx] ++ [vn]) -> In y ([vx] ++ [vn]) -> x <> init_var y) /\ simple down_inv /\
  (forall x, fv x down_inv -> In x ([vx] ++ [vn])) /\ clean vpc down_inv.
Proof.
  split; [intros x [->|[->|[<-|[<-|[]]]]]; pok_tac|].
  split; [intros x y [<-|[<-|[]]] [<-|[<-|[]]]; discriminate|]. split; [cbn; tauto|].
  split; [|clean_tac]. intros x Hx. cbn in *. intuition.
Qed.
Lemma uint_val x s : env_ok s -> ity x = TUInt -> exists a, s x = VUInt a.
Proof. intros Hs Hx. specialize (Hs x). rewrite Hx in Hs. unfold has_ty in Hs. destruct (s x); try discriminate; eauto. Qed.
Lemma down_sem I e s a m : s (init_var vx) = VUInt a -> s (init_var vn) = VUInt m ->
  wp_block I is_dist Least (down_start ++ [encode_iter down_c (plains vpc down_b) (pgcl_const e)]) (ev I one) s =
  let t := upd (upd s vx (VUInt a)) vn (VUInt m) in
  if N.leb a 0 then eone else ev I e (upd t vx (VUInt (a - 1))).
Proof.
  intros Ea Em.
  assert (E : wp_block I is_dist Least (down_start ++ [encode_iter down_c (plains vpc down_b) (pgcl_const e)]) (ev I one) s =
    wp I is_dist Least (SAssign [vx] (EVar (init_var vx))) (wp I is_dist Least (SAssign [vn] (EVar (init_var vn)))
      (wp_block I is_dist Least [encode_iter down_c (plains vpc down_b) (pgcl_const e)] (ev I one))) s) by reflexivity.
  rewrite E, wp_asgn by exact Logic.I. cbn [eval]. rewrite Ea, wp_asgn by exact Logic.I. cbn [eval]. rewrite upd_other by discriminate. rewrite Em.
  cbv zeta. set (t := upd (upd s vx (VUInt a)) vn (VUInt m)).
  assert (Et : t vx = VUInt a) by (unfold t; rewrite upd_other by discriminate; apply upd_same).
  unfold wp_block at 1. cbn [fold_right]. rewrite wp_iter. unfold Loops.Phi.
  assert (Eh : holds I down_c t = negb (N.leb a 0)) by (unfold holds, down_c; cbn [eval]; rewrite Et; cbn; destruct a; reflexivity).
  rewrite Eh. destruct (N.leb a 0); cbn [negb]; [reflexivity|].
  change (wp I is_dist Least (SAssign [vx] (EBin TUInt OSub (EVar vx) (b_uint 1))) (wp_block I is_dist Least (pgcl_const e) (ev I one)) t =
    ev I e (upd t vx (VUInt (a - 1)))).
  rewrite wp_asgn by exact Logic.I. rewrite const_sem. cbn [eval]. rewrite Et. reflexivity.
Qed.
Lemma inv_val I s a m : s vx = VUInt a -> s vn = VUInt m -> ev I down_inv s = if N.leb a m then eone else ebot.
Proof.
  intros Ea Em. unfold ev, down_inv, iverson. cbn [eval]. rewrite Ea, Em. cbn [eval_bin vle obool]. destruct (N.leb a m); [reflexivity|].
  change (ev I (extreme_lit Down) s = ebot). apply ev_extreme.
Qed.
Lemma down_verified I s : env_ok s ->
  ele (ev I down_p1 s) (wp_block I is_dist Least down_1 (ev I one) s) /\ ele (ev I down_p2 s) (wp_block I is_dist Least down_2 (ev I one) s).
Proof.
  intros Hs. destruct (uint_val (init_var vx) s Hs eq_refl) as [a Ea]. destruct (uint_val (init_var vn) s Hs eq_refl) as [m Em].
  unfold down_1, down_2. rewrite !(down_sem I _ s a m Ea Em). cbv zeta.
  set (t := upd (upd s vx (VUInt a)) vn (VUInt m)).
  assert (P : forall e v, eval I (to_init e) s = VUInt v -> ev I (to_init (put vn e down_inv)) s = if N.leb a v then eone else ebot).
  { intros e v Ev. unfold ev. rewrite (eval_put I vn e down_inv (upd s vx (VUInt a)) s).
    - rewrite Ev. apply (inv_val I); [rewrite upd_other by discriminate; apply upd_same | apply upd_same].
    - cbn; tauto.
    - intros x Hx N. cbn in Hx. destruct Hx as [[Hx|Hx]|[[]|[]]]; subst; [|congruence]. now rewrite upd_same. }
  unfold down_p1, down_p2. rewrite (P (b_uint 0) 0 eq_refl).
  rewrite (P (EBin TUInt OAdd (EVar vn) (b_uint 1)) (m + 1)) by (cbn [to_init eval]; rewrite Em; reflexivity).
  assert (T1 : upd t vx (VUInt (a - 1)) vx = VUInt (a - 1)) by apply upd_same.
  assert (T2 : upd t vx (VUInt (a - 1)) vn = VUInt m) by (rewrite upd_other by discriminate; apply upd_same).
  rewrite (inv_val I _ _ _ T1 T2). split.
  - destruct (N.leb a 0); [apply ele_refl | apply ebot_le].
  - destruct (N.leb_spec a 0); [destruct (N.leb a (m + 1)); [apply ele_refl | apply ebot_le]|].
    destruct (N.leb_spec a (m + 1)); [|apply ebot_le]. destruct (N.leb_spec (a - 1) m); [apply ele_refl | lia].
Qed.

(** The rest of the program is ignored: after the loop, [b] is set to false. *)
Definition rest : list pinstr := [PWhile (b_bool false) [PSkip]; PAsgn vb (b_bool false)].
Definition rest_inv : expr := iverson (EVar vb).
Definition rest_body (e : expr) : list stmt :=
  [SAssign [vb] (EVar (init_var vb)); SAssign [vn] (EVar (init_var vn)); encode_iter (b_bool false) [] (pgcl_const e)].
Lemma rest_procs : omega_procs vpc vn CWp [vb] rest rest_inv =
  Some ((iverson (EVar (init_var vb)), rest_body (ECast TEUReal (b_uint 0))), (iverson (EVar (init_var vb)), rest_body rest_inv)).
Proof. reflexivity. Qed.
Lemma rest_sem I e s : wp_block I is_dist Least (rest_body e) (ev I rest_inv) s = ev I (iverson (EVar (init_var vb))) s.
Proof.
  assert (E : wp_block I is_dist Least (rest_body e) (ev I rest_inv) s =
    wp I is_dist Least (SAssign [vb] (EVar (init_var vb))) (wp I is_dist Least (SAssign [vn] (EVar (init_var vn))) (ev I rest_inv)) s) by reflexivity.
  rewrite E, !wp_asgn by exact Logic.I. unfold ev, rest_inv, iverson. cbn [eval]. rewrite upd_other by discriminate. rewrite upd_same. reflexivity.
Qed.

(** For [wlp] the procedures prove upper bounds, not the lower bound that the comment claims. *)
Definition idle_body (e : expr) : list stmt := [SAssign [vn] (EVar (init_var vn)); encode_iter (b_bool false) [] (pgcl_const e)].
Definition zero : expr := ECast TEUReal (b_uint 0).
Lemma idle_procs : omega_procs vpc vn CWlp [] [PWhile (b_bool false) [PSkip]] one = Some ((one, idle_body one), (one, idle_body one)).
Proof. reflexivity. Qed.
Lemma idle_sem I e s : wp_block I is_dist Greatest (idle_body e) (ev I zero) s = ebot.
Proof.
  assert (E : wp_block I is_dist Greatest (idle_body e) (ev I zero) s = wp I is_dist Greatest (SAssign [vn] (EVar (init_var vn))) (ev I zero) s) by reflexivity.
  rewrite E, wp_asgn by exact Logic.I. exact (ev_extreme I Down _).
Qed.
Lemma idle_wlp I s : env_ok s -> pwps0 I Greatest [PWhile (b_bool false) [PSkip]] (ev I zero) s = ebot.
Proof.
  intros Hs. rewrite <- free_ticks_list.
  pose proof (gfp_postfix (body_map I Greatest (b_bool false) [PSkip] (ev I zero)) (fun X Y _ t _ => ele_refl _) s Hs) as H.
  assert (Z : ev I zero s = ebot) by exact (ev_extreme I Down s).
  change (ele (pwps I Greatest (map remove_ticks [PWhile (b_bool false) [PSkip]]) (ev I zero) s) (ev I zero s)) in H. rewrite Z in H.
  apply ele_antisym; [exact H | apply ebot_le].
Qed.

Theorem rest_refuted : exists I l vars inv post p1 b1 p2 b2 s, interp_ok I /\ env_ok s /\ All (pok is_dist vpc) l /\ All (pok is_dist vn) l /\
  omega_procs vpc vn CWp vars l inv = Some ((p1, b1), (p2, b2)) /\
  (forall s, env_ok s -> ele (ev I p1 s) (wp_block I is_dist Least b1 (ev I post) s)) /\
  (forall s, env_ok s -> ele (ev I p2 s) (wp_block I is_dist Least b2 (ev I post) s)) /\
  ~ ele (ev I inv (upd s vn (VUInt 0))) (pwps0 I Least l (ev I post) s).
Proof.
  exists I1, rest, [vb], rest_inv, rest_inv, (iverson (EVar (init_var vb))), (rest_body (ECast TEUReal (b_uint 0))), (iverson (EVar (init_var vb))), (rest_body rest_inv), s1.
  split; [exact I1_ok|]. split; [exact s1_ok|]. split; [pok_tac|]. split; [pok_tac|]. split; [exact rest_procs|].
  split; [intros s _; rewrite rest_sem; apply ele_refl|]. split; [intros s _; rewrite rest_sem; apply ele_refl|].
  assert (L : ele (pwps0 I1 Least rest (ev I1 rest_inv) s1) ebot).
  { rewrite <- free_ticks_list.
    change (ele (lfp (body_map I1 Least (b_bool false) [PSkip] (fun s => ev I1 rest_inv (upd s vb (VBool false)))) s1) ebot).
    assert (K : exp_le (lfp (body_map I1 Least (b_bool false) [PSkip] (fun s => ev I1 rest_inv (upd s vb (VBool false))))) (fun _ => ebot)).
    { apply lfp_least. intros s Hs. change (ele (ev I1 rest_inv (upd s vb (VBool false))) ebot).
      assert (Z : ev I1 rest_inv (upd s vb (VBool false)) = ev I1 zero s) by (unfold ev, rest_inv, iverson; cbn [eval]; rewrite upd_same; reflexivity).
      rewrite Z. rewrite (ev_extreme I1 Down s : ev I1 zero s = ebot). apply ele_refl. }
    exact (K s1 s1_ok). }
  intros H. pose proof (ele_trans _ _ _ H L) as K. revert K.
  change (ev I1 rest_inv (upd s1 vn (VUInt 0))) with eone. exact one_not_bot.
Qed.
Theorem text_refuted : exists I l inv post p1 b1 p2 b2 s, interp_ok I /\ env_ok s /\ All (pok is_dist vpc) l /\ All (pok is_dist vn) l /\
  omega_procs vpc vn CWlp [] l inv = Some ((p1, b1), (p2, b2)) /\
  (forall s, env_ok s -> dle Up (ev I p1 s) (wp_block I is_dist Greatest b1 (ev I post) s)) /\
  (forall s, env_ok s -> dle Up (ev I p2 s) (wp_block I is_dist Greatest b2 (ev I post) s)) /\
  ~ ele (ev I inv (upd s vn (VUInt 0))) (pwps0 I Greatest l (ev I post) s).
Proof.
  exists I1, [PWhile (b_bool false) [PSkip]], one, zero, one, (idle_body one), one, (idle_body one), s1.
  split; [exact I1_ok|]. split; [exact s1_ok|]. split; [pok_tac|]. split; [pok_tac|]. split; [exact idle_procs|].
  split; [intros s _; rewrite idle_sem; apply ebot_le|]. split; [intros s _; rewrite idle_sem; apply ebot_le|].
  rewrite idle_wlp by exact s1_ok. exact one_not_bot.
Qed.
(** A loop inside the loop makes the translator fail: there is no annotation for it. *)
Theorem omega_nested pc n k vars c b inv : list_sum (map loops b) <> 0%nat -> omega_procs pc n k vars [PWhile c b] inv = None.
Proof.
  intros H. destruct (omega_procs pc n k vars [PWhile c b] inv) as [[[p1 b1] [p2 b2]]|] eqn:E; [|reflexivity].
  destruct (omega_procs_loop _ _ _ _ _ _ _ _ _ _ _ E) as (L & _). exfalso. apply H. destruct (keeps_ticks k); [exact L|]. now rewrite loops_removed_list in L.
Qed.

(** For wlp: one is an upper bound of the probability that counting down ends, or does not. *)
Definition down_3 : list stmt := down_start ++ [encode_iter down_c (plains vpc down_b) (pgcl_const one)].
Lemma down_wlp : omega_procs vpc vn CWlp [vx] [PWhile down_c down_b] one = Some ((one, down_3), (one, down_3)) /\
  (forall s, env_ok s -> dle Up (ev I1 one s) (wp_block I1 is_dist Least down_3 (ev I1 one) s)) /\
  free_of vn (ev I1 one) /\ (forall s, env_ok s -> ele (ev I1 one s) eone) /\
  (forall s, env_ok s -> ele (ev I1 one s) (if holds I1 down_c s then pwps0 I1 Greatest down_b (ev I1 one) s else ev I1 one s)).
Proof.
  split; [reflexivity|]. split.
  - intros s Hs. destruct (uint_val (init_var vx) s Hs eq_refl) as [a Ea]. destruct (uint_val (init_var vn) s Hs eq_refl) as [m Em].
    unfold down_3. rewrite (down_sem I1 _ s a m Ea Em). cbv zeta. destruct (N.leb a 0); apply ele_refl.
  - split; [intros s s' _ _ _; reflexivity|]. split; [intros; apply ele_refl|]. intros s _. destruct (holds I1 down_c s); apply ele_refl.
Qed.

(** There must be exactly one loop among the instructions. *)
Lemma filter_one {A} (f : A -> bool) l a : filter f l = [a] -> exists l1 l2, l = l1 ++ a :: l2 /\ filter f (l1 ++ l2) = [].
Proof.
  induction l as [|x l IH]; cbn [filter]; intros H; [discriminate|]. destruct (f x) eqn:E.
  - injection H as -> H. exists [], l. auto.
  - destruct (IH H) as (l1 & l2 & -> & K). exists (x :: l1), l2. split; [reflexivity|]. cbn. now rewrite E.
Qed.
Theorem one_loop pc n k vars l inv : omega_procs pc n k vars l inv <> None ->
  exists l1 c b l2, l = l1 ++ PWhile c b :: l2 /\ forall c' b', ~ In (PWhile c' b') (l1 ++ l2).
Proof.
  unfold omega_procs, the_loop. intros H. destruct (filter is_loop l) as [|i [|j r]] eqn:E; [congruence | | destruct i; congruence].
  destruct i; try congruence. destruct (filter_one _ _ _ E) as (l1 & l2 & -> & K). exists l1, c, body, l2. split; [reflexivity|].
  intros c' b' Hi. assert (F : In (PWhile c' b') (filter is_loop (l1 ++ l2))) by (apply filter_In; auto). rewrite K in F. exact F.
Qed.
