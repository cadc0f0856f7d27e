(** The automaton of a statement computes the statement's pre-expectation. *)
From Coq Require Import Bool List ZArith NArith QArith Reals Lia Lra.
From Verif.Model Require Import Syntax Lits Builder Dist Jani.
From Verif.Spec Require Import Eur Sem Wp JaniSem.
From Verif.Proofs Require Import EurLemmas SemLemmas WpLemmas DistProofs VcGenProofs MonoProofs JaniExpr JaniStep JaniStates.
Import ListNotations.
Local Open Scope nat_scope.

(** Declarations with literals do nothing in the automaton. *)
Fixpoint strip (st : stmt) : stmt :=
  match st with
  | SSeq b => SSeq (map strip b)
  | SVar x (Some e) => if is_constant e then SSeq [] else st
  | SDemonic a b => SDemonic (map strip a) (map strip b)
  | SAngelic a b => SAngelic (map strip a) (map strip b)
  | SAdditive a b => SAdditive (map strip a) (map strip b)
  | SIf c a b => SIf c (map strip a) (map strip b)
  | SWhile c b => SWhile c (map strip b)
  | SAnn n args s => SAnn n args (strip s)
  | _ => st
  end.

Lemma loc_eqb_eq a b : loc_eqb a b = true <-> a = b.
Proof.
  destruct a, b; cbn [loc_eqb]; split; intros H; try discriminate H; auto.
  - apply Nat.eqb_eq in H. now subst.
  - injection H as ->. apply Nat.eqb_refl.
Qed.
Lemma loc_eqb_refl a : loc_eqb a a = true. Proof. now apply loc_eqb_eq. Qed.

Lemma emin_comm a b : emin a b = emin b a.
Proof. apply ele_antisym; apply emin_glb; auto using emin_l, emin_r. Qed.
Lemma emax_comm a b : emax a b = emax b a.
Proof. apply ele_antisym; apply emax_lub; auto using emax_l, emax_r. Qed.

Section Frag.
  Context (ids : list ident) (fbody : String.string -> option (list ty * ty)) (isf : String.string -> bool).
  Context (I : interp) (J : jint) (HI : interp_ok I) (HJ : same_interp fbody I J).
  Context (Hn : NoDup (map iname ids)) (Hr : ~ In reward_var (map iname ids)) (Fi : forall x, In x ids -> ity x <> TEUReal).
  Context (m : jmodel) (base : env) (Hb : env_ok base).
  Notation conc := (jstate_of ids).
  Notation jok := (jok ids).
  Notation abs := (abs ids base).

  (** * Sources of edges *)
  Definition at_loc (l : loc) (e : edge) : bool := loc_eqb (e_src e) l.
  Definition outs (l : loc) : list edge := filter (at_loc l) (m_edges m).
  Definition guard_on (t : jstate) (e : edge) : bool :=
    match e_guard e with None => true | Some g => match jeval J g t with JB b => b | _ => false end end.
  Lemma enabled_outs l t : enabled J m l t = filter (guard_on t) (outs l).
  Proof.
    unfold enabled, outs. induction (m_edges m) as [|e es IH]; [reflexivity|]. cbn [filter]. unfold at_loc at 1.
    destruct (loc_eqb (e_src e) l); cbn [andb filter]; [|exact IH]. change (match e_guard e with None => true | Some g => _ end) with (guard_on t e).
    now rewrite IH.
  Qed.

  Definition srcs (lo hi : nat) (es : list edge) : Prop := Forall (fun e => exists k, e_src e = LStmt k /\ lo <= k < hi) es.
  Definition owns (lo hi : nat) (es : list edge) : Prop := forall k, lo <= k < hi -> outs (LStmt k) = filter (at_loc (LStmt k)) es.

  Lemma srcs_out lo hi es k : srcs lo hi es -> k < lo \/ hi <= k -> filter (at_loc (LStmt k)) es = [].
  Proof.
    intros H Hk. induction H as [|e es (j & Ej & Hj) H IH]; [reflexivity|]. cbn [filter]. unfold at_loc at 1. rewrite Ej. cbn [loc_eqb].
    destruct (Nat.eqb_spec j k); [lia | exact IH].
  Qed.
  Lemma srcs_weaken lo hi lo' hi' es : srcs lo hi es -> lo' <= lo -> hi <= hi' -> srcs lo' hi' es.
  Proof. intros H H1 H2. eapply Forall_impl; [|exact H]. intros e (k & E & K). exists k. split; auto. lia. Qed.
  Lemma srcs_app lo hi a b : srcs lo hi a -> srcs lo hi b -> srcs lo hi (a ++ b).
  Proof. intros. apply Forall_app. now split. Qed.
  Lemma srcs_one lo hi k e : e_src e = LStmt k -> lo <= k < hi -> srcs lo hi [e].
  Proof. intros H K. repeat constructor. eauto. Qed.
  Lemma filter_one k e : e_src e = LStmt k -> filter (at_loc (LStmt k)) [e] = [e].
  Proof. intros H. cbn [filter]. unfold at_loc. now rewrite H, loc_eqb_refl. Qed.

  (** * Fragments *)
  Definition lower (F : exp -> exp) (next start : loc) (lo hi : nat) : Prop :=
    forall V : jvalf, (forall k, lo <= k < hi -> forall t, ele (bellman J m V (LStmt k) t) (V (LStmt k) t)) ->
    (forall t, V LErr t = ebot) ->
    forall s, env_ok s -> ele (F (fun s => V next (conc s)) s) (V start (conc s)).
  Definition upper (F : exp -> exp) (next start : loc) (lo hi : nat) : Prop :=
    forall X : exp, exists W : nat -> exp, forall V : jvalf,
    (forall k, lo <= k < hi -> forall t, jok t -> V (LStmt k) t = W k (abs t)) ->
    (forall t, jok t -> V next t = X (abs t)) -> (forall t, V LErr t = ebot) ->
    (forall k, lo <= k < hi -> forall t, jok t -> ele (bellman J m V (LStmt k) t) (V (LStmt k) t)) /\
    (forall t, jok t -> V start t = F X (abs t)).
  Definition frag (F : exp -> exp) (next start : loc) (lo hi : nat) (es : list edge) : Prop :=
    lo <= hi /\ srcs lo hi es /\ mono F /\ (owns lo hi es -> lower F next start lo hi /\ upper F next start lo hi).

  (** Pairs of states of the program and of the model. *)
  Definition sim (R : env -> jstate -> Prop) : Prop :=
    forall s t, R s t -> env_ok s /\ rep ids s t /\
      forall x v, In x ids -> has_ty v (ity x) -> R (upd s x v) (jupd t (iname x) (jv v)).
  Lemma sim_conc : sim (fun s t => env_ok s /\ t = conc s).
  Proof.
    intros s t [Hs ->]. split; [auto|]. split; [now apply conc_rep|]. intros x v Hx Hv. split; [now apply upd_ok|]. now rewrite conc_upd.
  Qed.
  Lemma sim_abs : sim (fun s t => jok t /\ s = abs t).
  Proof.
    intros s t [Ht ->]. split; [now apply abs_ok|]. split; [now apply abs_rep|]. intros x v Hx Hv.
    split; [now apply jok_upd|]. symmetry. now apply abs_upd.
  Qed.

  Ltac frag_split := split; [|split; [|split; [|intros H; split]]].

  Lemma frag_id next lo : frag (fun X => X) next next lo lo [].
  Proof.
    frag_split; try (constructor; fail).
    - intros X Y H. exact H.
    - intros V _ _ s _. apply ele_refl.
    - intros X. exists (fun _ => X). intros V _ HX _. split; [intros; lia | exact HX].
  Qed.
  Lemma frag_err next lo : frag (fun _ _ => ebot) next LErr lo lo [].
  Proof.
    frag_split; try (constructor; fail).
    - intros X Y H s Hs. apply ele_refl.
    - intros V _ _ s _. apply ebot_le.
    - intros X. exists (fun _ => X). intros V _ _ HE. split; [intros; lia | auto].
  Qed.

  Lemma frag_seq F1 F2 next l start lo mid hi es1 es2 : frag F2 next l lo mid es1 -> frag F1 l start mid hi es2 ->
    frag (fun X => F1 (F2 X)) next start lo hi (es1 ++ es2).
  Proof.
    intros (A1 & A2 & A3 & A4) (B1 & B2 & B3 & B4). frag_split.
    - lia.
    - apply srcs_app; eapply srcs_weaken; eauto; lia.
    - intros X Y H. apply B3, A3, H.
    - rename H into Ho. assert (O1 : owns lo mid es1).
      { intros k Hk. rewrite Ho, filter_app, (srcs_out _ _ es2 k B2) by lia. now rewrite app_nil_r. }
      assert (O2 : owns mid hi es2). { intros k Hk. rewrite Ho, filter_app, (srcs_out _ _ es1 k A2) by lia. reflexivity. }
      destruct (A4 O1) as [L1 _], (B4 O2) as [L2 _]. intros V HV HE s Hs.
      apply ele_trans with (F1 (fun s => V l (conc s)) s).
      + apply B3; auto. intros s' Hs'. apply L1; auto. intros k Hk. apply HV. lia.
      + apply L2; auto. intros k Hk. apply HV. lia.
    - rename H into Ho. assert (O1 : owns lo mid es1).
      { intros k Hk. rewrite Ho, filter_app, (srcs_out _ _ es2 k B2) by lia. now rewrite app_nil_r. }
      assert (O2 : owns mid hi es2). { intros k Hk. rewrite Ho, filter_app, (srcs_out _ _ es1 k A2) by lia. reflexivity. }
      destruct (A4 O1) as [_ U1], (B4 O2) as [_ U2]. intros X.
      destruct (U1 X) as [W1 H1], (U2 (F2 X)) as [W2 H2]. exists (fun k => if k <? mid then W1 k else W2 k). intros V HV HX HE.
      destruct (H1 V) as [P1 Q1]; auto.
      { intros k Hk t Ht. rewrite HV by (auto; lia). destruct (Nat.ltb_spec k mid); auto. lia. }
      destruct (H2 V) as [P2 Q2]; auto.
      { intros k Hk t Ht. rewrite HV by (auto; lia). destruct (Nat.ltb_spec k mid); auto. lia. }
      split; auto. intros k Hk t Ht. destruct (Nat.lt_ge_cases k mid); [apply P1 | apply P2]; auto; lia.
  Qed.

  Lemma frag_leaf F next k e : e_src e = LStmt k -> mono F ->
    (outs (LStmt k) = [e] -> forall R, sim R -> forall (V : jvalf) (X : exp), (forall s t, R s t -> V next t = X s) -> (forall t, V LErr t = ebot) ->
       forall s t, R s t -> bellman J m V (LStmt k) t = F X s) ->
    frag F next (LStmt k) k (S k) [e].
  Proof.
    intros He Mo HB. frag_split; auto.
    - apply srcs_one with k; auto.
    - intros V HV HE s Hs. rewrite <- (HB ltac:(rewrite H by lia; now apply filter_one) _ sim_conc V (fun s => V next (conc s)) ltac:(intros ? ? [? ->]; reflexivity) HE s (conc s)) by auto.
      apply HV. lia.
    - intros X. exists (fun _ => F X). intros V HV HX HE. split; [|intros t Ht; apply HV; auto].
      intros k' Hk t Ht. assert (k' = k) as -> by lia.
      rewrite (HB ltac:(rewrite H by lia; now apply filter_one) _ sim_abs V X ltac:(intros s0 t0 [H0 ->]; auto) HE (abs t) t), HV by auto.
      apply ele_refl.
  Qed.

  Definition op_mono (op : env -> eur -> eur -> eur) : Prop :=
    forall s a b a' b', ele a a' -> ele b b' -> ele (op s a b) (op s a' b').

  Lemma frag_branch F1 F2 op next l1 l2 lo mid hi es1 es2 e1 e2 :
    frag F1 next l1 (S lo) mid es1 -> frag F2 next l2 mid hi es2 -> e_src e1 = LStmt lo -> e_src e2 = LStmt lo -> op_mono op ->
    (outs (LStmt lo) = [e1; e2] -> forall R, sim R -> forall V : jvalf, (forall t, V LErr t = ebot) ->
       forall s t, R s t -> bellman J m V (LStmt lo) t = op s (V l1 t) (V l2 t)) ->
    frag (fun X s => op s (F1 X s) (F2 X s)) next (LStmt lo) lo hi (es1 ++ [e1] ++ es2 ++ [e2]).
  Proof.
    intros (A1 & A2 & A3 & A4) (B1 & B2 & B3 & B4) E1 E2 Op HB.
    assert (OO : owns lo hi (es1 ++ [e1] ++ es2 ++ [e2]) -> owns (S lo) mid es1 /\ owns mid hi es2 /\ outs (LStmt lo) = [e1; e2]).
    { intros Ho. assert (S1 : srcs lo (S lo) [e1]) by (apply srcs_one with lo; auto).
      assert (S2 : srcs lo (S lo) [e2]) by (apply srcs_one with lo; auto). repeat split.
      - intros k Hk. rewrite Ho, !filter_app, (srcs_out _ _ es2 k B2), (srcs_out _ _ [e1] k S1), (srcs_out _ _ [e2] k S2) by lia. now rewrite !app_nil_r.
      - intros k Hk. rewrite Ho, !filter_app, (srcs_out _ _ es1 k A2), (srcs_out _ _ [e1] k S1), (srcs_out _ _ [e2] k S2) by lia. cbn [app]. now rewrite !app_nil_r.
      - rewrite Ho, !filter_app, (srcs_out _ _ es1 lo A2), (srcs_out _ _ es2 lo B2), !filter_one by (auto; lia). reflexivity. }
    frag_split.
    - lia.
    - repeat apply srcs_app; try (eapply srcs_one; eauto; lia); eapply srcs_weaken; eauto; lia.
    - intros X Y H s Hs. apply Op; [apply A3 | apply B3]; auto.
    - destruct (OO H) as (O1 & O2 & O3). destruct (A4 O1) as [L1 _], (B4 O2) as [L2 _]. intros V HV HE s Hs.
      apply ele_trans with (bellman J m V (LStmt lo) (conc s)); [|apply HV; lia].
      rewrite (HB O3 _ sim_conc V HE s (conc s)) by auto. apply Op; [apply L1 | apply L2]; auto; intros k Hk; apply HV; lia.
    - destruct (OO H) as (O1 & O2 & O3). destruct (A4 O1) as [_ U1], (B4 O2) as [_ U2]. intros X.
      destruct (U1 X) as [W1 H1], (U2 X) as [W2 H2].
      exists (fun k => if k =? lo then fun s => op s (F1 X s) (F2 X s) else if k <? mid then W1 k else W2 k). intros V HV HX HE.
      destruct (H1 V) as [P1 Q1]; auto.
      { intros k Hk t Ht. rewrite HV by (auto; lia). destruct (Nat.eqb_spec k lo); [lia|]. destruct (Nat.ltb_spec k mid); auto. lia. }
      destruct (H2 V) as [P2 Q2]; auto.
      { intros k Hk t Ht. rewrite HV by (auto; lia). destruct (Nat.eqb_spec k lo); [lia|]. destruct (Nat.ltb_spec k mid); auto. lia. }
      assert (Lo : forall t, jok t -> V (LStmt lo) t = op (abs t) (F1 X (abs t)) (F2 X (abs t))).
      { intros t Ht. rewrite HV by (auto; lia). now rewrite Nat.eqb_refl. }
      split; [|exact Lo]. intros k Hk t Ht. destruct (Nat.eq_dec k lo) as [->|Nk].
      + rewrite (HB O3 _ sim_abs V HE (abs t) t), Lo, Q1, Q2 by auto. apply ele_refl.
      + destruct (Nat.lt_ge_cases k mid); [apply P1 | apply P2]; auto; lia.
  Qed.

  Lemma frag_loop (F1 : exp -> exp) (g : env -> bool) next l1 lo hi es e1 e2 :
    frag F1 (LStmt lo) l1 (S lo) hi es -> e_src e1 = LStmt lo -> e_src e2 = LStmt lo ->
    (outs (LStmt lo) = [e1; e2] -> forall R, sim R -> forall V : jvalf, (forall t, V LErr t = ebot) ->
       forall s t, R s t -> bellman J m V (LStmt lo) t = if g s then V l1 t else V next t) ->
    frag (fun X => lfp (fun Y s => if g s then F1 Y s else X s)) next (LStmt lo) lo hi (es ++ [e1; e2]).
  Proof.
    intros (A1 & A2 & A3 & A4) E1 E2 HB.
    assert (Mo : forall X, mono (fun Y s => if g s then F1 Y s else X s)).
    { intros X Y Z H s Hs. destruct (g s); [apply A3; auto | apply ele_refl]. }
    assert (OO : owns lo hi (es ++ [e1; e2]) -> owns (S lo) hi es /\ outs (LStmt lo) = [e1; e2]).
    { intros Ho. assert (S1 : srcs lo (S lo) [e1; e2]) by (change [e1; e2] with ([e1] ++ [e2]); apply srcs_app; apply srcs_one with lo; auto). split.
      - intros k Hk. rewrite Ho, !filter_app, (srcs_out _ _ [e1; e2] k S1) by lia. now rewrite !app_nil_r.
      - rewrite Ho, !filter_app, (srcs_out _ _ es lo A2) by (auto; lia). cbn [app filter]. unfold at_loc. now rewrite E1, E2, loc_eqb_refl. }
    frag_split.
    - lia.
    - apply srcs_app; [eapply srcs_weaken; eauto; lia|]. change [e1; e2] with ([e1] ++ [e2]). apply srcs_app; eapply srcs_one; eauto; lia.
    - intros X Y H. apply lfp_mono. intros Z s Hs. destruct (g s); [apply ele_refl | auto].
    - destruct (OO H) as (O1 & O3). destruct (A4 O1) as [L1 _]. intros V HV HE.
      assert (K : exp_le (lfp (fun Y s => if g s then F1 Y s else V next (conc s))) (fun s => V (LStmt lo) (conc s))); [|exact K].
      apply lfp_least. intros s Hs.
      apply ele_trans with (bellman J m V (LStmt lo) (conc s)); [|apply HV; lia].
      rewrite (HB O3 _ sim_conc V HE s (conc s)) by auto. destruct (g s); [|apply ele_refl]. apply L1; auto. intros k Hk. apply HV. lia.
    - destruct (OO H) as (O1 & O3). destruct (A4 O1) as [_ U1]. intros X. set (L := lfp (fun Y s => if g s then F1 Y s else X s)).
      destruct (U1 L) as [W1 H1]. exists (fun k => if k =? lo then L else W1 k). intros V HV HX HE.
      assert (Lo : forall t, jok t -> V (LStmt lo) t = L (abs t)).
      { intros t Ht. rewrite HV by (auto; lia). now rewrite Nat.eqb_refl. }
      destruct (H1 V) as [P1 Q1]; auto.
      { intros k Hk t Ht. rewrite HV by (auto; lia). destruct (Nat.eqb_spec k lo); [lia|]. auto. }
      split; [|exact Lo]. intros k Hk t Ht. destruct (Nat.eq_dec k lo) as [->|Nk]; [|apply P1; auto; lia].
      rewrite (HB O3 _ sim_abs V HE (abs t) t), Lo, Q1, HX by auto. apply (lfp_prefix _ (Mo X) (abs t)). now apply abs_ok.
  Qed.

  (** * One step *)
  Lemma bellman_stmt V k t : bellman J m V (LStmt k) t = best_of (m_dir m) (map (edge_val J V t) (filter (guard_on t) (outs (LStmt k)))).
  Proof. unfold bellman. rewrite enabled_outs. cbn [exit_reward]. apply eadd_0_l. Qed.
  Lemma goto_val V t l : fold_right (fun d r => eadd (dest_val J V t d) r) ebot [goto l] = V l t.
  Proof. cbn [fold_right]. unfold dest_val. cbn [goto d_prob d_asg d_loc asg_reward asg_state fold_right]. now rewrite eadd_0_r, emul_1_l, eadd_0_l. Qed.
  Lemma bellman_if V k l1 l2 g t b : outs (LStmt k) = [from_to_if (LStmt k) l1 g; from_to_if (LStmt k) l2 (JNot g)] -> jeval J g t = JB b ->
    bellman J m V (LStmt k) t = if b then V l1 t else V l2 t.
  Proof.
    intros Ho Eg. rewrite bellman_stmt, Ho. cbn [filter]. unfold guard_on. cbn [from_to_if e_guard jeval]. rewrite Eg.
    destruct b; cbn [negb map best_of fold_right]; unfold edge_val; cbn [e_dests]; apply goto_val.
  Qed.
  Lemma bellman_choice V k l1 l2 t : outs (LStmt k) = [from_to (LStmt k) l1; from_to (LStmt k) l2] ->
    bellman J m V (LStmt k) t = best (m_dir m) (V l1 t) (V l2 t).
  Proof.
    intros Ho. rewrite bellman_stmt, Ho. cbn [filter]. unfold guard_on. cbn [from_to e_guard map best_of fold_right].
    unfold edge_val. cbn [from_to e_dests]. rewrite !goto_val. destruct (m_dir m); cbn [best]; [apply emin_comm | apply emax_comm].
  Qed.

  Lemma guard_sound c c' s t : is_guard c -> jexp_ok ids fbody c = true -> jtr fbody c = Ok c' -> env_ok s -> rep ids s t ->
    jeval J c' t = JB (holds I c s).
  Proof.
    intros [W Ty] Hj Ht Hs Hrep. destruct (jtr_sound ids fbody I J HI HJ c W Hj Fi c' Ht s t Hs Hrep) as [E _].
    rewrite E, (holds_spec I c s) by (auto; now split). reflexivity.
  Qed.
  Lemma exp_sound e e' s t : is_exp e -> jexp_ok ids fbody e = true -> jtr fbody e = Ok e' -> env_ok s -> rep ids s t ->
    jnum (jeval J e' t) = ev I e s.
  Proof.
    intros [W Ty] Hj Ht Hs Hrep. destruct (jtr_sound ids fbody I J HI HJ e W Hj Fi e' Ht s t Hs Hrep) as [E Fe].
    rewrite E. rewrite (ev_spec I e s HI (conj W Ty) Hs) in Fe |- *. destruct (ev I e s) as [x|]; [|now elim Fe].
    cbn [jv jnum]. symmetry. apply Fin_fin.
  Qed.

  (** * Assignments *)
  Lemma tr_plain lhs rhs next a : jexp_ok ids fbody rhs = true ->
    tr_assign fbody lhs rhs next a = let? v := jtr fbody rhs in
      Ok (LStmt (a_nloc a), add_edge (mkedge (LStmt (a_nloc a)) None [mkdest None [(lhs, v)] next]) (mkauto (S (a_nloc a)) (a_edges a) (a_nondet a))).
  Proof.
    intros H. unfold tr_assign. cbn [fresh_loc]. destruct rhs; try reflexivity. cbn [jexp_ok] in H.
    destruct (fbody f) as [[ts t']|]; [|discriminate]. destruct (is_dist f); [|reflexivity].
    rewrite andb_false_r in H. cbn [andb] in H. discriminate.
  Qed.

  Lemma not_reward x : In x ids -> String.eqb (iname x) reward_var = false.
  Proof. intros Hx. destruct (String.eqb_spec (iname x) reward_var) as [E|]; auto. elim Hr. rewrite <- E. now apply in_map. Qed.

  Lemma bellman_one V k ds t : outs (LStmt k) = [mkedge (LStmt k) None ds] ->
    bellman J m V (LStmt k) t = fold_right (fun d r => eadd (dest_val J V t d) r) ebot ds.
  Proof. intros Ho. rewrite bellman_stmt, Ho. reflexivity. Qed.

  Lemma frag_assign x e next a start a' : In x ids -> jrhs_ok ids fbody e -> assign_ok is_dist isf x e ->
    tr_assign fbody (iname x) e next a = Ok (start, a') ->
    exists es, a_edges a' = a_edges a ++ es /\ frag (assign_sem I is_dist [x] e) next start (a_nloc a) (a_nloc a') es.
  Proof.
    intros Hx Hj Ha Ht. pose proof (assign_mono I is_dist isf x e) as Mo.
    assert (MoF : mono (assign_sem I is_dist [x] e)) by (intros X Y H; now apply Mo).
    assert (Plain : jexp_ok ids fbody e = true -> wt e = true -> ty_of e = ity x ->
              (forall X s, assign_sem I is_dist [x] e X s = X (upd s x (eval I e s))) ->
              exists es, a_edges a' = a_edges a ++ es /\ frag (assign_sem I is_dist [x] e) next start (a_nloc a) (a_nloc a') es).
    { intros Hj' W Ty Sem. rewrite tr_plain in Ht by auto. destruct (jtr fbody e) as [v| |] eqn:Ev; try discriminate. cbn [rbind] in Ht.
      injection Ht as <- <-. cbn [add_edge a_edges a_nloc]. eexists. split; [reflexivity|]. apply frag_leaf; [reflexivity|auto|].
      intros Ho R HR V X HX HE s t Hst. rewrite (bellman_one V _ _ t Ho). cbn [fold_right]. unfold dest_val.
      cbn [d_prob d_asg d_loc asg_reward asg_state fold_right fst snd]. rewrite not_reward by auto. rewrite eadd_0_r, emul_1_l, eadd_0_l, Sem.
      destruct (HR s t Hst) as (Hs & Hrep & HU). destruct (jtr_sound ids fbody I J HI HJ e W Hj' Fi v Ev s t Hs Hrep) as [E _].
      rewrite E. apply HX. apply HU; auto. rewrite <- Ty. now apply eval_ty. }
    destruct e as [y|t0 f args|t0 c a0 b|t0 op a0 b|t0 op a0|t0 a0|op xs a0|y b a0|t0 l]; try (destruct Ha as [W Ty]; apply Plain; auto; fail).
    unfold assign_ok in Ha. unfold jrhs_ok in Hj. destruct (is_dist f) eqn:Df.
    - clear Plain. apply in_range_correct in Ha. destruct Ha as (d & Ed & Nd & Wd & Sd). unfold tr_assign in Ht. rewrite Df, Ed in Ht. cbn [fresh_loc rbind] in Ht.
      destruct (mapM _ d) as [ds| |] eqn:Em; try discriminate. cbn [rbind] in Ht. injection Ht as <- <-. cbn [add_edge a_edges a_nloc].
      eexists. split; [reflexivity|]. apply frag_leaf; [reflexivity|auto|].
      intros Ho R HR V X HX HE s t Hst. rewrite (bellman_one V _ _ t Ho). destruct (HR s t Hst) as (Hs & Hrep & HU).
      unfold assign_sem. rewrite Df, (Sd I s HI Hs). pose proof (apply_dist_exprs ids fbody f args Hj d Ed) as Ok'.
      apply mapM_spec in Em. clear Ed Nd Sd Ho. unfold dist_wt in Wd. revert Wd Ok'. induction Em as [|[p v] dd d ds Hd Em IH]; intros Wd Ok'; [reflexivity|].
      inversion Wd as [|? ? (Wp & Wv & Tv) Wd']; subst. inversion Ok' as [|? ? [Op Ov] Ok'']; subst. cbn [fst snd] in *.
      destruct (jtr fbody p) as [p'| |] eqn:Ep; try discriminate. destruct (jtr fbody v) as [v'| |] eqn:Ev; try discriminate. injection Hd as <-.
      cbn [fold_right den map expected fst snd]. rewrite IH by auto. f_equal. unfold dest_val.
      cbn [d_prob d_asg d_loc asg_reward asg_state fold_right fst snd]. rewrite not_reward by auto. rewrite eadd_0_l.
      rewrite (exp_sound p p' s t) by auto. f_equal. destruct (jtr_sound ids fbody I J HI HJ v Wv Ov Fi v' Ev s t Hs Hrep) as [E _].
      rewrite E. apply HX. apply HU; auto. rewrite <- Tv. now apply eval_ty.
    - destruct Ha as (_ & W & Ty). apply Plain; auto. intros X s. unfold assign_sem. now rewrite Df.
  Qed.

  Lemma frag_reward e next a start a' : is_exp e -> jexp_ok ids fbody e = true ->
    tr_assign fbody reward_var e next a = Ok (start, a') ->
    exists es, a_edges a' = a_edges a ++ es /\ frag (fun X s => eadd (X s) (ev I e s)) next start (a_nloc a) (a_nloc a') es.
  Proof.
    intros He Hj Ht. rewrite tr_plain in Ht by auto. destruct (jtr fbody e) as [v| |] eqn:Ev; try discriminate. cbn [rbind] in Ht.
    injection Ht as <- <-. cbn [add_edge a_edges a_nloc]. eexists. split; [reflexivity|]. apply frag_leaf; [reflexivity| |].
    { intros X Y H s Hs. apply eadd_mono; auto using ele_refl. }
    intros Ho R HR V X HX HE s t Hst. rewrite (bellman_one V _ _ t Ho). cbn [fold_right]. unfold dest_val.
    cbn [d_prob d_asg d_loc asg_reward asg_state fold_right fst snd]. rewrite String.eqb_refl, eadd_0_r, emul_1_l.
    destruct (HR s t Hst) as (Hs & Hrep & _). rewrite (exp_sound e v s t) by auto. rewrite (HX s t Hst). apply eadd_comm.
  Qed.
  (** Into the error location, where nothing follows. *)
  Lemma frag_return e next a start a' : is_exp e -> jexp_ok ids fbody e = true ->
    tr_assign fbody reward_var e LErr a = Ok (start, a') ->
    exists es, a_edges a' = a_edges a ++ es /\ frag (fun _ => ev I e) next start (a_nloc a) (a_nloc a') es.
  Proof.
    intros He Hj Ht. rewrite tr_plain in Ht by auto. destruct (jtr fbody e) as [v| |] eqn:Ev; try discriminate. cbn [rbind] in Ht.
    injection Ht as <- <-. cbn [add_edge a_edges a_nloc]. eexists. split; [reflexivity|]. apply frag_leaf; [reflexivity| |].
    { intros X Y H s Hs. apply ele_refl. }
    intros Ho R HR V X HX HE s t Hst. rewrite (bellman_one V _ _ t Ho). cbn [fold_right]. unfold dest_val.
    cbn [d_prob d_asg d_loc asg_reward asg_state fold_right fst snd]. rewrite String.eqb_refl, eadd_0_r, emul_1_l.
    destruct (HR s t Hst) as (Hs & Hrep & _). rewrite (exp_sound e v s t), HE by auto. apply eadd_0_r.
  Qed.

  Lemma frag_miracle d next a start a' : tr_miracle d a = (start, a') ->
    exists es, a_edges a' = a_edges a ++ es /\ frag (fun _ _ => match d with Down => etop | Up => ebot end) next start (a_nloc a) (a_nloc a') es.
  Proof.
    unfold tr_miracle. cbn [fresh_loc]. intros Ht. injection Ht as <- <-. cbn [add_edge a_edges a_nloc]. eexists. split; [reflexivity|].
    assert (B : forall V t, outs (LStmt (a_nloc a)) = [mkedge (LStmt (a_nloc a)) None [mkdest None (match d with Down => [(reward_var, JNum 1)] | Up => [] end) (LStmt (a_nloc a))]] ->
      bellman J m V (LStmt (a_nloc a)) t = match d with Down => eadd eone (V (LStmt (a_nloc a)) t) | Up => V (LStmt (a_nloc a)) t end).
    { intros V t Ho. rewrite (bellman_one V _ _ t Ho). cbn [fold_right]. unfold dest_val. cbn [d_prob d_asg d_loc]. rewrite eadd_0_r, emul_1_l.
      destruct d; cbn [asg_reward asg_state fold_right fst snd]; [rewrite String.eqb_refl; reflexivity | apply eadd_0_l]. }
    frag_split; auto.
    - eapply srcs_one; [reflexivity | lia].
    - intros X Y H s Hs. apply ele_refl.
    - intros V HV HE s Hs. specialize (HV (a_nloc a) ltac:(lia) (conc s)). rewrite B in HV by (rewrite H by lia; now apply filter_one).
      destruct d; [|apply ebot_le]. destruct (eur_cases (V (LStmt (a_nloc a)) (conc s))) as [(r & Hr0 & E)|E]; rewrite E in *; [|apply ele_refl].
      exfalso. change eone with (fin 1) in HV. rewrite eadd_fin in HV by lra. apply (proj1 (ele_fin (1 + r) r ltac:(lra) ltac:(lra))) in HV. lra.
    - intros X. exists (fun _ _ => match d with Down => etop | Up => ebot end). intros V HV HX HE. split; [|intros t Ht; apply HV; auto].
      intros k Hk t Ht. assert (k = a_nloc a) as -> by lia. rewrite B by (rewrite H by lia; now apply filter_one). rewrite HV by auto.
      destruct d; [apply ele_top | apply ele_refl].
  Qed.

  Lemma when_dir_sound d c c' s t : is_guard c -> jexp_ok ids fbody c = true -> jtr fbody c = Ok c' -> env_ok s -> rep ids s t ->
    jeval J (when_dir d c') t = JB (match d with Down => holds I c s | Up => negb (holds I c s) end).
  Proof. intros. destruct d; cbn [when_dir jeval]; rewrite (guard_sound c c' s t) by auto; reflexivity. Qed.

  Lemma frag_ext (F G : exp -> exp) next start lo hi es : (forall X s, env_ok s -> F X s = G X s) -> frag F next start lo hi es -> frag G next start lo hi es.
  Proof.
    intros E (A1 & A2 & A3 & A4). frag_split; auto.
    - intros X Y H s Hs. rewrite <- !E by auto. apply A3; auto.
    - destruct (A4 H) as [L _]. intros V HV HE s Hs. rewrite <- E by auto. apply L; auto.
    - destruct (A4 H) as [_ U]. intros X. destruct (U X) as [W HW]. exists W. intros V H1 H2 H3. destruct (HW V H1 H2 H3) as [P Q]. split; auto.
      intros t Ht. rewrite <- E by now apply abs_ok. auto.
  Qed.

  Definition stmt_frag (dir : direction) (st : stmt) : Prop :=
    wts is_dist isf st -> every (jstmt_ok ids fbody) st -> forall next a start a', tr_stmt fbody dir st next a = Ok (start, a') ->
    exists es, a_edges a' = a_edges a ++ es /\ frag (wp I is_dist Least (strip st)) next start (a_nloc a) (a_nloc a') es.

  Lemma block_frag dir b : Forall (stmt_frag dir) b -> All (wts is_dist isf) b -> All (every (jstmt_ok ids fbody)) b ->
    forall next a start a', tr_block fbody dir b next a = Ok (start, a') ->
    exists es, a_edges a' = a_edges a ++ es /\ frag (wp_block I is_dist Least (map strip b)) next start (a_nloc a) (a_nloc a') es.
  Proof.
    induction 1 as [|st b Hst HBl IH]; intros Hw Hj next a start a' Ht; cbn [tr_block] in Ht.
    - injection Ht as <- <-. exists []. split; [now rewrite app_nil_r | apply frag_id].
    - destruct Hw as [W1 W2], Hj as [J1 J2]. destruct (tr_block fbody dir b next a) as [[l a1]| |] eqn:Eb; try discriminate. cbn [rbind] in Ht.
      destruct (IH W2 J2 _ _ _ _ Eb) as (es1 & E1 & F1). destruct (Hst W1 J1 _ _ _ _ Ht) as (es2 & E2 & F2).
      exists (es1 ++ es2). split; [rewrite E2, E1; now rewrite app_assoc|].
      exact (frag_seq _ _ _ _ _ _ _ _ _ _ F1 F2).
  Qed.
  Lemma tr_block_eq dir b : forall next a,
    (fix block (b : list stmt) (next : loc) (a : auto) {struct b} : res (loc * auto) :=
      match b with
      | [] => Ok (next, a)
      | s :: b' => let? (l, a1) := block b' next a in tr_stmt fbody dir s l a1
      end) b next a = tr_block fbody dir b next a.
  Proof. induction b as [|s b IH]; intros next a; [reflexivity|]. cbn [tr_block]. now rewrite <- IH. Qed.

  Context (dir : direction) (Hdir : m_dir m = dir).

  Lemma frag_choice F1 F2 next a l1 l2 a2 a3 es1 es2 :
    a_edges a2 = a_edges a ++ es1 -> frag F1 next l1 (S (a_nloc a)) (a_nloc a2) es1 ->
    a_edges a3 = (a_edges a2 ++ [from_to (LStmt (a_nloc a)) l1]) ++ es2 -> frag F2 next l2 (a_nloc a2) (a_nloc a3) es2 ->
    exists es, a_edges (add_edge (from_to (LStmt (a_nloc a)) l2) a3) = a_edges a ++ es /\
      frag (fun X s => best dir (F1 X s) (F2 X s)) next (LStmt (a_nloc a)) (a_nloc a) (a_nloc a3) es.
  Proof.
    intros E1 H1 E2 H2. eexists. split; cycle 1.
    - refine (frag_branch F1 F2 (fun _ => best dir) next l1 l2 _ _ _ _ _ (from_to (LStmt (a_nloc a)) l1) (from_to (LStmt (a_nloc a)) l2) H1 H2 eq_refl eq_refl _ _).
      + intros s x y x' y'. apply best_mono.
      + intros Ho R HR V HE s t Hst. rewrite <- Hdir. now apply bellman_choice.
    - cbn [add_edge a_edges]. rewrite E2, E1. now rewrite <- !app_assoc.
  Qed.
  Lemma frag_cond F1 F2 (g : env -> bool) gj next a l1 l2 a2 a3 es1 es2 :
    (forall s t, env_ok s -> rep ids s t -> jeval J gj t = JB (g s)) ->
    a_edges a2 = a_edges a ++ es1 -> frag F1 next l1 (S (a_nloc a)) (a_nloc a2) es1 ->
    a_edges a3 = (a_edges a2 ++ [from_to_if (LStmt (a_nloc a)) l1 gj]) ++ es2 -> frag F2 next l2 (a_nloc a2) (a_nloc a3) es2 ->
    exists es, a_edges (add_edge (from_to_if (LStmt (a_nloc a)) l2 (JNot gj)) a3) = a_edges a ++ es /\
      frag (fun X s => if g s then F1 X s else F2 X s) next (LStmt (a_nloc a)) (a_nloc a) (a_nloc a3) es.
  Proof.
    intros Hg E1 H1 E2 H2. eexists. split; cycle 1.
    - refine (frag_branch F1 F2 (fun s x y => if g s then x else y) next l1 l2 _ _ _ _ _ (from_to_if (LStmt (a_nloc a)) l1 gj) (from_to_if (LStmt (a_nloc a)) l2 (JNot gj)) H1 H2 eq_refl eq_refl _ _).
      + intros s x y x' y' Hx Hy. destruct (g s); auto.
      + intros Ho R HR V HE s t Hst. apply bellman_if with gj; auto. destruct (HR s t Hst) as (Hs & Hrep & _). auto.
    - cbn [add_edge a_edges]. rewrite E2, E1. now rewrite <- !app_assoc.
  Qed.

  Theorem frag_stmt st : stmt_frag dir st.
  Proof.
    induction st using stmt_rect'; unfold stmt_frag; cbn [wts every jstmt_ok strip]; intros Hw Hj next a0 start a' Ht; cbn [tr_stmt] in Ht; try discriminate Ht.
    - (* SSeq *) rewrite tr_block_eq in Ht. exact (block_frag dir b H Hw (proj2 Hj) _ _ _ _ Ht).
    - (* SVar *) destruct i as [e|]; [|discriminate]. destruct Hj as [[Hx Hj] _]. destruct (is_constant e) eqn:Ec.
      + injection Ht as <- <-. exists []. split; [now rewrite app_nil_r|]. apply frag_id.
      + exact (frag_assign x e next a0 start a' Hx Hj Hw Ht).
    - (* SAssign *) destruct xs as [|x [|? ?]]; try discriminate Ht. destruct Hj as [[Hx Hj] _].
      exact (frag_assign x e next a0 start a' (Hx x (or_introl eq_refl)) Hj Hw Ht).
    - (* SAssert *) destruct Hj as [[Hj Hup] _]. unfold jspec_ok in Hj.
      assert (Q : jexp_ok ids fbody e = true -> tr_quant_assert fbody next e a0 = Ok (start, a') -> d = dir ->
                  exists es, a_edges a' = a_edges a0 ++ es /\ frag (wp I is_dist Least (SAssert d e)) next start (a_nloc a0) (a_nloc a') es).
      { intros Hj' Hq Hd. unfold tr_quant_assert in Hq. cbn [fresh_loc] in Hq.
        destruct (tr_assign fbody reward_var e LErr _) as [[ret a3]| |] eqn:Ea; try discriminate. cbn [rbind] in Hq. injection Hq as <- <-.
        destruct (frag_return e next _ _ _ Hw Hj' Ea) as (es & E & Fr). cbn [add_edge set_nondet a_edges a_nloc] in E, Fr.
        destruct (frag_choice _ _ next a0 next ret (mkauto (S (a_nloc a0)) (a_edges a0) true) a3 [] es (eq_sym (app_nil_r _)) (frag_id next _) E Fr) as (es' & E' & F').
        exists es'. split; [exact E'|]. revert F'. apply frag_ext. intros X s Hs. rewrite <- Hd. destruct d; cbn [best wp]; [apply emin_comm | apply emax_comm]. }
      destruct (extract_embed e) as [c|] eqn:Ee.
      + destruct d; [|specialize (Hup eq_refl); congruence]. destruct dir; try discriminate Ht. unfold tr_bool_assert in Ht.
        destruct (jtr fbody c) as [c'| |] eqn:Ec; try discriminate Ht. cbn [rbind fresh_loc] in Ht. injection Ht as <- <-.
        destruct (extract_embed_sound e c Hw Ee) as [Gc Sc].
        destruct (frag_cond (fun X => X) (fun _ _ => ebot) (holds I c) c' next a0 next LErr (mkauto (S (a_nloc a0)) (a_edges a0) (a_nondet a0))
          (add_edge (from_to_if (LStmt (a_nloc a0)) next c') (mkauto (S (a_nloc a0)) (a_edges a0) (a_nondet a0))) [] []) as (es & E & Fr);
          auto using frag_id, frag_err.
        { intros s t Hs Hrep. now apply guard_sound. }
        { now rewrite app_nil_r. }
        { cbn [add_edge a_edges]. now rewrite app_nil_r. }
        exists es. split; [exact E|]. revert Fr. apply frag_ext. intros X s Hs. cbn [wp]. rewrite Sc by auto. destruct (holds I c s); cbn [etruth].
        * apply ele_antisym; [apply emin_glb; auto using ele_top, ele_refl | apply emin_r].
        * apply ele_antisym; [apply ebot_le | apply emin_l].
      + destruct d, dir; try discriminate Ht; apply Q; auto.
    - (* SAssume *) destruct Hj as [Hj _]. unfold jspec_ok in Hj. destruct (extract_embed e) as [c|] eqn:Ee; [|discriminate].
      destruct (jtr fbody c) as [c'| |] eqn:Ec; try discriminate Ht. cbn [rbind fresh_loc] in Ht.
      destruct (tr_miracle d _) as [mir a3] eqn:Em. injection Ht as <- <-. destruct (extract_embed_sound e c Hw Ee) as [Gc Sc].
      destruct (frag_miracle d next _ _ _ Em) as (es & E & Fr). cbn [add_edge a_edges a_nloc] in E, Fr.
      destruct (frag_cond (fun X => X) _ (fun s => match d with Down => holds I c s | Up => negb (holds I c s) end) (when_dir d c') next a0 next mir
        (mkauto (S (a_nloc a0)) (a_edges a0) (a_nondet a0)) a3 [] es ltac:(intros s t Hs Hrep; now apply when_dir_sound)
        (eq_sym (app_nil_r _)) (frag_id next _) E Fr) as (es' & E' & F').
      exists es'. split; [exact E'|]. revert F'. apply frag_ext. intros X s Hs. cbn [wp]. rewrite Sc by auto.
      destruct d; destruct (holds I c s); cbn [etruth assume_sem negb].
      + destruct (eleb etop (X s)) eqn:El; auto. apply (proj1 (eleb_iff _ _)) in El. now apply top_le.
      + now rewrite (proj2 (eleb_iff _ _) (ebot_le _)).
      + now rewrite (proj2 (eleb_iff _ _) (ele_top _)).
      + destruct (eleb (X s) ebot) eqn:El; auto. apply (proj1 (eleb_iff _ _)) in El. now apply le_ebot.
    - (* STick *) exact (frag_reward e next a0 start a' Hw (proj1 Hj) Ht).
    - (* SDemonic *) destruct dir eqn:Ed; [|discriminate]. cbn [fresh_loc set_nondet] in Ht. rewrite tr_block_eq in Ht.
      destruct Hw as [W1 W2], Hj as (_ & J1 & J2).
      destruct (tr_block fbody Down a next _) as [[l1 a2]| |] eqn:Ea; try discriminate. cbn [rbind] in Ht.
      rewrite tr_block_eq in Ht. destruct (tr_block fbody Down b next _) as [[l2 a3]| |] eqn:Eb; try discriminate. cbn [rbind] in Ht. injection Ht as <- <-.
      destruct (block_frag _ a H W1 J1 _ _ _ _ Ea) as (es1 & E1 & F1). destruct (block_frag _ b H0 W2 J2 _ _ _ _ Eb) as (es2 & E2 & F2).
      cbn [add_edge a_edges a_nloc] in E1, F1, E2, F2. rewrite <- Ed in *. destruct (frag_choice _ _ next a0 l1 l2 a2 a3 es1 es2 E1 F1 E2 F2) as (es & E & Fr).
      exists es. split; [exact E|]. rewrite Ed in Fr. exact Fr.
    - (* SAngelic *) destruct dir eqn:Ed; [discriminate|]. cbn [fresh_loc set_nondet] in Ht. rewrite tr_block_eq in Ht.
      destruct Hw as [W1 W2], Hj as (_ & J1 & J2).
      destruct (tr_block fbody Up a next _) as [[l1 a2]| |] eqn:Ea; try discriminate. cbn [rbind] in Ht.
      rewrite tr_block_eq in Ht. destruct (tr_block fbody Up b next _) as [[l2 a3]| |] eqn:Eb; try discriminate. cbn [rbind] in Ht. injection Ht as <- <-.
      destruct (block_frag _ a H W1 J1 _ _ _ _ Ea) as (es1 & E1 & F1). destruct (block_frag _ b H0 W2 J2 _ _ _ _ Eb) as (es2 & E2 & F2).
      cbn [add_edge a_edges a_nloc] in E1, F1, E2, F2. rewrite <- Ed in *. destruct (frag_choice _ _ next a0 l1 l2 a2 a3 es1 es2 E1 F1 E2 F2) as (es & E & Fr).
      exists es. split; [exact E|]. rewrite Ed in Fr. exact Fr.
    - (* SIf *) cbn [fresh_loc] in Ht. destruct Hw as (Gc & W1 & W2), Hj as (Jc & J1 & J2).
      destruct (jtr fbody c) as [c'| |] eqn:Ec; try discriminate. cbn [rbind] in Ht. rewrite tr_block_eq in Ht.
      destruct (tr_block fbody dir a next _) as [[l1 a2]| |] eqn:Ea; try discriminate. cbn [rbind] in Ht.
      rewrite tr_block_eq in Ht. destruct (tr_block fbody dir b next _) as [[l2 a3]| |] eqn:Eb; try discriminate. cbn [rbind] in Ht. injection Ht as <- <-.
      destruct (block_frag _ a H W1 J1 _ _ _ _ Ea) as (es1 & E1 & F1). destruct (block_frag _ b H0 W2 J2 _ _ _ _ Eb) as (es2 & E2 & F2).
      cbn [add_edge a_edges a_nloc] in E1, F1, E2, F2.
      destruct (frag_cond _ _ (holds I c) c' next a0 l1 l2 a2 a3 es1 es2 ltac:(intros s t Hs Hrep; now apply guard_sound) E1 F1 E2 F2) as (es & E & Fr).
      exists es. split; [exact E | exact Fr].
    - (* SWhile *) cbn [fresh_loc] in Ht. destruct Hw as (Gc & W1), Hj as (Jc & J1).
      destruct (jtr fbody c) as [c'| |] eqn:Ec; try discriminate. cbn [rbind] in Ht. rewrite tr_block_eq in Ht.
      destruct (tr_block fbody dir b _ _) as [[l1 a2]| |] eqn:Ea; try discriminate. cbn [rbind] in Ht. injection Ht as <- <-.
      destruct (block_frag _ b H W1 J1 _ _ _ _ Ea) as (es1 & E1 & F1). cbn [add_edge a_edges a_nloc] in E1, F1 |- *.
      eexists. split; cycle 1.
      + refine (frag_loop _ (holds I c) next l1 _ _ es1 (from_to_if (LStmt (a_nloc a0)) l1 c') (from_to_if (LStmt (a_nloc a0)) next (JNot c')) F1 eq_refl eq_refl _).
        intros Ho R HR V HE s t Hst. destruct (HR s t Hst) as (Hs & Hrep & _). apply bellman_if with c'; auto. now apply guard_sound.
      + rewrite E1. now rewrite <- !app_assoc.
    - (* SAnn *) exact (IHst Hw (proj2 Hj) _ _ _ _ Ht).
    - (* SLabel *) injection Ht as <- <-. exists []. split; [now rewrite app_nil_r|]. apply frag_id.
  Qed.

  Theorem frag_block b : All (wts is_dist isf) b -> All (every (jstmt_ok ids fbody)) b ->
    forall next a start a', tr_block fbody dir b next a = Ok (start, a') ->
    exists es, a_edges a' = a_edges a ++ es /\ frag (wp_block I is_dist Least (map strip b)) next start (a_nloc a) (a_nloc a') es.
  Proof. apply block_frag. induction b; constructor; auto using frag_stmt. Qed.
End Frag.
