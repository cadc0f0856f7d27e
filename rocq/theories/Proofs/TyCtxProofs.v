(** Fresh names: termination and freshness. *)
From Coq Require Import Bool List String Ascii NArith Arith Lia DecimalString DecimalN FinFun.
From Verif.Model Require Import Syntax TyCtx.
From Verif.Proofs Require Import SemLemmas DistProofs.
Import ListNotations.

Lemma same_id_iff a b : same_id a b = true <-> iname a = iname b /\ ispan a = ispan b.
Proof. unfold same_id. rewrite andb_true_iff, String.eqb_eq, Nat.eqb_eq. tauto. Qed.
Lemma same_id_refl a : same_id a a = true.
Proof. apply same_id_iff; auto. Qed.
Lemma same_id_sym a b : same_id a b = same_id b a.
Proof. apply eq_true_iff_eq. rewrite !same_id_iff. intuition. Qed.

Definition declared (T : tyctx) (x : ident) : Prop := exists d, In d (decls T) /\ iname (fst d) = iname x /\ ispan (fst d) = ispan x.

Lemma contains_key_iff T x : contains_key T x = true <-> declared T x.
Proof.
  unfold contains_key, declared. rewrite existsb_exists. split; intros (d & H1 & H2); exists d.
  - apply same_id_iff in H2. tauto.
  - rewrite same_id_iff. tauto.
Qed.

Lemma show_inj a b : show a = show b -> a = b.
Proof.
  unfold show. intros H. apply (f_equal NilEmpty.uint_of_string) in H. rewrite !NilEmpty.usu in H.
  assert (E : N.to_uint a = N.to_uint b) by congruence. apply (f_equal N.of_uint) in E.
  now rewrite !DecimalN.Unsigned.of_to in E.
Qed.

Lemma append_inj (a b c : string) : (a ++ b)%string = (a ++ c)%string -> b = c.
Proof. induction a as [|x a IH]; simpl; intros H; [exact H|]. apply IH. congruence. Qed.

Lemma fresh_name_inj x i j : fresh_name x i = fresh_name x j -> i = j.
Proof. unfold fresh_name. intros H. apply append_inj in H. apply (append_inj "_") in H. now apply show_inj. Qed.

(** The counter of [x] after a bump. *)
Fixpoint counter (l : list (ident * N)) (x : ident) : option N :=
  match l with [] => None | (y, n) :: l' => if same_id y x then Some n else counter l' x end.
Lemma bump_spec l x : let (i, l') := bump l x in
  i = match counter l x with Some n => N.succ n | None => 0%N end /\ counter l' x = Some i.
Proof.
  induction l as [|[y n] l IH]; cbn [bump counter].
  - rewrite same_id_refl. auto.
  - destruct (same_id y x) eqn:E.
    + cbn [counter]. rewrite E. auto.
    + destruct (bump l x) as [i l']. cbn [counter]. rewrite E. exact IH.
Qed.

Definition next (T : tyctx) (x : ident) : N := match counter (fresh T) x with Some n => N.succ n | None => 0%N end.

(** Positions in [decls] taken by names made from [x] with index in [lo, lo+k). *)
Lemma taken_bound T x span lo k :
  (forall i, (lo <= i < lo + N.of_nat k)%N -> contains_key T (mkid (fresh_name x i) span (ity x)) = true) ->
  k <= List.length (decls T).
Proof.
  intros H.
  set (names := map (fun i => fresh_name x (lo + N.of_nat i)) (seq 0 k)).
  assert (ND : NoDup names).
  { unfold names. apply FinFun.Injective_map_NoDup; [|apply seq_NoDup].
    intros i j E. apply fresh_name_inj in E. lia. }
  assert (Incl : incl names (map (fun d => iname (fst d)) (decls T))).
  { intros n Hn. unfold names in Hn. apply in_map_iff in Hn. destruct Hn as (i & <- & Hi). apply in_seq in Hi.
    specialize (H (lo + N.of_nat i)%N ltac:(lia)). apply contains_key_iff in H. destruct H as (d & H1 & H2 & _).
    apply in_map_iff. exists d. split; [exact H2 | exact H1]. }
  apply (NoDup_incl_length ND) in Incl. unfold names in Incl. rewrite !map_length, seq_length in Incl. exact Incl.
Qed.

Lemma fresh_loop_ok fuel : forall T x span k,
  List.length (decls T) < fuel + k ->
  (forall i, (next T x - N.of_nat k <= i < next T x)%N -> contains_key T (mkid (fresh_name x i) span (ity x)) = true) ->
  (N.of_nat k <= next T x)%N ->
  exists y T', fresh_loop fuel T x span = Ok (y, T') /\ decls T' = decls T /\ ~ declared T y /\
    ispan y = span /\ ity y = ity x /\ exists i, iname y = fresh_name x i /\ (next T x <= i)%N /\ next T' x = N.succ i.
Proof.
  induction fuel as [|fuel IH]; intros T x span k Hf Ht Hk.
  - exfalso.
    pose proof (taken_bound T x span (next T x - N.of_nat k) k) as B.
    assert (k <= List.length (decls T)); [|lia]. apply B. intros i Hi. apply Ht. lia.
  - cbn [fresh_loop]. pose proof (bump_spec (fresh T) x) as B. destruct (bump (fresh T) x) as [i f].
    destruct B as [B1 B2]. fold (next T x) in B1.
    assert (Nx : next (mktcx (decls T) f) x = N.succ i) by (unfold next; cbn [fresh]; now rewrite B2).
    destruct (contains_key T (mkid (fresh_name x i) span (ity x))) eqn:E.
    + destruct (IH (mktcx (decls T) f) x span (S k)) as (y & T' & E1 & E2 & E3 & E4 & E5 & j & E6 & E7 & E8).
      * cbn [decls]. lia.
      * intros j Hj. rewrite Nx in Hj. destruct (N.eq_dec j i) as [->|Hne]; [exact E|].
        apply Ht. lia.
      * rewrite Nx. lia.
      * exists y, T'. rewrite Nx in E7. repeat split; auto. exists j. repeat split; auto. lia.
    + exists (mkid (fresh_name x i) span (ity x)), (mktcx (decls T) f).
      split; [reflexivity|]. split; [reflexivity|]. split.
      * intros D. apply contains_key_iff in D. congruence.
      * split; [reflexivity|]. split; [reflexivity|]. exists i. repeat split; auto. subst i. lia.
Qed.

Lemma fresh_ident_ok T x span : exists y T', fresh_ident T x span = Ok (y, T') /\ decls T' = decls T /\
  ~ declared T y /\ ispan y = span /\ ity y = ity x /\
  exists i, iname y = fresh_name x i /\ (next T x <= i)%N /\ next T' x = N.succ i.
Proof. apply (fresh_loop_ok _ T x span 0); cbn; lia. Qed.

Lemma get_declared T x : get T x <> None <-> declared T x.
Proof.
  unfold get. destruct (find _ _) as [d|] eqn:E.
  - split; [|discriminate]. intros _. apply find_some in E. destruct E as [E1 E2]. apply same_id_iff in E2. exists d. tauto.
  - split; [congruence|]. intros (d & H1 & H2). pose proof (find_none _ _ E _ H1) as H. cbn in H.
    assert (same_id (fst d) x = true) by (apply same_id_iff; tauto). congruence.
Qed.

Lemma clone_var_ok T x span : get T x = Some true ->
  exists y T', clone_var T x span = Ok (y, T') /\ decls T' = (y, true) :: decls T /\ ~ declared T y /\
  ispan y = span /\ ity y = ity x.
Proof.
  intros G. destruct (fresh_ident_ok T x span) as (y & T1 & E1 & E2 & E3 & E4 & E5 & _).
  unfold clone_var. rewrite E1. cbn [rbind].
  assert (G1 : get T1 x = Some true) by (unfold get in *; now rewrite E2). rewrite G1.
  unfold declare. assert (C : contains_key T1 y = false).
  { apply not_true_is_false. intros C. apply contains_key_iff in C. apply E3. unfold declared in *. now rewrite E2 in C. }
  rewrite C. cbn [rbind]. eexists _, _. split; [reflexivity|]. cbn [decls]. rewrite E2. auto.
Qed.

(** * Histories of symbol-table operations *)
Inductive tcx_op := OpDeclare (x : ident) (v : bool) | OpUndeclare (x : ident) | OpClone (x : ident) (span : nat)
                  | OpFresh (x : ident) (span : nat).
Definition tcx_step (T : tyctx) (o : tcx_op) : res tyctx :=
  match o with
  | OpDeclare x v => declare T x v
  | OpUndeclare x => undeclare T x
  | OpClone x sp => let? (_, T') := clone_var T x sp in Ok T'
  | OpFresh x sp => let? (_, T') := fresh_ident T x sp in Ok T'
  end.
Fixpoint tcx_run (T : tyctx) (os : list tcx_op) : res tyctx :=
  match os with [] => Ok T | o :: os' => let? T' := tcx_step T o in tcx_run T' os' end.

Definition key (x : ident) : string * nat := (iname x, ispan x).
Definition unique_decls (T : tyctx) : Prop := NoDup (map (fun d => key (fst d)) (decls T)).

Lemma declared_key T x : declared T x <-> In (key x) (map (fun d => key (fst d)) (decls T)).
Proof.
  unfold declared. rewrite in_map_iff. split; intros (d & H).
  - exists d. unfold key. destruct H as (H1 & H2 & H3). rewrite H2, H3. auto.
  - exists d. destruct H as [H1 H2]. unfold key in H1. inversion H1. auto.
Qed.

Lemma declare_unique T x v T' : unique_decls T -> declare T x v = Ok T' -> unique_decls T'.
Proof.
  unfold declare. intros U H. destruct (contains_key T x) eqn:E; [discriminate|]. inversion H; subst T'.
  unfold unique_decls. cbn [decls map fst]. constructor; [|exact U].
  rewrite <- declared_key, <- contains_key_iff. congruence.
Qed.

Lemma NoDup_map_filter {A B} (f : A -> B) (p : A -> bool) l : NoDup (map f l) -> NoDup (map f (filter p l)).
Proof.
  induction l as [|a l IH]; simpl; intros H; [constructor|]. inversion H as [|? ? H1 H2]; subst.
  destruct (p a); simpl; auto. constructor; auto. intros Hin. apply H1.
  apply in_map_iff in Hin. destruct Hin as (b & E & Hb). apply filter_In in Hb. apply in_map_iff. exists b. tauto.
Qed.

Lemma tcx_step_unique T o T' : unique_decls T -> tcx_step T o = Ok T' -> unique_decls T'.
Proof.
  intros U H. destruct o as [x v|x|x sp|x sp]; cbn [tcx_step] in H.
  - eapply declare_unique; eauto.
  - unfold undeclare in H. destruct (contains_key T x); [|discriminate]. inversion H; subst T'.
    unfold unique_decls. cbn [decls]. now apply NoDup_map_filter.
  - apply rbind_ok in H. destruct H as ([y T1] & E & H). inversion H; subst T1.
    unfold clone_var in E. apply rbind_ok in E. destruct E as ([y' T1] & E1 & E).
    destruct (fresh_ident_ok T x sp) as (y2 & T2 & F1 & F2 & _). rewrite F1 in E1. inversion E1; subst y' T1.
    destruct (get T2 x) as [[]|]; try discriminate. apply rbind_ok in E. destruct E as (T3 & E3 & E). inversion E; subst.
    eapply declare_unique; [|exact E3]. unfold unique_decls. now rewrite F2.
  - destruct (fresh_ident_ok T x sp) as (y2 & T2 & F1 & F2 & _). rewrite F1 in H. cbn in H. inversion H; subst T'.
    unfold unique_decls. now rewrite F2.
Qed.

Theorem tcx_run_unique os : forall T T', unique_decls T -> tcx_run T os = Ok T' -> unique_decls T'.
Proof.
  induction os as [|o os IH]; cbn [tcx_run]; intros T T' U H; [inversion H; subst; exact U|].
  apply rbind_ok in H. destruct H as (T1 & E & H). eapply IH; [|exact H]. eapply tcx_step_unique; eauto.
Qed.

(** Two requests for the same base name never return the same name, declared or not. *)
Lemma next_decls_irrel T T' x : fresh T = fresh T' -> next T x = next T' x.
Proof. unfold next. now intros ->. Qed.

Lemma fresh_twice T x sp sp' y z T1 T2 :
  fresh_ident T x sp = Ok (y, T1) -> fresh_ident T1 x sp' = Ok (z, T2) -> iname y <> iname z.
Proof.
  intros H1 H2.
  destruct (fresh_ident_ok T x sp) as (y' & T1' & E1 & _ & _ & _ & _ & i & E6 & E7 & E8). rewrite H1 in E1. inversion E1; subst y' T1'.
  destruct (fresh_ident_ok T1 x sp') as (z' & T2' & F1 & _ & _ & _ & _ & j & F6 & F7 & F8). rewrite H2 in F1. inversion F1; subst z' T2'.
  rewrite E6, F6. intros E. apply fresh_name_inj in E. lia.
Qed.

(** Without declaring in between, two different base identifiers can get the same name. *)
Lemma fresh_collision : exists T x x' sp y T1 z T2, x <> x' /\
  fresh_ident T x sp = Ok (y, T1) /\ fresh_ident T1 x' sp = Ok (z, T2) /\ y = z.
Proof.
  exists empty_tcx, (mkid "x" 0 TBool), (mkid "x" 1 TBool), 7. eexists _, _, _, _.
  split; [discriminate|]. split; [reflexivity|]. split; reflexivity.
Qed.
