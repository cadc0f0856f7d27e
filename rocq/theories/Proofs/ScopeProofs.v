(** The scoped map and name resolution. *)
From Coq Require Import Bool List String Lia.
From Verif.Model Require Import Syntax TyCtx ScopeMap Resolve.
From Verif.Spec Require Import Scoping.
From Verif.Proofs Require Import SimLemmas.
Import ListNotations.
Local Open Scope string_scope.
Local Open Scope list_scope.

Section Map.
Context {K V : Type} (eqb : K -> K -> bool) (eqb_iff : forall a b, eqb a b = true <-> a = b).
Let Geq a : eqb a a = true. Proof. now apply eqb_iff. Qed.

Lemma im_get_insert {A} k k' (a : A) m : im_get eqb k' (im_insert eqb k a m) = if eqb k' k then Some a else im_get eqb k' m.
Proof.
  induction m as [|[j b] m IH]; cbn.
  - now destruct (eqb k' k).
  - destruct (eqb k j) eqn:E; cbn.
    + apply eqb_iff in E. subst. now destruct (eqb k' j).
    + destruct (eqb k' j) eqn:E'; auto. destruct (eqb k' k) eqn:E''; auto.
      apply eqb_iff in E', E''. subst. rewrite Geq in E. discriminate.
Qed.
Lemma im_insert_keys {A} k (a : A) m : map fst (im_insert eqb k a m) = map fst m \/ (~ In k (map fst m) /\ map fst (im_insert eqb k a m) = map fst m ++ [k]).
Proof.
  induction m as [|[j b] m IH]; cbn; [now right; auto|]. destruct (eqb k j) eqn:E; cbn; [now left|].
  destruct IH as [->|[H ->]]; [now left|]. right. split; auto. intros [->|?]; [rewrite Geq in E; discriminate | auto].
Qed.
Lemma im_insert_keys_in {A} k (a : A) m : In k (map fst m) -> map fst (im_insert eqb k a m) = map fst m.
Proof. intros H. destruct (im_insert_keys k a m) as [->|[N _]]; [reflexivity | contradiction]. Qed.
Lemma im_insert_keys_new {A} k (a : A) m : ~ In k (map fst m) -> map fst (im_insert eqb k a m) = map fst m ++ [k].
Proof.
  intros H. induction m as [|[j b] m IH]; cbn in *; auto. destruct (eqb k j) eqn:E; cbn.
  - apply eqb_iff in E. subst. tauto.
  - rewrite IH; auto.
Qed.

Notation smap := (smap K V).
Theorem get_put k (e : entry V) (m m' : smap) prev : sm_put eqb k e m = Ok (m', prev) ->
  forall k', sm_get eqb k' m' = if eqb k' k then value_of (Some e) else sm_get eqb k' m.
Proof.
  destruct m as [|l m]; [discriminate|]. cbn. intros H k'. injection H as <- <-. cbn. rewrite im_get_insert.
  now destruct (eqb k' k).
Qed.
Theorem get_push k (m : smap) : sm_get eqb k (fst (sm_push m)) = sm_get eqb k m.
Proof. reflexivity. Qed.

(** Sequences of operations between a push and the matching pop. *)
Inductive sop := OPut (k : K) (e : entry V) | OBlock (ops : list sop).
Fixpoint run (o : sop) (m : smap) : res smap :=
  match o with
  | OPut k e => let? (m', _) := sm_put eqb k e m in Ok m'
  | OBlock ops =>
      let (m1, parent) := sm_push m in
      let? m2 := (fix go l m := match l with [] => Ok m | o :: l' => let? m' := run o m in go l' m' end) ops m1 in
      sm_pop m2 parent
  end.
Fixpoint runs (l : list sop) (m : smap) : res smap := match l with [] => Ok m | o :: l' => let? m' := run o m in runs l' m' end.
Lemma runs_eq ops : forall m, (fix go l (m : smap) := match l with [] => Ok m | o :: l' => let? m' := run o m in go l' m' end) ops m = runs ops m.
Proof. induction ops as [|o ops IH]; intros m; cbn; auto. Qed.
Definition sop_rect' (P : sop -> Prop) (HP : forall k e, P (OPut k e)) (HB : forall ops, Forall P ops -> P (OBlock ops)) : forall o, P o :=
  fix go o := match o with
              | OPut k e => HP k e
              | OBlock ops => HB ops ((fix gl l : Forall P l := match l with [] => Forall_nil _ | o :: l' => Forall_cons _ (go o) (gl l') end) ops)
              end.
Lemma pop_ok (l l' : level K V) m : sm_pop (l :: l' :: m) (S (List.length (l' :: m))) = Ok (l' :: m).
Proof. unfold sm_pop. cbn [List.length]. now rewrite PeanoNat.Nat.eqb_refl. Qed.
Lemma run_levels : forall o l (m : smap), exists l', run o (l :: m) = Ok (l' :: m).
Proof.
  intros o. induction o as [k e|ops IH] using sop_rect'; intros l m.
  - cbn. eauto.
  - cbn [run sm_push]. rewrite runs_eq. exists l.
    assert (HB : forall l1, exists l', runs ops (l1 :: l :: m) = Ok (l' :: l :: m)).
    { induction IH as [|o ops Ho Hl IHl]; intros l1; cbn [runs]; [eauto|]. destruct (Ho l1 (l :: m)) as [l2 ->]. cbn. apply IHl. }
    destruct (HB []) as [l' E]. exact (eq_trans (f_equal (fun x => rbind x (fun m2 => sm_pop m2 (S (List.length (l :: m))))) E) (pop_ok l' l m)).
Qed.
(** Whatever happens in a scope, leaving it restores the map exactly. *)
Theorem scope_restores ops (m : smap) : m <> [] -> run (OBlock ops) m = Ok m.
Proof.
  destruct m as [|l m]; [congruence|]. intros _. cbn [run sm_push]. rewrite runs_eq.
  assert (HB : forall l1, exists l', runs ops (l1 :: l :: m) = Ok (l' :: l :: m)).
  { induction ops as [|o ops IHl]; intros l1; cbn [runs]; [eauto|]. destruct (run_levels o l1 (l :: m)) as [l2 ->]. cbn. apply IHl. }
  destruct (HB []) as [l' E]. exact (eq_trans (f_equal (fun x => rbind x (fun m2 => sm_pop m2 (S (List.length (l :: m))))) E) (pop_ok l' l m)).
Qed.
(** A pop without matching push is refused. *)
Theorem pop_mismatch (m : smap) p : (p <> List.length m \/ List.length m <= 1) -> exists msg, sm_pop m p = Panic msg.
Proof.
  unfold sm_pop. destruct (PeanoNat.Nat.eqb_spec p (List.length m)) as [->|]; [|eauto]. intros [?|H]; [congruence|].
  destruct m as [|l [|]]; cbn in *; eauto. lia.
Qed.
(** Looking up with a filter: the innermost entry that passes. *)
Theorem find_map_value k (m : smap) : (forall l, In l m -> im_get eqb k l <> Some Deleted) ->
  sm_find_map eqb k (fun e => value_of (Some e)) m = sm_get eqb k m.
Proof.
  induction m as [|l m IH]; cbn; intros H; auto. destruct (im_get eqb k l) as [[v|]|] eqn:E.
  - reflexivity.
  - exfalso. apply (H l); auto.
  - apply IH. intros l' Hl. apply H. now right.
Qed.
(** Iteration lists the values of the innermost scope, each key once, in the order of first use. *)
Definition level_ok (l : level K V) := NoDup (map fst l).
Theorem local_iter_spec (l : level K V) (m : smap) r : level_ok l -> sm_local_iter (l :: m) = Ok r ->
  NoDup (map fst r) /\ (forall k v, In (k, v) r <-> value_of (im_get eqb k l) = Some v) /\
  exists ks, map fst r = filter ks (map fst l).
Proof.
  intros N H. injection H as <-. unfold level_ok in N. induction l as [|[k0 e0] l IH]; cbn in *.
  - split; [constructor|]. split; [intros; split; [tauto | discriminate]|]. exists (fun _ => true). reflexivity.
  - inversion N as [|? ? N1 N2]; subst. destruct (IH N2) as (I1 & I2 & ks & I3).
    assert (NI : forall v, ~ In (k0, v) (flat_map (fun p : K * entry V => match snd p with Value v => [(fst p, v)] | Deleted => [] end) l)).
    { intros v Hv. apply N1. apply in_flat_map in Hv as [[k1 e1] [P1 P2]]. destruct e1; cbn in P2; [|tauto].
      destruct P2 as [P2|[]]. injection P2 as <- <-. apply in_map_iff. exists (k1, Value v0). auto. }
    assert (IF : ~ In k0 (map fst (flat_map (fun p : K * entry V => match snd p with Value v => [(fst p, v)] | Deleted => [] end) l))).
    { intros Hk. apply in_map_iff in Hk as [[k1 v1] [P1 P2]]. cbn in P1. subst. now apply (NI v1). }
    split; [|split].
    + destruct e0; cbn; auto. constructor; auto.
    + intros k v. destruct e0 as [v0|]; cbn.
      * destruct (eqb k k0) eqn:E.
        -- apply eqb_iff in E. subst. cbn. split; [intros [P|P]; [congruence | exfalso; now apply (NI v)] | left; congruence].
        -- split; [intros [P|P]; [injection P as -> ->; rewrite Geq in E; discriminate | now apply I2] | right; now apply I2].
      * destruct (eqb k k0) eqn:E.
        -- apply eqb_iff in E. subst. cbn. split; [intros P; exfalso; now apply (NI v) | discriminate].
        -- apply I2.
    + exists (fun k => if eqb k k0 then match e0 with Value _ => true | Deleted => false end else ks k). rewrite Geq.
      assert (F : filter (fun k => if eqb k k0 then match e0 with Value _ => true | Deleted => false end else ks k) (map fst l) = filter ks (map fst l)).
      { apply filter_ext_in. intros k Hk. destruct (eqb k k0) eqn:E; auto. apply eqb_iff in E. subst. contradiction. }
      rewrite F, <- I3. destruct e0; reflexivity.
Qed.
Theorem put_level_ok k e (l : level K V) : level_ok l -> level_ok (im_insert eqb k e l).
Proof.
  unfold level_ok. intros N. destruct (im_insert_keys k e l) as [->|[H ->]]; auto. clear - N H.
  induction (map fst l) as [|a m IH]; cbn; [constructor; auto; constructor|]. inversion N; subst. constructor.
  - rewrite in_app_iff. cbn in *. intuition congruence.
  - apply IH; auto. cbn in H. tauto.
Qed.
End Map.

(** * Resolution *)
Definition top_here (m : smap string ident) (n : string) : option ident :=
  match m with l :: _ => value_of (im_get String.eqb n l) | [] => None end.
Definition view (m : smap string ident) (E : scoping) : Prop :=
  (forall n, sm_get String.eqb n m = visible E n) /\ (forall n, top_here m n = here E n).
Lemma view_enter m E : view m E -> view ([] :: m) (enter E).
Proof. intros [A B]. split; intros n; cbn; auto. Qed.
Lemma same_id_key a b : same_id a b = true <-> iname a = iname b /\ ispan a = ispan b.
Proof. unfold same_id. rewrite andb_true_iff, String.eqb_eq, PeanoNat.Nat.eqb_eq. tauto. Qed.

Lemma rdeclare_spec x v r r' E l m : rdeclare x v r = Ok r' -> rmap r = l :: m -> view (rmap r) E ->
  declarable x E /\ (exists l', rmap r' = l' :: m) /\ view (rmap r') (declares x E).
Proof.
  intros H R [A B]. unfold rdeclare in H. rewrite R in *. cbn [sm_insert sm_put rbind] in H.
  assert (VW : view (im_insert String.eqb (iname x) (Value x) l :: m) (declares x E)).
  { split; intros n; cbn; unfold bind.
    - rewrite (im_get_insert String.eqb String.eqb_eq). rewrite <- A. destruct (String.eqb n (iname x)); reflexivity.
    - rewrite (im_get_insert String.eqb String.eqb_eq). rewrite <- B. destruct (String.eqb n (iname x)); reflexivity. }
  specialize (B (iname x)). cbn [top_here] in B.
  destruct (value_of (im_get String.eqb (iname x) l)) as [y|] eqn:G.
  - destruct (same_id y x) eqn:S; [|discriminate]. injection H as <-. split; [|cbn; eauto]. intros z Hz. rewrite <- B in Hz. injection Hz as <-. now apply same_id_key.
  - apply rbind_ok in H as [T [D H]]. injection H as <-. split; [|cbn; eauto]. intros z Hz. rewrite <- B in Hz. discriminate.
Qed.
Lemma with_subscope_spec {A} (f : rstate -> res (A * rstate)) r a r' l m : with_subscope f r = Ok (a, r') -> rmap r = l :: m ->
  (forall r1, f (mkrs ([] :: l :: m) (rtcx r)) = Ok (a, r1) -> exists l', rmap r1 = l' :: l :: m) ->
  rmap r' = rmap r /\ exists r1, f (mkrs ([] :: l :: m) (rtcx r)) = Ok (a, r1) /\ rtcx r' = rtcx r1.
Proof.
  intros H R HF. unfold with_subscope in H. rewrite R in *. cbn [sm_push] in H. apply rbind_ok in H as [[a1 r1] [E H]].
  apply rbind_ok in H as [m' [P H]]. injection H as <- <-. destruct (HF r1 E) as [l' L]. rewrite L in P. rewrite (pop_ok l' l m) in P.
  injection P as <-. split; [reflexivity|]. exists r1. auto.
Qed.

Lemma ridents_spec E r : view (rmap r) E -> forall xs ys, ridents xs r = Ok ys <-> Forall2 (lex_id E) xs ys.
Proof.
  intros [A _]. induction xs as [|x xs IH]; intros ys; cbn [ridents].
  - split; [intros H; injection H as <-; constructor | intros H; inversion H; reflexivity].
  - unfold rident. rewrite A. unfold lex_id in *. split.
    + intros H. apply rbind_ok in H as [y [E1 H]]. destruct (visible E (iname x)) as [z|] eqn:Z; [|discriminate]. injection E1 as <-.
      apply rbind_ok in H as [ys' [E2 H]]. injection H as <-. constructor; auto. now apply IH.
    + intros H. inversion H as [|? y ? ys' P Q]; subst. rewrite P. cbn. apply IH in Q. rewrite Q. reflexivity.
Qed.

Lemma rqvars_spec : forall xs r ys r' E l m, rqvars xs r = Ok (ys, r') -> rmap r = l :: m -> view (rmap r) E ->
  exists E', lex_qvars E xs ys E' /\ (exists l', rmap r' = l' :: m) /\ view (rmap r') E'.
Proof.
  induction xs as [|[x|x] xs IH]; intros r ys r' E l m H R V; cbn [rqvars] in H.
  - injection H as <- <-. exists E. split; [constructor|]. split; eauto.
  - apply rbind_ok in H as [y [E1 H]]. apply rbind_ok in H as [[ys' r1] [E2 H]]. injection H as <- <-.
    destruct (IH _ _ _ _ _ _ E2 R V) as (E' & P & Q). exists E'. split; auto. constructor; auto.
    unfold rident in E1. destruct V as [A _]. unfold lex_id. rewrite A in E1. destruct (visible E (iname x)); [|discriminate]. congruence.
  - apply rbind_ok in H as [r1 [E1 H]]. apply rbind_ok in H as [[ys' r2] [E2 H]]. injection H as <- <-.
    destruct (rdeclare_spec _ _ _ _ _ _ _ E1 R V) as (D & [l1 L1] & V1). destruct (IH _ _ _ _ _ _ E2 L1 V1) as (E' & P & Q).
    exists E'. split; auto. constructor; auto.
Qed.

Definition rexpr_ok (e : expr) : Prop := forall r e' r' E l m, rexpr e r = Ok (e', r') -> rmap r = l :: m -> view (rmap r) E ->
  rmap r' = rmap r /\ lex E e e'.
Lemma rexprs_spec es : Forall rexpr_ok es -> forall r es' r' E l m, rexprs es r = Ok (es', r') -> rmap r = l :: m -> view (rmap r) E ->
  rmap r' = rmap r /\ Forall2 (lex E) es es'.
Proof.
  induction 1 as [|e es He Hes IH]; intros r es' r' E l m H R V; cbn [rexprs] in H.
  - injection H as <- <-. auto.
  - apply rbind_ok in H as [[e1 r1] [E1 H]]. apply rbind_ok in H as [[es1 r2] [E2 H]]. injection H as <- <-.
    destruct (He _ _ _ _ _ _ E1 R V) as [M1 L1]. rewrite <- M1 in R, V. destruct (IH _ _ _ _ _ _ E2 R V) as [M2 L2]. split; [congruence | constructor; auto].
Qed.
Lemma rexprs_eq l : forall r, (fix go l r := match l with
                           | [] => Ok ([], r)
                           | a :: l' => let? (a', r1) := rexpr a r in let? (l'', r2) := go l' r1 in Ok (a' :: l'', r2)
                           end) l r = rexprs l r.
Proof. induction l as [|a l IH]; intros r; cbn; auto. Qed.
Lemma rexpr_sound : forall e, rexpr_ok e.
Proof.
  induction e using expr_rect'; intros r e' r' E l0 m H0 R V; cbn [rexpr] in H0; rewrite ?rexprs_eq in H0.
  - apply rbind_ok in H0 as [y [E1 H0]]. injection H0 as <- <-. split; auto. constructor. unfold rident in E1. destruct V as [A _].
    unfold lex_id. rewrite A in E1. destruct (visible E (iname x)); [|discriminate]. congruence.
  - apply rbind_ok in H0 as [[es1 r1] [E1 H0]]. injection H0 as <- <-. destruct (rexprs_spec _ H _ _ _ _ _ _ E1 R V). split; auto. now constructor.
  - apply rbind_ok in H0 as [[c' r1] [E1 H0]]. apply rbind_ok in H0 as [[a' r2] [E2 H0]]. apply rbind_ok in H0 as [[b' r3] [E3 H0]]. injection H0 as <- <-.
    destruct (IHe1 _ _ _ _ _ _ E1 R V) as [M1 L1]. rewrite <- M1 in R, V. destruct (IHe2 _ _ _ _ _ _ E2 R V) as [M2 L2]. rewrite <- M2 in R, V.
    destruct (IHe3 _ _ _ _ _ _ E3 R V) as [M3 L3]. split; [congruence | constructor; auto].
  - apply rbind_ok in H0 as [[a' r2] [E2 H0]]. apply rbind_ok in H0 as [[b' r3] [E3 H0]]. injection H0 as <- <-.
    destruct (IHe1 _ _ _ _ _ _ E2 R V) as [M2 L2]. rewrite <- M2 in R, V. destruct (IHe2 _ _ _ _ _ _ E3 R V) as [M3 L3]. split; [congruence | constructor; auto].
  - apply rbind_ok in H0 as [[a' r2] [E2 H0]]. injection H0 as <- <-. destruct (IHe _ _ _ _ _ _ E2 R V). split; auto. now constructor.
  - apply rbind_ok in H0 as [[a' r2] [E2 H0]]. injection H0 as <- <-. destruct (IHe _ _ _ _ _ _ E2 R V). split; auto. now constructor.
  - assert (HB : forall a r1, (let? (xs', r2) := rqvars xs (mkrs ([] :: l0 :: m) (rtcx r)) in let? (a', r3) := rexpr e r2 in Ok (EQuant op xs' a', r3)) = Ok (a, r1) ->
      (exists l', rmap r1 = l' :: l0 :: m) /\ lex E (EQuant op xs e) a).
    { intros a r1 K. apply rbind_ok in K as [[ys r2] [E1 K]]. apply rbind_ok in K as [[b r3] [E2 K]]. injection K as <- <-.
      rewrite R in V. destruct (rqvars_spec xs _ _ _ (enter E) [] (l0 :: m) E1 eq_refl (view_enter _ _ V)) as (E' & P & [l' L'] & V').
      destruct (IHe _ _ _ _ _ _ E2 L' V') as [M2 L2]. split; [exists l'; congruence|]. econstructor; eauto. }
    destruct (with_subscope_spec _ _ _ _ _ _ H0 R) as [M [r1 [K _]]].
    + intros r1 K. now apply HB in K.
    + split; auto. now apply HB in K.
  - apply rbind_ok in H0 as [[v' r2] [E2 H0]]. destruct (IHe1 _ _ _ _ _ _ E2 R V) as [M2 L2]. rewrite <- M2 in R, V.
    assert (HB : forall a r1, (let? r2 := rdeclare x true (mkrs ([] :: l0 :: m) (rtcx r2)) in let? (a', r3) := rexpr e2 r2 in Ok (ESubst x v' a', r3)) = Ok (a, r1) ->
      (exists l', rmap r1 = l' :: l0 :: m) /\ lex E (ESubst x e1 e2) a).
    { intros a r1 K. apply rbind_ok in K as [r3 [E1 K]]. apply rbind_ok in K as [[b r4] [E4 K]]. injection K as <- <-.
      rewrite R in V. destruct (rdeclare_spec x _ _ _ (enter E) [] (l0 :: m) E1 eq_refl (view_enter _ _ V)) as (_ & [l' L'] & V').
      destruct (IHe2 _ _ _ _ _ _ E4 L' V') as [M4 L4]. split; [exists l'; congruence|]. econstructor; eauto. }
    destruct (with_subscope_spec _ _ _ _ _ _ H0 R) as [M [r1 [K _]]].
    + intros r1 K. now apply HB in K.
    + split; [congruence|]. now apply HB in K.
  - injection H0 as <- <-. split; auto. constructor.
Qed.

Definition rstmt_ok (s : stmt) : Prop := forall r s' r' E l m, rstmt s r = Ok (s', r') -> rmap r = l :: m -> view (rmap r) E ->
  exists E', lexs E s s' E' /\ (exists l', rmap r' = l' :: m) /\ view (rmap r') E'.
Lemma rblock_eq b : forall r, (fix block (b : list stmt) (r : rstate) {struct b} : res (list stmt * rstate) :=
    match b with
    | [] => Ok ([], r)
    | s :: b' => let? (s', r1) := rstmt s r in let? (b'', r2) := block b' r1 in Ok (s' :: b'', r2)
    end) b r = rblock b r.
Proof. induction b as [|a l IH]; intros r; cbn; auto. Qed.
Lemma rblock_spec b : Forall rstmt_ok b -> forall r b' r' E l m, rblock b r = Ok (b', r') -> rmap r = l :: m -> view (rmap r) E ->
  exists E', lexb E b b' E' /\ (exists l', rmap r' = l' :: m) /\ view (rmap r') E'.
Proof.
  induction 1 as [|s b Hs Hb IH]; intros r b' r' E l m H R V; cbn [rblock] in H.
  - injection H as <- <-. exists E. split; [constructor | eauto].
  - apply rbind_ok in H as [[s1 r1] [E1 H]]. apply rbind_ok in H as [[b1 r2] [E2 H]]. injection H as <- <-.
    destruct (Hs _ _ _ _ _ _ E1 R V) as (F1 & L1 & [l1 M1] & V1). destruct (IH _ _ _ _ _ _ E2 M1 V1) as (F2 & L2 & M2 & V2).
    exists F2. split; auto. econstructor; eauto.
Qed.
Lemma rsub_spec b : Forall rstmt_ok b -> forall r b' r' E l m f, (forall r, f r = rblock b r) -> with_subscope f r = Ok (b', r') -> rmap r = l :: m -> view (rmap r) E ->
  exists E', lexb (enter E) b b' E' /\ rmap r' = rmap r.
Proof.
  intros Hb r b' r' E l m f Hf H R V.
  assert (HB : forall a r1, f (mkrs ([] :: l :: m) (rtcx r)) = Ok (a, r1) -> (exists l', rmap r1 = l' :: l :: m) /\ exists E', lexb (enter E) b a E').
  { intros a r1 K. rewrite Hf in K. rewrite R in V. destruct (rblock_spec b Hb _ _ _ (enter E) [] (l :: m) K eq_refl (view_enter _ _ V)) as (E' & P & Q & _). eauto. }
  destruct (with_subscope_spec _ _ _ _ _ _ H R) as [M [r1 [K _]]].
  - intros r1 K. now apply HB in K.
  - apply HB in K as [_ [E' K]]. eauto.
Qed.
Lemma rstmt_sound : forall s, rstmt_ok s.
Proof.
  pose proof rexpr_sound as HE. unfold rexpr_ok in HE.
  induction s using stmt_rect'; intros r s' r' E l0 m K R V; cbn [rstmt] in K.
  all: try (apply rbind_ok in K as [[e' r1] [E1 K]]; injection K as <- <-; destruct (HE _ _ _ _ _ _ _ E1 R V) as [M L];
            exists E; split; [constructor; auto|]; rewrite M; eauto; fail).
  - apply rbind_ok in K as [[b' r1] [E1 K]]. injection K as <- <-.
    destruct (rsub_spec b H _ _ _ E _ _ _ (rblock_eq b) E1 R V) as (E' & P & M). exists E. split; [econstructor; eauto|]. rewrite M. eauto.
  - destruct i as [e|].
    + apply rbind_ok in K as [[e' r1] [E1 K]]. apply rbind_ok in K as [r2 [E2 K]]. injection K as <- <-.
      destruct (HE _ _ _ _ _ _ _ E1 R V) as [M L]. rewrite <- M in R, V. destruct (rdeclare_spec _ _ _ _ _ _ _ E2 R V) as (D & Q). eexists. split; [constructor; eauto|]. exact Q.
    + apply rbind_ok in K as [r1 [E1 K]]. injection K as <- <-. destruct (rdeclare_spec _ _ _ _ _ _ _ E1 R V) as (D & Q). eexists. split; [constructor; eauto|]. exact Q.
  - apply rbind_ok in K as [ys [E1 K]]. apply rbind_ok in K as [[e' r1] [E2 K]]. injection K as <- <-. destruct (HE _ _ _ _ _ _ _ E2 R V) as [M L].
    exists E. split; [constructor; auto; now apply (ridents_spec E r V)|]. rewrite M; eauto.
  - apply rbind_ok in K as [ys [E1 K]]. injection K as <- <-. exists E. split; [constructor; now apply (ridents_spec E r V)|]. eauto.
  - injection K as <- <-. exists E. split; [constructor | eauto].
  - injection K as <- <-. exists E. split; [constructor | eauto].
  - apply rbind_ok in K as [[b1 r1] [E1 K]]. apply rbind_ok in K as [[b2 r2] [E2 K]]. injection K as <- <-.
    destruct (rsub_spec a H _ _ _ E _ _ _ (rblock_eq a) E1 R V) as (F1 & P1 & M1). rewrite <- M1 in R, V.
    destruct (rsub_spec b H0 _ _ _ E _ _ _ (rblock_eq b) E2 R V) as (F2 & P2 & M2). exists E. split; [econstructor; eauto|]. rewrite M2. eauto.
  - apply rbind_ok in K as [[b1 r1] [E1 K]]. apply rbind_ok in K as [[b2 r2] [E2 K]]. injection K as <- <-.
    destruct (rsub_spec a H _ _ _ E _ _ _ (rblock_eq a) E1 R V) as (F1 & P1 & M1). rewrite <- M1 in R, V.
    destruct (rsub_spec b H0 _ _ _ E _ _ _ (rblock_eq b) E2 R V) as (F2 & P2 & M2). exists E. split; [econstructor; eauto|]. rewrite M2. eauto.
  - apply rbind_ok in K as [[b1 r1] [E1 K]]. apply rbind_ok in K as [[b2 r2] [E2 K]]. injection K as <- <-.
    destruct (rsub_spec a H _ _ _ E _ _ _ (rblock_eq a) E1 R V) as (F1 & P1 & M1). rewrite <- M1 in R, V.
    destruct (rsub_spec b H0 _ _ _ E _ _ _ (rblock_eq b) E2 R V) as (F2 & P2 & M2). exists E. split; [econstructor; eauto|]. rewrite M2. eauto.
  - apply rbind_ok in K as [[c' r0] [E0 K]]. destruct (HE _ _ _ _ _ _ _ E0 R V) as [M0 L0]. rewrite <- M0 in R, V.
    apply rbind_ok in K as [[b1 r1] [E1 K]]. apply rbind_ok in K as [[b2 r2] [E2 K]]. injection K as <- <-.
    destruct (rsub_spec a H _ _ _ E _ _ _ (rblock_eq a) E1 R V) as (F1 & P1 & M1). rewrite <- M1 in R, V.
    destruct (rsub_spec b H0 _ _ _ E _ _ _ (rblock_eq b) E2 R V) as (F2 & P2 & M2). exists E. split; [econstructor; eauto|]. rewrite M2. eauto.
  - apply rbind_ok in K as [[c' r0] [E0 K]]. destruct (HE _ _ _ _ _ _ _ E0 R V) as [M0 L0]. rewrite <- M0 in R, V.
    apply rbind_ok in K as [[b1 r1] [E1 K]]. injection K as <- <-.
    destruct (rsub_spec b H _ _ _ E _ _ _ (rblock_eq b) E1 R V) as (F1 & P1 & M1). exists E. split; [econstructor; eauto|]. rewrite M1. eauto.
  - apply rbind_ok in K as [[l' r0] [E0 K]].
    assert (HL : Forall rexpr_ok args) by (apply Forall_forall; intros; apply rexpr_sound).
    destruct (rexprs_spec _ HL _ _ _ _ _ _ E0 R V) as [M0 L0]. rewrite <- M0 in R, V.
    apply rbind_ok in K as [[s1 r1] [E1 K]]. injection K as <- <-.
    assert (HB : forall a r1, rstmt s (mkrs ([] :: l0 :: m) (rtcx r0)) = Ok (a, r1) -> (exists l', rmap r1 = l' :: l0 :: m) /\ exists E', lexs (enter E) s a E').
    { intros a r2 K. rewrite R in V. destruct (IHs _ _ _ (enter E) [] (l0 :: m) K eq_refl (view_enter _ _ V)) as (E' & P & Q & _). eauto. }
    destruct (with_subscope_spec _ _ _ _ _ _ E1 R) as [M [r2 [K _]]]; [intros r2 K; now apply HB in K|].
    apply HB in K as [_ [E' K]]. exists E. split; [econstructor; eauto|]. rewrite M. eauto.
  - apply rbind_ok in K as [r1 [E1 K]]. injection K as <- <-. destruct (rdeclare_spec _ _ _ _ _ _ _ E1 R V) as (D & Q). eexists. split; [constructor; eauto|]. exact Q.
Qed.

(** * Completeness: resolution succeeds on every well-scoped program whose binders are new *)
Definition new_in (T : tyctx) (ks : list (string * nat)) : Prop :=
  NoDup ks /\ forall x, In (id_key x) ks -> contains_key T x = false.
Definition grows (T T' : tyctx) (ks : list (string * nat)) : Prop :=
  forall x, contains_key T' x = true -> contains_key T x = true \/ In (id_key x) ks.
Lemma grows_refl T ks : grows T T ks. Proof. red. auto. Qed.
Lemma grows_app T1 T2 T3 a b : grows T1 T2 a -> grows T2 T3 b -> grows T1 T3 (a ++ b).
Proof. intros A B x H. rewrite in_app_iff. apply B in H as [H|H]; auto. apply A in H. tauto. Qed.
Lemma new_app T a b : new_in T (a ++ b) -> new_in T a /\ (forall T', grows T T' a -> new_in T' b).
Proof.
  intros [N H]. split.
  - split; [|intros x Hx; apply H, in_app_iff; auto]. clear H. induction a; cbn in *; [constructor|]. inversion N; subst. constructor; auto. rewrite in_app_iff in *; tauto.
  - intros T' G. assert (D : forall k, In k a -> In k b -> False).
    { clear - N. induction a as [|k0 a IH]; cbn in *; [tauto|]. inversion N; subst. intros k [->|K] Hb; [|eauto]. rewrite in_app_iff in *; tauto. }
    split.
    + clear - N. induction a; auto. inversion N; auto.
    + intros x Hx. destruct (contains_key T' x) eqn:E; auto. apply G in E as [E|E].
      * rewrite H in E; [discriminate | apply in_app_iff; auto].
      * exfalso. eauto.
Qed.
Lemma rdeclare_complete x v r E l m : rmap r = l :: m -> view (rmap r) E -> declarable x E -> contains_key (rtcx r) x = false ->
  exists r', rdeclare x v r = Ok r' /\ (exists l', rmap r' = l' :: m) /\ view (rmap r') (declares x E) /\ grows (rtcx r) (rtcx r') [id_key x].
Proof.
  intros R V D N. assert (H : exists r', rdeclare x v r = Ok r' /\ grows (rtcx r) (rtcx r') [id_key x]).
  { unfold rdeclare. rewrite R. cbn [sm_insert sm_put rbind]. destruct V as [_ B]. rewrite R in B. specialize (B (iname x)). cbn [top_here] in B.
    destruct (value_of (im_get String.eqb (iname x) l)) as [y|].
    - assert (S : same_id y x = true) by (apply same_id_key; apply D; auto). rewrite S. eexists. split; [reflexivity|]. apply grows_refl.
    - unfold declare. rewrite N. cbn. eexists. split; [reflexivity|]. intros z Hz. unfold contains_key in *. cbn in *. apply orb_true_iff in Hz as [Hz|Hz]; auto.
      right. left. apply same_id_key in Hz as [A C]. unfold id_key. congruence. }
  destruct H as [r' [H G]]. exists r'. destruct (rdeclare_spec _ _ _ _ _ _ _ H R V) as (_ & L & W). auto.
Qed.
Lemma with_subscope_complete {A} (f : rstate -> res (A * rstate)) r a r1 l l' m : rmap r = l :: m ->
  f (mkrs ([] :: l :: m) (rtcx r)) = Ok (a, r1) -> rmap r1 = l' :: l :: m -> with_subscope f r = Ok (a, mkrs (l :: m) (rtcx r1)).
Proof. intros R F L. unfold with_subscope. rewrite R. cbn [sm_push]. rewrite F. cbn [rbind]. rewrite L, (pop_ok l' l m). reflexivity. Qed.

Definition qbinders (xs : list qvar) := flat_map (fun v => match v with QFresh x => [id_key x] | QShadow _ => [] end) xs.
Lemma rqvars_complete : forall xs ys E E', lex_qvars E xs ys E' -> forall r l m, rmap r = l :: m -> view (rmap r) E -> new_in (rtcx r) (qbinders xs) ->
  exists r', rqvars xs r = Ok (ys, r') /\ (exists l', rmap r' = l' :: m) /\ view (rmap r') E' /\ grows (rtcx r) (rtcx r') (qbinders xs).
Proof.
  intros xs ys E E' H. induction H as [E|E x y xs ys E' H1 H2 IH|E x xs ys E' H1 H2 IH]; intros r l m R V N; cbn [rqvars].
  - exists r. split; [reflexivity|]. split; [eauto|]. split; auto. apply grows_refl.
  - unfold rident. destruct V as [A B]. rewrite A, H1. cbn [rbind]. destruct (IH r l m R (conj A B) N) as (r' & -> & L & W & G). cbn. eauto.
  - change (qbinders (QFresh x :: xs)) with ([id_key x] ++ qbinders xs) in *. apply new_app in N as [[_ N1] N2].
    destruct (rdeclare_complete x true r E l m R V H1) as (r1 & -> & [l1 L1] & V1 & G1); [apply N1; now left|]. cbn [rbind].
    destruct (IH r1 l1 m L1 V1 (N2 _ G1)) as (r' & -> & L & W & G). cbn [rbind]. eexists. split; [reflexivity|]. split; auto. split; auto. eapply grows_app; eauto.
Qed.
Definition rexpr_complete_at (e : expr) : Prop := forall E e', lex E e e' -> forall r l m, rmap r = l :: m -> view (rmap r) E -> new_in (rtcx r) (binders e) ->
  exists r', rexpr e r = Ok (e', r') /\ rmap r' = rmap r /\ grows (rtcx r) (rtcx r') (binders e).
Lemma rexprs_complete es : Forall rexpr_complete_at es -> forall E es', Forall2 (lex E) es es' -> forall r l m, rmap r = l :: m -> view (rmap r) E -> new_in (rtcx r) (flat_map binders es) ->
  exists r', rexprs es r = Ok (es', r') /\ rmap r' = rmap r /\ grows (rtcx r) (rtcx r') (flat_map binders es).
Proof.
  induction 1 as [|e es He Hes IH]; intros E es' H r l m R V N; inversion H as [|? e1 ? es1 K1 K2]; subst; cbn [rexprs flat_map] in *.
  - exists r. split; auto. split; auto. apply grows_refl.
  - apply new_app in N as [N1 N2]. destruct (He _ _ K1 _ _ _ R V N1) as (r1 & -> & M1 & G1). cbn [rbind]. rewrite <- M1 in R, V.
    destruct (IH _ _ K2 _ _ _ R V (N2 _ G1)) as (r2 & -> & M2 & G2). cbn. exists r2. split; auto. split; [congruence|]. eapply grows_app; eauto.
Qed.
Lemma rexpr_complete : forall e, rexpr_complete_at e.
Proof.
  induction e using expr_rect'; intros E e' X r l0 m R V N; inversion X; subst; cbn [rexpr binders] in *; rewrite ?rexprs_eq.
  - unfold rident. destruct V as [A B]. rewrite A. match goal with H : lex_id _ _ _ |- _ => rewrite H end. cbn. exists r. split; auto. split; auto. apply grows_refl.
  - match goal with K : Forall2 _ _ _ |- _ => destruct (rexprs_complete _ H _ _ K _ _ _ R V N) as (r1 & -> & M1 & G1) end. cbn. eauto.
  - apply new_app in N as [N1 N2]. destruct (IHe1 _ _ ltac:(eassumption) _ _ _ R V N1) as (r1 & -> & M1 & G1). cbn [rbind]. rewrite <- M1 in R, V.
    specialize (N2 _ G1). apply new_app in N2 as [N2 N3].
    destruct (IHe2 _ _ ltac:(eassumption) _ _ _ R V N2) as (r2 & -> & M2 & G2). cbn [rbind]. rewrite <- M2 in R, V.
    destruct (IHe3 _ _ ltac:(eassumption) _ _ _ R V (N3 _ G2)) as (r3 & -> & M3 & G3). cbn [rbind]. eexists. split; [reflexivity|]. split; [congruence|].
    eapply grows_app; eauto. eapply grows_app; eauto.
  - apply new_app in N as [N1 N2]. destruct (IHe1 _ _ ltac:(eassumption) _ _ _ R V N1) as (r1 & -> & M1 & G1). cbn [rbind]. rewrite <- M1 in R, V.
    destruct (IHe2 _ _ ltac:(eassumption) _ _ _ R V (N2 _ G1)) as (r2 & -> & M2 & G2). cbn [rbind]. eexists. split; [reflexivity|]. split; [congruence|].
    eapply grows_app; eauto.
  - destruct (IHe _ _ ltac:(eassumption) _ _ _ R V N) as (r1 & -> & M1 & G1). cbn. eauto.
  - destruct (IHe _ _ ltac:(eassumption) _ _ _ R V N) as (r1 & -> & M1 & G1). cbn. eauto.
  - fold (qbinders xs) in *. apply new_app in N as [N1 N2]. rewrite R in V.
    destruct (rqvars_complete _ _ _ _ ltac:(eassumption) (mkrs ([] :: l0 :: m) (rtcx r)) [] (l0 :: m) eq_refl (view_enter _ _ V) N1) as (r1 & Q & [l1 L1] & V1 & G1).
    destruct (IHe _ _ ltac:(eassumption) _ _ _ L1 V1 (N2 _ G1)) as (r2 & Q2 & M2 & G2). rewrite L1 in M2.
    eexists. split; [eapply with_subscope_complete; [exact R | rewrite Q; cbn [rbind]; rewrite Q2; reflexivity | exact M2]|]. cbn [rmap rtcx]. split; [congruence|].
    eapply grows_app; eauto.
  - apply new_app in N as [N1 N2]. destruct (IHe1 _ _ ltac:(eassumption) _ _ _ R V N1) as (r1 & -> & M1 & G1). cbn [rbind]. rewrite <- M1 in R, V.
    specialize (N2 _ G1). change (id_key x :: binders e2) with ([id_key x] ++ binders e2) in *. apply new_app in N2 as [[_ N2] N3]. rewrite R in V.
    destruct (rdeclare_complete x true (mkrs ([] :: l0 :: m) (rtcx r1)) (enter E) [] (l0 :: m) eq_refl (view_enter _ _ V)) as (r2 & Q & [l1 L1] & V1 & G2).
    { intros y Hy. discriminate. } { apply N2. now left. }
    destruct (IHe2 _ _ ltac:(eassumption) _ _ _ L1 V1 (N3 _ G2)) as (r3 & Q2 & M2 & G3). rewrite L1 in M2.
    eexists. split; [eapply with_subscope_complete; [exact R | rewrite Q; cbn [rbind]; rewrite Q2; reflexivity | exact M2]|]. cbn [rmap rtcx]. split; [congruence|].
    eapply grows_app; eauto. eapply grows_app; eauto.
  - exists r. split; auto. split; auto. apply grows_refl.
Qed.

Definition rstmt_complete_at (s : stmt) : Prop := forall E s' E', lexs E s s' E' -> forall r l m, rmap r = l :: m -> view (rmap r) E -> new_in (rtcx r) (sbinders s) ->
  exists r', rstmt s r = Ok (s', r') /\ (exists l', rmap r' = l' :: m) /\ view (rmap r') E' /\ grows (rtcx r) (rtcx r') (sbinders s).
Lemma rblock_complete b : Forall rstmt_complete_at b -> forall E b' E', lexb E b b' E' -> forall r l m, rmap r = l :: m -> view (rmap r) E -> new_in (rtcx r) (flat_map sbinders b) ->
  exists r', rblock b r = Ok (b', r') /\ (exists l', rmap r' = l' :: m) /\ view (rmap r') E' /\ grows (rtcx r) (rtcx r') (flat_map sbinders b).
Proof.
  induction 1 as [|s b Hs Hb IH]; intros E b' E' X r l m R V N; inversion X; subst; cbn [rblock flat_map] in *.
  - exists r. split; [reflexivity|]. split; [eauto|]. split; auto. apply grows_refl.
  - apply new_app in N as [N1 N2]. destruct (Hs _ _ _ ltac:(eassumption) _ _ _ R V N1) as (r1 & -> & [l1 M1] & V1 & G1). cbn [rbind].
    destruct (IH _ _ _ ltac:(eassumption) _ _ _ M1 V1 (N2 _ G1)) as (r2 & -> & M2 & V2 & G2). cbn [rbind]. eexists. split; [reflexivity|]. split; auto. split; auto. eapply grows_app; eauto.
Qed.
Lemma rsub_complete b : Forall rstmt_complete_at b -> forall E b' E', lexb (enter E) b b' E' -> forall f, (forall r, f r = rblock b r) ->
  forall r l m, rmap r = l :: m -> view (rmap r) E -> new_in (rtcx r) (flat_map sbinders b) ->
  exists r', with_subscope f r = Ok (b', r') /\ rmap r' = rmap r /\ grows (rtcx r) (rtcx r') (flat_map sbinders b).
Proof.
  intros Hb E b' E' X f Hf r l m R V N. rewrite R in V.
  destruct (rblock_complete b Hb _ _ _ X (mkrs ([] :: l :: m) (rtcx r)) [] (l :: m) eq_refl (view_enter _ _ V) N) as (r1 & Q & [l1 L1] & _ & G1).
  eexists. split; [eapply with_subscope_complete; [exact R | rewrite Hf; exact Q | exact L1]|]. cbn. split; [congruence | exact G1].
Qed.
Ltac two_blocks a b :=
  match goal with HA : Forall _ a, HB : Forall _ b, LA : lexb _ a _ _, LB : lexb _ b _ _, R : rmap ?r = _, V : view (rmap ?r) _, N : new_in (rtcx ?r) _ |- _ =>
    let N1 := fresh in let N2 := fresh in apply new_app in N as [N1 N2];
    let r1 := fresh "r" in let Q := fresh in let M1 := fresh "M" in let G1 := fresh "G" in
    destruct (rsub_complete a HA _ _ _ LA _ (rblock_eq a) _ _ _ R V N1) as (r1 & Q & M1 & G1); rewrite Q; cbn [rbind]; rewrite <- M1 in R, V;
    let r2 := fresh "r" in let Q2 := fresh in let M2 := fresh "M" in let G2 := fresh "G" in
    destruct (rsub_complete b HB _ _ _ LB _ (rblock_eq b) _ _ _ R V (N2 _ G1)) as (r2 & Q2 & M2 & G2); rewrite Q2; cbn [rbind];
    eexists; split; [reflexivity|]; split; [rewrite M2; eauto|]; split; [rewrite M2; assumption|]; repeat (eapply grows_app; eauto)
  end.
Lemma rstmt_complete : forall s, rstmt_complete_at s.
Proof.
  induction s using stmt_rect'; intros E s' E' X r l0 m R V N; inversion X; subst; cbn [rstmt sbinders] in *.
  all: try (destruct (rexpr_complete _ _ _ ltac:(eassumption) _ _ _ R V N) as (r1 & -> & M1 & G1); cbn [rbind];
            eexists; split; [reflexivity|]; rewrite M1; split; [eauto|]; split; assumption; fail).
  all: try (eexists; split; [reflexivity|]; split; [eauto|]; split; [assumption|]; apply grows_refl; fail).
  - destruct (rsub_complete b H _ _ _ ltac:(eassumption) _ (rblock_eq b) _ _ _ R V N) as (r1 & -> & M1 & G1). cbn [rbind].
    eexists. split; [reflexivity|]. rewrite M1. split; [eauto|]. split; assumption.
  - destruct (rdeclare_complete x true r E _ _ R V) as (r1 & -> & L & W & G); auto. { apply N. now left. } cbn. eauto.
  - apply new_app in N as [N1 N2]. destruct (rexpr_complete _ _ _ ltac:(eassumption) _ _ _ R V N1) as (r1 & -> & M1 & G1). cbn [rbind]. rewrite <- M1 in R, V.
    specialize (N2 _ G1). destruct (rdeclare_complete x true r1 E _ _ R V) as (r2 & -> & L & W & G); auto. { apply N2. now left. } cbn [rbind].
    eexists. split; [reflexivity|]. split; auto. split; auto. eapply grows_app; eauto.
  - match goal with K : Forall2 _ xs ?ys |- _ => assert (Q : ridents xs r = Ok ys) by (now apply (ridents_spec _ r V)) end. rewrite Q. cbn [rbind].
    destruct (rexpr_complete _ _ _ ltac:(eassumption) _ _ _ R V N) as (r1 & -> & M1 & G1); cbn [rbind].
    eexists; split; [reflexivity|]; rewrite M1; split; [eauto|]; split; assumption.
  - match goal with K : Forall2 _ xs ?ys |- _ => assert (Q : ridents xs r = Ok ys) by (now apply (ridents_spec _ r V)) end. rewrite Q. cbn [rbind].
    eexists; split; [reflexivity|]; split; [eauto|]; split; [assumption|]; apply grows_refl.
  - two_blocks a b.
  - two_blocks a b.
  - two_blocks a b.
  - apply new_app in N as [N1 N2]. destruct (rexpr_complete _ _ _ ltac:(eassumption) _ _ _ R V N1) as (r1 & -> & M1 & G1). cbn [rbind]. rewrite <- M1 in R, V.
    specialize (N2 _ G1). two_blocks a b.
  - apply new_app in N as [N1 N2]. destruct (rexpr_complete _ _ _ ltac:(eassumption) _ _ _ R V N1) as (r1 & -> & M1 & G1). cbn [rbind]. rewrite <- M1 in R, V.
    destruct (rsub_complete b H _ _ _ ltac:(eassumption) _ (rblock_eq b) _ _ _ R V (N2 _ G1)) as (r2 & -> & M2 & G2). cbn [rbind].
    eexists. split; [reflexivity|]. rewrite M2. split; [eauto|]. split; [assumption|]. eapply grows_app; eauto.
  - apply new_app in N as [N1 N2]. assert (HL : Forall rexpr_complete_at args) by (apply Forall_forall; intros; apply rexpr_complete).
    destruct (rexprs_complete _ HL _ _ ltac:(eassumption) _ _ _ R V N1) as (r1 & -> & M1 & G1). cbn [rbind]. rewrite <- M1 in R, V. pose proof V as V'. rewrite R in V.
    destruct (IHs _ _ _ ltac:(eassumption) (mkrs ([] :: l0 :: m) (rtcx r1)) [] (l0 :: m) eq_refl (view_enter _ _ V) (N2 _ G1)) as (r2 & Q & [l2 L2] & _ & G2).
    rewrite (with_subscope_complete _ r1 _ _ _ _ _ R Q L2). cbn [rbind]. eexists. split; [reflexivity|]. cbn. split; [eauto|]. split; [assumption|]. eapply grows_app; eauto.
  - destruct (rdeclare_complete x false r E _ _ R V) as (r1 & -> & L & W & G); auto. { apply N. now left. } cbn. eauto.
Qed.
