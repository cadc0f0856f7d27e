(** The search for an error slice. *)
From Coq Require Import Bool List String Arith Lia Relations.
From Verif.Model Require Import Syntax Prover SliceSearch.
Import ListNotations.
Local Open Scope list_scope.
Local Open Scope nat_scope.

(** A value about which nothing is known yet. *)
Definition undecided (m : minimizer) (n : nat) : Prop :=
  lo m <= n <= hi m /\ (forall r, max_reject m = Some r -> r < n) /\ (forall a, min_accept m = Some a -> n < a) /\ ~ In n (unknowns m).
Definition range_of (m : minimizer) : nat * nat :=
  let r := (lo m, hi m) in
  let r := match max_reject m with Some i => exclude_to r i | None => r end in
  match min_accept m with Some i => exclude_from r i | None => r end.

Lemma mem_iff n l : mem n l = true <-> In n l.
Proof.
  unfold mem. rewrite existsb_exists. split.
  - intros (x & Hx & E). apply Nat.eqb_eq in E. now subst.
  - intros H. exists n. split; auto. apply Nat.eqb_refl.
Qed.
Lemma range_in a b i : In i (range_list a b) <-> a <= i <= b.
Proof. unfold range_list. rewrite in_seq. lia. Qed.
Lemma from_mid_in a b i : In i (from_mid (a, b)) <-> a <= i <= b.
Proof.
  unfold from_mid. destruct (Nat.leb_spec (b - a) 1).
  - apply range_in.
  - rewrite in_app_iff, range_in, in_seq. pose proof (Nat.div2_odd (a + b)). destruct (Nat.odd (a + b)); cbn [Nat.b2n] in *; lia.
Qed.
Lemma range_of_in m i : (fst (range_of m) <= i <= snd (range_of m)) <->
  (lo m <= i <= hi m /\ (forall r, max_reject m = Some r -> r < i) /\ (forall a, min_accept m = Some a -> i < a)).
Proof.
  unfold range_of, exclude_to, exclude_from.
  assert (K : forall (x : option nat) (P : nat -> Prop), (forall r, x = Some r -> P r) <-> match x with Some r => P r | None => True end).
  { intros x P. destruct x; [split; [intros H; now apply H | intros H r [= <-]; exact H] | split; [auto | discriminate]]. }
  rewrite !K. destruct (max_reject m) as [r|], (min_accept m) as [[|a]|]; cbn; lia.
Qed.
Lemma next_some m n : next_trial m = Some n -> undecided m n.
Proof.
  unfold next_trial. fold (range_of m). destruct (range_of m) as [a b] eqn:E. cbn [fst snd].
  pose proof (fun i => range_of_in m i) as R. rewrite E in R. cbn [fst snd] in R.
  destruct ((a <=? hi m) && (hi m <=? b) && negb (mem (hi m) (unknowns m))) eqn:C.
  - intros [= <-]. apply andb_prop in C. destruct C as [C1 C2]. apply andb_prop in C1. destruct C1 as [C1 C3]. apply Nat.leb_le in C1, C3.
    destruct (proj1 (R (hi m)) (conj C1 C3)) as (H1 & H2 & H3). repeat split; auto; try lia. intros H. apply mem_iff in H. rewrite H in C2. discriminate.
  - intros F. apply find_some in F. destruct F as [F1 F2]. apply from_mid_in, R in F1. destruct F1 as (H1 & H2 & H3). repeat split; auto; try lia.
    intros H. apply mem_iff in H. rewrite H in F2. discriminate.
Qed.
Lemma next_none m : next_trial m = None -> forall n, ~ undecided m n.
Proof.
  unfold next_trial. fold (range_of m). destruct (range_of m) as [a b] eqn:E. cbn [fst snd].
  pose proof (fun i => range_of_in m i) as R. rewrite E in R. cbn [fst snd] in R.
  destruct ((a <=? hi m) && (hi m <=? b) && negb (mem (hi m) (unknowns m))); [discriminate|].
  intros F n (H1 & H2 & H3 & H4). pose proof (find_none _ _ F n (proj2 (from_mid_in a b n) (proj2 (R n) (conj H1 (conj H2 H3))))) as K.
  cbn in K. destruct (mem n (unknowns m)) eqn:M; [now apply mem_iff in M | discriminate].
Qed.

(** ** What is recorded *)
Record good (m : minimizer) : Prop := {
  g_range : lo m <= hi m;
  g_rej : forall r, max_reject m = Some r -> lo m <= r <= hi m;
  g_acc : forall a, min_accept m = Some a -> lo m <= a <= hi m;
  g_order : forall r a, max_reject m = Some r -> min_accept m = Some a -> r < a;
  g_unk : forall n, In n (unknowns m) -> lo m <= n <= hi m
}.
Lemma good_new a b : a <= b -> good (new_min a b).
Proof. intros. constructor; cbn; auto; try discriminate. intros n []. Qed.

Lemma add_reject m n : good m -> undecided m n -> add_result m n RejectDownwards = Ok (mkmin (lo m) (hi m) (Some n) (min_accept m) (unknowns m)).
Proof.
  intros G (H1 & H2 & H3 & H4). unfold add_result. replace ((lo m <=? n) && (n <=? hi m)) with true by (symmetry; apply andb_true_intro; split; apply Nat.leb_le; lia).
  cbn [negb]. assert (E : match max_reject m with Some y => Nat.max y n | None => n end = n).
  { destruct (max_reject m) as [r|]; auto. specialize (H2 r eq_refl). lia. }
  rewrite E. destruct (min_accept m) as [a|]; auto. specialize (H3 a eq_refl). replace (n <? a) with true by (symmetry; now apply Nat.ltb_lt). reflexivity.
Qed.
Lemma add_unknown m n : good m -> undecided m n -> add_result m n TrialUnknown = Ok (mkmin (lo m) (hi m) (max_reject m) (min_accept m) (n :: unknowns m)).
Proof.
  intros G (H1 & H2 & H3 & H4). unfold add_result. replace ((lo m <=? n) && (n <=? hi m)) with true by (symmetry; apply andb_true_intro; split; apply Nat.leb_le; lia).
  cbn [negb]. destruct (mem n (unknowns m)) eqn:M; auto. now apply mem_iff in M.
Qed.
Lemma add_accept m n a m' : undecided m n -> a <= n -> add_result m a AcceptUpwards = Ok m' ->
  m' = mkmin (lo m) (hi m) (max_reject m) (Some a) (unknowns m) /\ lo m <= a /\ forall r, max_reject m = Some r -> r < a.
Proof.
  intros (H1 & H2 & H3 & H4) L. unfold add_result. destruct ((lo m <=? a) && (a <=? hi m)) eqn:C; cbn [negb]; [|discriminate].
  apply andb_prop in C. destruct C as [C1 C2]. apply Nat.leb_le in C1.
  assert (E : match min_accept m with Some y => Nat.min y a | None => a end = a).
  { destruct (min_accept m) as [y|]; auto. specialize (H3 y eq_refl). lia. }
  rewrite E. destruct (max_reject m) as [r|].
  - destruct (Nat.ltb_spec r a); [|discriminate]. intros [= <-]. repeat split; auto. intros r' [= <-]. auto.
  - intros [= <-]. repeat split; auto. discriminate.
Qed.
Lemma add_accept_ok m n a : undecided m n -> a <= n -> lo m <= a -> (forall r, max_reject m = Some r -> r < a) ->
  add_result m a AcceptUpwards = Ok (mkmin (lo m) (hi m) (max_reject m) (Some a) (unknowns m)).
Proof.
  intros (H1 & H2 & H3 & H4) L B R. unfold add_result. replace ((lo m <=? a) && (a <=? hi m)) with true by (symmetry; apply andb_true_intro; split; apply Nat.leb_le; lia).
  cbn [negb]. assert (E : match min_accept m with Some y => Nat.min y a | None => a end = a).
  { destruct (min_accept m) as [y|]; auto. specialize (H3 y eq_refl). lia. }
  rewrite E. destruct (max_reject m) as [r|]; auto. specialize (R r eq_refl). replace (r <? a) with true by (symmetry; now apply Nat.ltb_lt). reflexivity.
Qed.

(** ** Termination: every answer decides at least the value that was tried *)
Definition undecidedb (m : minimizer) (n : nat) : bool :=
  (lo m <=? n) && (n <=? hi m) && match max_reject m with Some r => r <? n | None => true end &&
  match min_accept m with Some a => n <? a | None => true end && negb (mem n (unknowns m)).
Lemma undecidedb_iff m n : undecidedb m n = true <-> undecided m n.
Proof.
  assert (K : forall (x : option nat) (P : nat -> Prop), (forall r, x = Some r -> P r) <-> match x with Some r => P r | None => True end).
  { intros x P. destruct x; [split; [intros H; now apply H | intros H r [= <-]; exact H] | split; [auto | discriminate]]. }
  unfold undecidedb, undecided. rewrite !K, !andb_true_iff, !Nat.leb_le. rewrite <- (mem_iff n).
  destruct (max_reject m), (min_accept m), (mem n (unknowns m)); rewrite ?Nat.ltb_lt; cbn; intuition discriminate.
Qed.
Definition open_count (m : minimizer) : nat := List.length (filter (undecidedb m) (range_list (lo m) (hi m))).
Lemma count_less m m' n : lo m' = lo m -> hi m' = hi m -> (forall i, undecided m' i -> undecided m i) -> undecided m n -> ~ undecided m' n ->
  open_count m' < open_count m.
Proof.
  intros EL EH Sub U N. unfold open_count. rewrite EL, EH.
  assert (In n (range_list (lo m) (hi m))) by (apply range_in; apply U).
  induction (range_list (lo m) (hi m)) as [|x l IH]; [destruct H|]. cbn [filter].
  assert (LE : List.length (filter (undecidedb m') l) <= List.length (filter (undecidedb m) l)).
  { clear IH H. induction l as [|y l IH]; auto. cbn. destruct (undecidedb m' y) eqn:E1; destruct (undecidedb m y) eqn:E2; cbn; try lia.
    apply undecidedb_iff, Sub, undecidedb_iff in E1. congruence. }
  destruct H as [->|H].
  - rewrite (proj2 (undecidedb_iff m n) U). destruct (undecidedb m' n) eqn:E; [now apply undecidedb_iff in E|]. cbn. lia.
  - specialize (IH H). destruct (undecidedb m' x) eqn:E1; destruct (undecidedb m x) eqn:E2; cbn; try lia.
    apply undecidedb_iff, Sub, undecidedb_iff in E1. congruence.
Qed.
Lemma reject_less m n : good m -> undecided m n -> open_count (mkmin (lo m) (hi m) (Some n) (min_accept m) (unknowns m)) < open_count m.
Proof.
  intros G U. apply count_less with (n := n); auto.
  - intros i (H1 & H2 & H3 & H4). cbn in *. specialize (H2 n eq_refl). destruct U as (U1 & U2 & U3 & U4). repeat split; auto; try lia. intros r Hr. specialize (U2 r Hr). lia.
  - intros (_ & H & _). specialize (H n eq_refl). cbn in H. lia.
Qed.
Lemma unknown_less m n : good m -> undecided m n -> open_count (mkmin (lo m) (hi m) (max_reject m) (min_accept m) (n :: unknowns m)) < open_count m.
Proof.
  intros G U. apply count_less with (n := n); auto.
  - intros i (H1 & H2 & H3 & H4). cbn in *. repeat split; auto; try lia; try tauto.
  - intros (_ & _ & _ & H). apply H. now left.
Qed.
Lemma accept_less m n a : good m -> undecided m n -> a <= n -> open_count (mkmin (lo m) (hi m) (max_reject m) (Some a) (unknowns m)) < open_count m.
Proof.
  intros G U L. apply count_less with (n := n); auto.
  - intros i (H1 & H2 & H3 & H4). cbn in *. specialize (H3 a eq_refl). destruct U as (U1 & U2 & U3 & U4). repeat split; auto; try lia. intros r Hr. specialize (U3 r Hr). lia.
  - intros (_ & _ & H & _). specialize (H a eq_refl). cbn in H. lia.
Qed.
Lemma good_reject m n : good m -> undecided m n -> good (mkmin (lo m) (hi m) (Some n) (min_accept m) (unknowns m)).
Proof. intros G (H1 & H2 & H3 & H4). constructor; cbn; try apply G; [intros r [= <-]; exact H1 | intros r a [= <-] Ha; auto]. Qed.
Lemma good_unknown m n : good m -> undecided m n -> good (mkmin (lo m) (hi m) (max_reject m) (min_accept m) (n :: unknowns m)).
Proof. intros G (H1 & H2 & H3 & H4). constructor; cbn; try apply G. intros i [<-|Hi]; [exact H1 | exact (g_unk _ G i Hi)]. Qed.
Lemma good_accept m n a : good m -> undecided m n -> a <= n -> lo m <= a -> (forall r, max_reject m = Some r -> r < a) ->
  good (mkmin (lo m) (hi m) (max_reject m) (Some a) (unknowns m)).
Proof. intros G (H1 & H2 & H3 & H4) L B R. constructor; cbn; try apply G; [intros x [= <-]; lia | intros r x Hr [= <-]; auto]. Qed.

Section S.
Variables (minl : minimality) (unk : unknown_handling) (check : nat -> nat -> satres) (model : nat -> nat -> option nat).
Notation search := (search minl unk check model).

Definition state := (minimizer * option nat * nat * option (nat * nat))%type.
Definition rejected (m : minimizer) n := mkmin (lo m) (hi m) (Some n) (min_accept m) (unknowns m).
Definition accepted (m : minimizer) n := mkmin (lo m) (hi m) (max_reject m) (Some n) (unknowns m).
Definition unclear (m : minimizer) n := mkmin (lo m) (hi m) (max_reject m) (min_accept m) (n :: unknowns m).
Inductive sstep : state -> state -> Prop :=
| ss_accept m cur k last n a : next_trial m = Some n -> the_model check model k n = Some a ->
    (check k n = Sat \/ (unk = Accept /\ check k n = Unknown)) -> a <= n -> lo m <= a -> (forall r, max_reject m = Some r -> r < a) ->
    sstep (m, cur, k, last) (accepted m a, Some a, S k, Some (k, n))
| ss_reject m cur k last n : next_trial m = Some n -> (check k n = Unsat \/ (unk = Stop /\ check k n = Unknown)) ->
    sstep (m, cur, k, last) (rejected m n, Some n, S k, Some (k, n))
| ss_unknown m cur k last n : next_trial m = Some n ->
    (check k n = Unknown /\ unk <> Stop /\ (unk = Accept -> the_model check model k n = None) \/ check k n = Sat /\ the_model check model k n = None) ->
    sstep (m, cur, k, last) (unclear m n, Some n, S k, Some (k, n)).
Definition sm (st : state) : minimizer := fst (fst (fst st)).

Lemma step_good st st' : sstep st st' -> good (sm st) -> good (sm st') /\ open_count (sm st') < open_count (sm st) /\ lo (sm st') = lo (sm st) /\ hi (sm st') = hi (sm st).
Proof.
  intros H G. destruct H as [m cur k last n a N E C L B R|m cur k last n N C|m cur k last n N C]; cbn in *; pose proof (next_some _ _ N) as U.
  - split; [now apply good_accept with (n := n)|]. split; [now apply accept_less with (n := n) | auto].
  - split; [now apply good_reject|]. split; [now apply reject_less | auto].
  - split; [now apply good_unknown|]. split; [now apply unknown_less | auto].
Qed.

(** The search ends, whatever the solver answers, unless one of two assertions fails. *)
Definition bound_panic : string := "assertion failed: num_actually_true <= n".
Definition order_panic : string := "assertion failed: max_reject < min_accept".
Lemma search_cases fuel : forall m cur k last, good m -> lo m = 0 -> open_count m < fuel ->
  (exists st, search fuel m cur k last = Ok st /\ clos_refl_trans_1n _ sstep (m, cur, k, last) st /\
     (next_trial (sm st) = None \/ (minl = AnySlice /\ exists st0 n a, clos_refl_trans_1n _ sstep (m, cur, k, last) st0 /\ next_trial (sm st0) = Some n /\ st = (accepted (sm st0) a, Some a, S (snd (fst st0)), Some (snd (fst st0), n)) /\ the_model check model (snd (fst st0)) n = Some a))) \/
  (search fuel m cur k last = Panic bound_panic /\ exists st n a, clos_refl_trans_1n _ sstep (m, cur, k, last) st /\
     next_trial (sm st) = Some n /\ the_model check model (snd (fst st)) n = Some a /\ n < a) \/
  (search fuel m cur k last = Panic order_panic /\ exists st n a r, clos_refl_trans_1n _ sstep (m, cur, k, last) st /\
     next_trial (sm st) = Some n /\ the_model check model (snd (fst st)) n = Some a /\ max_reject (sm st) = Some r /\ a <= r).
Proof.
  induction fuel as [|f IH]; intros m cur k last G Z F; [lia|]. cbn [SliceSearch.search].
  destruct (next_trial m) as [n|] eqn:N; [|left; exists (m, cur, k, last); split; [reflexivity|]; split; [constructor | now left]].
  pose proof (next_some _ _ N) as U.
  assert (Next : forall m' c, sstep (m, cur, k, last) (m', c, S k, Some (k, n)) ->
    (exists st, search f m' c (S k) (Some (k, n)) = Ok st /\ clos_refl_trans_1n _ sstep (m, cur, k, last) st /\
       (next_trial (sm st) = None \/ (minl = AnySlice /\ exists st0 n a, clos_refl_trans_1n _ sstep (m, cur, k, last) st0 /\ next_trial (sm st0) = Some n /\ st = (accepted (sm st0) a, Some a, S (snd (fst st0)), Some (snd (fst st0), n)) /\ the_model check model (snd (fst st0)) n = Some a))) \/
    (search f m' c (S k) (Some (k, n)) = Panic bound_panic /\ exists st n a, clos_refl_trans_1n _ sstep (m, cur, k, last) st /\
       next_trial (sm st) = Some n /\ the_model check model (snd (fst st)) n = Some a /\ n < a) \/
    (search f m' c (S k) (Some (k, n)) = Panic order_panic /\ exists st n a r, clos_refl_trans_1n _ sstep (m, cur, k, last) st /\
       next_trial (sm st) = Some n /\ the_model check model (snd (fst st)) n = Some a /\ max_reject (sm st) = Some r /\ a <= r)).
  { intros m' c S1. destruct (step_good _ _ S1 G) as (G' & L' & Z' & _). unfold sm in G', L', Z'; cbn [fst snd] in G', L', Z'. rewrite Z in Z'.
    destruct (IH m' c (S k) (Some (k, n)) G' Z' ltac:(lia)) as [(st & R & Q & D)|[(R & st & n' & a & Q & D)|(R & st & n' & a & r & Q & D)]].
    - left. exists st. split; [exact R|]. split; [econstructor; eauto|]. destruct D as [D|(D1 & st0 & n0 & a0 & D2 & D3)]; [now left|].
      right. split; auto. exists st0, n0, a0. split; [econstructor; eauto | exact D3].
    - right. left. split; [exact R|]. exists st, n', a. split; [econstructor; eauto | exact D].
    - right. right. split; [exact R|]. exists st, n', a, r. split; [econstructor; eauto | exact D]. }
  assert (Acc : forall a, the_model check model k n = Some a -> (check k n = Sat \/ (unk = Accept /\ check k n = Unknown)) ->
    let out := if n <? a then Panic bound_panic else
      rbind (add_result m a AcceptUpwards) (fun m' => match minl with AnySlice => Ok (m', Some a, S k, Some (k, n)) | _ => search f m' (Some a) (S k) (Some (k, n)) end) in
    (exists st, out = Ok st /\ clos_refl_trans_1n _ sstep (m, cur, k, last) st /\
       (next_trial (sm st) = None \/ (minl = AnySlice /\ exists st0 n a, clos_refl_trans_1n _ sstep (m, cur, k, last) st0 /\ next_trial (sm st0) = Some n /\ st = (accepted (sm st0) a, Some a, S (snd (fst st0)), Some (snd (fst st0), n)) /\ the_model check model (snd (fst st0)) n = Some a))) \/
    (out = Panic bound_panic /\ exists st n a, clos_refl_trans_1n _ sstep (m, cur, k, last) st /\
       next_trial (sm st) = Some n /\ the_model check model (snd (fst st)) n = Some a /\ n < a) \/
    (out = Panic order_panic /\ exists st n a r, clos_refl_trans_1n _ sstep (m, cur, k, last) st /\
       next_trial (sm st) = Some n /\ the_model check model (snd (fst st)) n = Some a /\ max_reject (sm st) = Some r /\ a <= r)).
  { intros a E C out. subst out. destruct (Nat.ltb_spec n a) as [L|L].
    - right. left. split; [reflexivity|]. exists (m, cur, k, last), n, a. split; [constructor | auto].
    - assert (D : (exists r, max_reject m = Some r /\ a <= r) \/ forall r, max_reject m = Some r -> r < a).
      { destruct (max_reject m) as [r|]; [|right; discriminate]. destruct (Nat.le_gt_cases a r); [left; eauto | right; intros r' [= <-]; auto]. }
      destruct D as [(r & Er & Lr)|D].
      + right. right. split; [|exists (m, cur, k, last), n, a, r; split; [constructor | auto]].
        unfold add_result. destruct U as (H1 & H2 & H3 & H4).
        replace ((lo m <=? a) && (a <=? hi m)) with true by (symmetry; apply andb_true_intro; split; apply Nat.leb_le; lia). cbn [negb]. rewrite Er.
        replace (r <? match min_accept m with Some y => Nat.min y a | None => a end) with false; [reflexivity|]. symmetry. apply Nat.ltb_ge.
        destruct (min_accept m); lia.
      + rewrite (add_accept_ok m n a U L ltac:(lia) D). cbn [rbind].
        assert (S1 : sstep (m, cur, k, last) (accepted m a, Some a, S k, Some (k, n))) by (apply ss_accept; auto; lia).
        specialize (Next _ _ S1). fold (accepted m a). destruct minl; auto.
        left. eexists. split; [reflexivity|]. split; [econstructor; [exact S1 | constructor]|]. right. split; auto.
        exists (m, cur, k, last), n, a. split; [constructor | auto]. }
  assert (Rej : (check k n = Unsat \/ (unk = Stop /\ check k n = Unknown)) -> add_result m n RejectDownwards = Ok (rejected m n) /\ sstep (m, cur, k, last) (rejected m n, Some n, S k, Some (k, n))).
  { intros C. split; [now apply add_reject | now apply ss_reject]. }
  assert (Unk : (check k n = Unknown /\ unk <> Stop /\ (unk = Accept -> the_model check model k n = None) \/ check k n = Sat /\ the_model check model k n = None) ->
    add_result m n TrialUnknown = Ok (unclear m n) /\ sstep (m, cur, k, last) (unclear m n, Some n, S k, Some (k, n))).
  { intros C. split; [now apply add_unknown | now apply ss_unknown]. }
  unfold bound_panic in *. destruct (the_model check model k n) as [a|] eqn:E.
  - destruct (check k n) eqn:C.
    + specialize (Acc a eq_refl (or_introl eq_refl)). cbn zeta in Acc. destruct unk, minl; exact Acc.
    + unfold the_model in E. rewrite C in E. discriminate.
    + destruct unk eqn:K.
      * destruct (Unk ltac:(left; repeat split; discriminate)) as [A1 A2]. rewrite A1. cbn [rbind]. now apply Next.
      * destruct (Rej ltac:(auto)) as [A1 A2]. rewrite A1. cbn [rbind]. now apply Next.
      * specialize (Acc a eq_refl ltac:(auto)). cbn zeta in Acc. destruct minl; exact Acc.
  - destruct (check k n) eqn:C.
    + destruct (Unk ltac:(auto)) as [A1 A2]. destruct unk; cbn beta iota; rewrite A1; cbn [rbind]; now apply Next.
    + destruct (Rej ltac:(auto)) as [A1 A2]. destruct unk; cbn beta iota; rewrite A1; cbn [rbind]; now apply Next.
    + destruct unk eqn:K.
      * destruct (Unk ltac:(left; repeat split; discriminate)) as [A1 A2]. rewrite A1. cbn [rbind]. now apply Next.
      * destruct (Rej ltac:(auto)) as [A1 A2]. rewrite A1. cbn [rbind]. now apply Next.
      * destruct (Unk ltac:(left; repeat split; discriminate)) as [A1 A2]. rewrite A1. cbn [rbind]. now apply Next.
Qed.
End S.
