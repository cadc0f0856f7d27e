(** What the search returns. *)
From Coq Require Import Bool List String Arith Lia Relations.
From Verif.Model Require Import Syntax Prover SliceSearch.
From Verif.Spec Require Import SliceSpec.
From Verif.Proofs Require Import SliceSearchProofs.
Import ListNotations.
Local Open Scope list_scope.
Local Open Scope nat_scope.

Lemma filter_len {A} (f : A -> bool) l : List.length (filter f l) <= List.length l.
Proof. induction l as [|x l IH]; cbn; [lia|]. destruct (f x); cbn; lia. Qed.
Lemma open_new v : open_count (new_min 0 v) < S (S v).
Proof.
  unfold open_count, range_list. cbn [lo hi new_min]. pose proof (filter_len (undecidedb (new_min 0 v)) (seq 0 (S v - 0))) as H.
  rewrite seq_length in H. lia.
Qed.
Lemma first_trial v : next_trial (new_min 0 v) = Some v.
Proof. unfold next_trial. cbn. now rewrite Nat.leb_refl. Qed.

Section S.
Variables (minl : minimality) (unk : unknown_handling) (check : nat -> nat -> satres) (model : nat -> nat -> option nat).
Notation sstep := (sstep unk check model).

Lemma star_inv (J : state -> Prop) st st' : (forall a b, good (sm a) -> J a -> sstep a b -> J b) ->
  clos_refl_trans_1n _ sstep st st' -> good (sm st) -> J st -> J st' /\ good (sm st') /\ hi (sm st') = hi (sm st) /\ lo (sm st') = lo (sm st).
Proof.
  intros HJ H. induction H as [|a b c H1 H2 IH]; intros G Ja; [auto|].
  destruct (step_good _ _ _ _ _ H1 G) as (G' & _ & L & H). destruct (IH G' (HJ _ _ G Ja H1)) as (A & B & C & D).
  split; [exact A|]. split; [exact B|]. split; congruence.
Qed.

Lemma unasked st st' : clos_refl_trans_1n _ sstep st st' -> snd st' = None -> st = st'.
Proof. intros H. induction H as [|x y z H1 H2 IH]; auto. intros E. specialize (IH E). subst z. destruct H1; discriminate. Qed.

(** No answer of the solver keeps the search from ending. *)
Theorem search_ends v : sat_binary_search minl unk check model v <> Panic "fuel".
Proof.
  unfold sat_binary_search. destruct (search_cases minl unk check model (S (S v)) (new_min 0 v) None 0 None) as [(st & -> & _)|[[-> _]|[-> _]]];
    try discriminate; try apply open_new; try (apply good_new; lia); auto.
  cbn [rbind]. unfold reset. destruct st as [[[m cur] k] last]. destruct cur as [c|]; [|discriminate]. destruct (c =? enabled m); [discriminate|].
  destruct (match min_accept m, max_reject m with Some _, _ => _ | None, Some _ => _ | None, None => _ end); discriminate.
Qed.

Variable sizes : nat -> Prop.
Hypothesis HS : sound_search sizes check model.

Lemma the_model_sat k n : check k n = Sat -> exists m, the_model check model k n = Some m /\ m <= n /\ sizes m.
Proof. intros E. pose proof (HS k n) as H. unfold the_model. now rewrite E in *. Qed.

(** ** Definite answers *)
Section Definite.
Hypothesis HD : definite check.
Definition J (st : state) : Prop :=
  let '(m, cur, k, last) := st in
  (forall r, max_reject m = Some r -> forall x, x <= r -> ~ sizes x) /\ (forall a, min_accept m = Some a -> sizes a) /\ unknowns m = [] /\
  match last with
  | None => cur = None /\ max_reject m = None
  | Some (k0, n0) => n0 <= hi m /\ match check k0 n0 with
                     | Sat => cur = min_accept m /\ the_model check model k0 n0 = min_accept m
                     | _ => cur = Some n0 /\ max_reject m = Some n0
                     end
  end.
Lemma J_step a b : good (sm a) -> J a -> sstep a b -> J b.
Proof.
  intros G Ja S. destruct S as [m cur k last n a N E C L B R|m cur k last n N C|m cur k last n N C]; cbn [J] in *; destruct Ja as (J1 & J2 & J3 & J4);
    pose proof (next_some _ _ N) as U.
  - destruct C as [C|[_ C]]; [|now destruct (HD k n)]. destruct (the_model_sat k n C) as (x & Ex & Lx & Sx). rewrite E in Ex. injection Ex as <-.
    cbn. repeat split; auto.
    + intros x [= <-]. exact Sx.
    + apply U.
    + rewrite C. auto.
  - destruct C as [C|[_ C]]; [|now destruct (HD k n)]. cbn. repeat split; auto.
    + intros r [= <-] x Hx. pose proof (HS k n) as H. rewrite C in H. auto.
    + apply U.
    + rewrite C. auto.
  - exfalso. destruct C as [[C _]|[C C']]; [now destruct (HD k n)|]. destruct (the_model_sat k n C) as (x & Ex & _). congruence.
Qed.

(** With definite answers: no assertion fails, and the slice is smallest. *)
Theorem definite_verdict v : minl <> AnySlice ->
  (slice_failing minl unk check model v = Ok (Proof, None) /\ forall m, m <= v -> ~ sizes m) \/
  exists m, slice_failing minl unk check model v = Ok (Counterexample, Some m) /\ m <= v /\ least_size sizes m.
Proof.
  intros NA. pose proof (good_new 0 v ltac:(lia)) as G0.
  assert (J0 : J (new_min 0 v, None, 0, None)) by (cbn; repeat split; auto; discriminate).
  unfold slice_failing, sat_binary_search.
  destruct (search_cases minl unk check model (S (S v)) (new_min 0 v) None 0 None G0 eq_refl (open_new v)) as [(st & -> & Q & D)|[(_ & st & n & a & Q & N & E & L)|(_ & st & n & a & r & Q & N & E & R & L)]].
  - destruct D as [D|[D _]]; [|contradiction]. destruct (star_inv J _ _ J_step Q G0 J0) as (Js & Gs & Hs & Ls). cbn [rbind].
    destruct st as [[[m cur] k] last]. cbn [J sm fst snd hi lo new_min] in *. destruct Js as (J1 & J2 & J3 & J4). pose proof (next_none _ D) as ND.
    unfold reset, enabled. destruct (min_accept m) as [a|] eqn:Ea.
    + right. pose proof (g_acc _ Gs a Ea) as Ba. pose proof (J2 a eq_refl) as Sa.
      assert (Least : forall x, sizes x -> a <= x).
      { intros x Sx. destruct (Nat.le_gt_cases a x); auto. exfalso. apply (ND x). repeat split; try lia.
        - intros r Hr. destruct (Nat.le_gt_cases x r); auto. destruct (J1 r Hr x); auto.
        - intros a' Ha. rewrite Ea in Ha. injection Ha as <-. auto.
        - rewrite J3. intros []. }
      destruct last as [[k0 n0]|].
      * destruct J4 as [Ln J4]. destruct (check k0 n0) eqn:C; [| |now destruct (HD k0 n0)].
        -- destruct J4 as [-> Em]. rewrite Nat.eqb_refl. cbn [rbind]. rewrite C, Em. exists a. repeat split; auto. lia.
        -- destruct J4 as [-> Er]. pose proof (g_order _ Gs n0 a Er Ea) as O. replace (n0 =? a) with false by (symmetry; apply Nat.eqb_neq; lia).
           assert (Ck : check k a = Sat). { pose proof (HS k a) as H. destruct (check k a) eqn:Ck; auto; [destruct (H a ltac:(lia) Sa) | now destruct (HD k a)]. }
           rewrite Ck. cbn [satb rbind]. rewrite Ck. destruct (the_model_sat k a Ck) as (x & -> & Lx & Sx). specialize (Least x Sx) as Lx'.
           assert (x = a) by lia. subst x. exists a. repeat split; auto. lia.
      * exfalso. pose proof (unasked _ _ Q eq_refl) as Eq. injection Eq as <- _ _. discriminate.
    + left. assert (R : max_reject m = Some v).
      { destruct (max_reject m) as [r|] eqn:Er.
        - pose proof (g_rej _ Gs r Er). destruct (Nat.eq_dec r v) as [->|NE]; auto. exfalso. apply (ND v). repeat split; try lia.
          + intros r' Hr. rewrite Er in Hr. injection Hr as <-. lia.
          + intros a Ha. congruence.
          + rewrite J3. intros [].
        - exfalso. apply (ND v). repeat split; try lia; try congruence. rewrite J3. intros []. }
      rewrite R. destruct last as [[k0 n0]|]; [|destruct J4; congruence]. destruct J4 as [Ln J4]. destruct (check k0 n0) eqn:C; [| |now destruct (HD k0 n0)].
      * exfalso. destruct (the_model_sat k0 n0 C) as (x & Ex & _). destruct J4. congruence.
      * destruct J4 as [-> Er]. rewrite R in Er. injection Er as <-. rewrite Nat.eqb_refl. cbn [rbind]. rewrite C. unfold the_model. rewrite C. split; auto.
        intros x Hx. exact (J1 v R x Hx).
  - exfalso. destruct (star_inv J _ _ J_step Q G0 J0) as (Js & _). destruct st as [[[m cur] k] last]. cbn [snd fst] in *.
    destruct (check k n) eqn:C; [| |now destruct (HD k n)]; [|unfold the_model in E; rewrite C in E; discriminate].
    destruct (the_model_sat k n C) as (x & Ex & Lx & _). rewrite E in Ex. injection Ex as <-. lia.
  - exfalso. destruct (star_inv J _ _ J_step Q G0 J0) as (Js & _). destruct st as [[[m cur] k] last]. cbn [snd fst sm J] in *.
    destruct (check k n) eqn:C; [| |now destruct (HD k n)]; [|unfold the_model in E; rewrite C in E; discriminate].
    destruct (the_model_sat k n C) as (x & Ex & Lx & Sx). rewrite E in Ex. injection Ex as <-. destruct Js as (J1 & _). exact (J1 r R a L Sx).
Qed.
End Definite.

(** ** Any sound answers, stopping at unknown ones *)
Definition K (v : nat) (st : state) : Prop :=
  let '(m, cur, k, last) := st in
  match last with
  | None => m = new_min 0 v /\ cur = None
  | Some (k0, n0) => n0 <= v /\
      match min_accept m with
      | Some a => (check k0 n0 = Sat /\ cur = Some a) \/ (exists c, cur = Some c /\ c < a)
      | None => cur = Some v /\ n0 = v /\ max_reject m = Some v
      end
  end.
Lemma K_step v a b : unk = Stop -> hi (sm a) = v -> good (sm a) -> K v a -> sstep a b -> K v b.
Proof.
  intros HU Hv G Ka S. destruct S as [m cur k last n a N E C L B R|m cur k last n N C|m cur k last n N C]; unfold sm in *; cbn [fst snd] in *;
    pose proof (next_some _ _ N) as U; cbn [K] in *.
  - assert (C' : check k n = Sat) by (destruct C as [C|[C _]]; [exact C | congruence]). split; [destruct U; lia|]. cbn. auto.
  - split; [destruct U; lia|]. cbn [rejected min_accept max_reject]. destruct last as [[k0 n0]|].
    + destruct Ka as [_ Ka]. destruct (min_accept m) as [a|] eqn:Ea.
      * right. exists n. split; auto. destruct U as (_ & _ & U & _). auto.
      * exfalso. destruct Ka as (_ & _ & R). destruct U as ((_ & U1) & U2 & _). specialize (U2 v R). lia.
    + destruct Ka as [-> ->]. cbn. rewrite first_trial in N. injection N as <-. auto.
  - exfalso. destruct C as [(_ & C & _)|[C C']]; [congruence|]. destruct (the_model_sat k n C) as (x & Ex & _). congruence.
Qed.
Theorem stop_verdict v r x : unk = Stop -> slice_failing minl unk check model v = Ok (r, x) ->
  match r with
  | Proof => forall m, m <= v -> ~ sizes m
  | Counterexample => exists m, x = Some m /\ m <= v /\ sizes m
  | ProveUnknown => True
  end.
Proof.
  intros HU. pose proof (good_new 0 v ltac:(lia)) as G0. unfold slice_failing, sat_binary_search.
  destruct (search_cases minl unk check model (S (S v)) (new_min 0 v) None 0 None G0 eq_refl (open_new v)) as [(st & -> & Q & D)|[[-> _]|[-> _]]]; try discriminate.
  cbn [rbind].
  assert (Ks : K v st /\ good (sm st) /\ hi (sm st) = v).
  { destruct (star_inv (fun st => K v st /\ hi (sm st) = v) _ _ ltac:(intros a b G [Ka Ha] S; split; [eapply K_step; eauto | destruct (step_good _ _ _ _ _ S G) as (_ & _ & _ & Hh); congruence]) Q G0 ltac:(cbn; auto)) as ([A1 A2] & A3 & _). auto. }
  destruct Ks as (Ks & Gs & Hs). destruct st as [[[m cur] k] last]. unfold sm in *. cbn [K fst snd] in *.
  unfold reset, enabled. destruct last as [[k0 n0]|].
  - destruct Ks as [Ln Ks]. destruct (min_accept m) as [a|] eqn:Ea.
    + assert (Ba : a <= v) by (pose proof (g_acc _ Gs a Ea); lia).
      assert (End : forall k1 n1, n1 <= v -> check k1 n1 <> Unsat -> Ok (match check k1 n1 with Unsat => Proof | Sat => Counterexample | Unknown => ProveUnknown end, the_model check model k1 n1) = Ok (r, x) ->
        match r with Proof => forall m, m <= v -> ~ sizes m | Counterexample => exists m, x = Some m /\ m <= v /\ sizes m | ProveUnknown => True end).
      { intros k1 n1 L1 NU. destruct (check k1 n1) eqn:C; intros [= <- <-]; auto; try congruence. destruct (the_model_sat k1 n1 C) as (y & -> & Ly & Sy). exists y. repeat split; auto. lia. }
      destruct Ks as [[C ->]|(c & -> & Lc)].
      * rewrite Nat.eqb_refl. cbn [rbind]. apply End; auto. congruence.
      * replace (c =? a) with false by (symmetry; apply Nat.eqb_neq; lia). destruct (satb (check k a) Unsat) eqn:C; [discriminate|]. cbn [rbind].
        apply End; auto. intros C'. rewrite C' in C. discriminate.
    + destruct Ks as (-> & -> & R). rewrite R, Nat.eqb_refl. cbn [rbind]. pose proof (HS k0 v) as H.
      destruct (check k0 v) eqn:C; intros [= <- <-]; auto. destruct (the_model_sat k0 v C) as (y & -> & Ly & Sy). eauto.
  - destruct Ks as [-> ->]. cbn. discriminate.
Qed.
End S.

(** ** Where it goes wrong *)
(** Accepting inconsistent models: the question about all statements stays unanswered, but there is no counterexample without statements. *)
Definition acc_check (k n : nat) : satres := match n with O => Unsat | _ => Unknown end.
Lemma accept_refuted : sound_search (fun m => m = 1) acc_check (fun _ _ => None) /\
  slice_failing SizeMinimal Accept acc_check (fun _ _ => None) 1 = Ok (Proof, None).
Proof. split; [|reflexivity]. intros k [|n]; cbn; auto. intros m H ->. lia. Qed.
(** Stopping at unknown answers: a later model is smaller than a size that was given up. *)
Definition stop_check (k n : nat) : satres := match k, n with 1, _ => Unknown | _, O => Unsat | _, _ => Sat end.
Definition stop_model (k n : nat) : option nat := match k with 0 => if 4 <=? n then Some 4 else Some 1 | _ => Some 1 end.
Lemma stop_refuted : sound_search (fun m => m = 1 \/ m = 4) stop_check stop_model /\
  slice_failing SizeMinimal Stop stop_check stop_model 4 = Panic order_panic.
Proof.
  split; [|reflexivity]. intros [|[|k]] [|n]; unfold stop_check, stop_model; auto.
  - intros m H [->| ->]; lia.
  - destruct (4 <=? S n) eqn:E; [apply Nat.leb_le in E; exists 4 | exists 1]; repeat split; auto; lia.
  - intros m H [->| ->]; lia.
  - exists 1. repeat split; auto; lia.
Qed.
(** Accepting inconsistent models: such a model need not respect the bound. *)
Lemma bound_refuted : sound_search (fun m => m = 1) (fun _ _ => Unknown) (fun _ _ => Some 2) /\
  slice_failing SizeMinimal Accept (fun _ _ => Unknown) (fun _ _ => Some 2) 2 = Panic bound_panic.
Proof. split; [|reflexivity]. intros k n. exact Logic.I. Qed.
Lemma accept_proof_refuted : exists sizes check model v, sound_search sizes check model /\ (exists m, m <= v /\ sizes m) /\
  slice_failing SizeMinimal Accept check model v = Ok (Proof, None).
Proof. exists (fun m => m = 1), acc_check, (fun _ _ => None), 1. destruct accept_refuted as [A B]. repeat split; auto. exists 1. auto. Qed.
Definition three_check (k n : nat) : satres := if n <? 2 then Unsat else Sat.
Definition three_model (k n : nat) : option nat := if 3 <=? n then Some 3 else Some 2.
Lemma three_case : sound_search (fun m => m = 2 \/ m = 3) three_check three_model /\ definite three_check /\
  slice_failing SizeMinimal Stop three_check three_model 5 = Ok (Counterexample, Some 2).
Proof.
  split; [|split; [|reflexivity]].
  - intros k n. unfold three_check, three_model. destruct (n <? 2) eqn:E.
    + apply Nat.ltb_lt in E. intros m H [->| ->]; lia.
    + apply Nat.ltb_ge in E. destruct (3 <=? n) eqn:E'; [apply Nat.leb_le in E'; exists 3 | exists 2]; auto.
  - intros k n. unfold three_check. destruct (n <? 2); discriminate.
Qed.
