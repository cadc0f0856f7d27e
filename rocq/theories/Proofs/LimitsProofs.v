(** Invariants of the stop notifications. *)
From Coq Require Import Bool List Arith Lia Permutation.
From Verif.Model Require Import Driver Limits.
From Verif.Spec Require Import Stops.
Import ListNotations.

Definition holds (p : pc) : bool := match p with PSubLoad | PSubAct _ | PSend _ _ _ _ | PUnsub _ => true | _ => false end.
(** In the first check, or waiting. *)
Definition unreceived (p : pc) : bool :=
  match p with PCheck AFirst | PClock AFirst | PCas _ AFirst | PLoad AFirst | PLock _ AFirst | PSend _ _ _ AFirst | PSelect => true | _ => false end.
Definition subscribed (p : pc) : bool := unreceived p || match p with PUnLock _ | PUnsub _ => true | _ => false end.
Definition young (p : pc) : bool := match p with PIdle | PSubLock | PSubLoad | PSubAct _ => true | _ => false end.
(** What is known about the cell at a program point. *)
Definition knows (p : pc) (c : option limit_error) : Prop :=
  match p with
  | PReturn (Some e) | PLock e _ | PSend e _ _ _ => c = Some e
  | PSubAct (Some e) => c = Some e
  | PLoad _ | PUnLock NStop | PUnLock NSecond | PUnsub NStop | PUnsub NSecond | PStop | PCheck ASecond => c <> None
  | PClock ASecond | PCas _ ASecond => False
  | _ => True
  end.
Definition notifier (p : pc) : bool := match p with PLock _ _ | PSend _ _ _ _ => true | _ => false end.
(** [c] will be notified by a thread that is at this point. *)
Definition will (l : list nat) (p : pc) (c : nat) : Prop := match p with PLock _ _ => In c l | PSend _ _ todo _ => In c todo | _ => False end.

Record inv (S : sys) : Prop := {
  i_mutex : forall t, mutex S = Some t <-> holds (pcs S t) = true;
  i_sub : forall c, In c (subs S) -> subscribed (pcs S c) = true;
  i_nodup : NoDup (subs S);
  i_knows : forall t, knows (pcs S t) (cell S);
  i_one : forall t u, notifier (pcs S t) = true -> notifier (pcs S u) = true -> t = u;
  i_send : forall t e k td a, pcs S t = PSend e k td a -> subs S = k ++ td;
  i_buf : forall c e, buf S c = Some e -> cell S = Some e;
  i_young : forall c, young (pcs S c) = true -> buf S c = None;
  i_free : forall t c, will (subs S) (pcs S t) c -> buf S c = None;
  i_none : forall c, cell S = None -> unreceived (pcs S c) = true -> In c (subs S);
  i_wake : forall c, cell S <> None -> unreceived (pcs S c) = true -> buf S c <> None \/ exists t, will (subs S) (pcs S t) c;
  i_act : forall c, cell S <> None -> pcs S c = PSubAct None -> exists t e a, pcs S t = PLock e a;
  i_stops : forall t, stops S t = 0 \/ stops S t = 1 /\ pcs S t = PExit /\ cell S <> None;
  i_fin : forall t, (pcs S t = PUnLock NFin \/ pcs S t = PUnsub NFin) -> done S t = true;
  i_exit : forall t, pcs S t = PExit -> done S t = true \/ stops S t = 1
}.

Lemma set_same {A} (f : nat -> A) t v : set f t v t = v. Proof. unfold set. now rewrite Nat.eqb_refl. Qed.
Lemma set_other {A} (f : nat -> A) t v u : u <> t -> set f t v u = f u. Proof. intros H. unfold set. now apply Nat.eqb_neq in H as ->. Qed.
Lemma set_cases {A} (f : nat -> A) t v u : (u = t /\ set f t v u = v) \/ (u <> t /\ set f t v u = f u).
Proof. destruct (Nat.eq_dec u t) as [->|N]; [left|right]; auto using set_same, set_other. Qed.

Lemma start_inv : inv start.
Proof. constructor; simpl; try easy; try (intros; discriminate); try constructor; try tauto; intros; try easy; auto. now destruct H. Qed.
(** Steps that change the program point, and take or return the mutex at most. *)
Lemma move_inv S t p m : inv S -> 
  (m = mutex S /\ holds p = holds (pcs S t) \/ m = Some t /\ mutex S = None /\ holds p = true \/ m = None /\ mutex S = Some t /\ holds p = false) ->
  (subscribed (pcs S t) = true -> subscribed p = true) -> knows p (cell S) ->
  notifier (pcs S t) = false -> notifier p = false -> (young p = true -> young (pcs S t) = true) ->
  (unreceived p = true -> unreceived (pcs S t) = true) -> (p = PSubAct None -> cell S = None) -> pcs S t <> PExit ->
  ((p = PUnLock NFin \/ p = PUnsub NFin) -> done S t = true) -> (p = PExit -> done S t = true) ->
  inv (goto t p (with_mutex m S)).
Proof.
  intros [] Hm Hs Hk Hn Hn' Hy Hu Ha Hx Hf He. constructor; cbn [goto with_mutex cell mutex subs buf done late stops pcs].
  - intros u. destruct (set_cases (pcs S) t p u) as [[-> ->]|[N ->]].
    + destruct Hm as [[-> ->]|[(-> & E & ->)|(-> & E & ->)]]; [apply i_mutex0|tauto|split; discriminate].
    + destruct Hm as [[-> E]|[(-> & E & F)|(-> & E & F)]]; [apply i_mutex0| |].
      * split; [intros [= ->]; tauto|]. intros H. apply i_mutex0 in H. congruence.
      * split; [discriminate|]. intros H. apply i_mutex0 in H. congruence.
  - intros c H. apply i_sub0 in H. destruct (set_cases (pcs S) t p c) as [[-> ->]|[N ->]]; auto.
  - auto.
  - intros u. destruct (set_cases (pcs S) t p u) as [[-> ->]|[N ->]]; auto.
  - intros u v. destruct (set_cases (pcs S) t p u) as [[-> ->]|[N ->]]; [congruence|]. destruct (set_cases (pcs S) t p v) as [[-> ->]|[N' ->]]; [congruence|]. auto.
  - intros u e k td a. destruct (set_cases (pcs S) t p u) as [[-> ->]|[N ->]]; [intros ->; discriminate|eauto].
  - auto.
  - intros c. destruct (set_cases (pcs S) t p c) as [[-> ->]|[N ->]]; auto.
  - intros u c. destruct (set_cases (pcs S) t p u) as [[-> ->]|[N ->]]; [destruct p; try discriminate; intros []|eauto].
  - intros c Hc. destruct (set_cases (pcs S) t p c) as [[-> ->]|[N ->]]; auto.
  - intros c Hc H. assert (K : buf S c <> None \/ exists u, will (subs S) (pcs S u) c).
    { destruct (set_cases (pcs S) t p c) as [[-> E]|[N E]]; rewrite E in H; auto. }
    destruct K as [K|[u K]]; [now left|right]. exists u. rewrite set_other; auto. intros ->. destruct (pcs S t); try discriminate; destruct K.
  - intros c Hc H. assert (K : exists u e a, pcs S u = PLock e a).
    { destruct (set_cases (pcs S) t p c) as [[-> E]|[N E]]; rewrite E in H; eauto. now apply Ha in H. }
    destruct K as (u & e & a & K). exists u, e, a. rewrite set_other; auto. intros ->. rewrite K in Hn. discriminate.
  - intros u. destruct (i_stops0 u) as [H|(H & E & C)]; [now left|right]. rewrite set_other; auto. congruence.
  - intros u. destruct (set_cases (pcs S) t p u) as [[-> ->]|[N ->]]; auto.
  - intros u. destruct (set_cases (pcs S) t p u) as [[-> ->]|[N ->]]; auto.
Qed.
Lemma goto_eq S t p : goto t p S = goto t p (with_mutex (mutex S) S).
Proof. now destruct S. Qed.

Ltac cases u := let Ne := fresh "Ne" in match goal with |- context [set ?f ?t ?v u] => destruct (set_cases f t v u) as [[-> ->]|[Ne ->]] end.

(** Steps that change the cell, the list, or a channel. *)
Lemma act_some_inv S t e : inv S -> pcs S t = PSubAct (Some e) -> buf S t = None -> inv (release t (PCheck AFirst) (with_buf t (Some e) S)).
Proof.
  intros HI E B. destruct HI. assert (HM : mutex S = Some t) by (apply i_mutex0; now rewrite E). pose proof (i_knows0 t) as K. rewrite E in K. simpl in K.
  assert (HN : ~ In t (subs S)) by (intros H; apply i_sub0 in H; rewrite E in H; discriminate).
  constructor; cbn [release goto with_mutex with_buf cell mutex subs buf done late stops pcs].
  - intros u. cases u; [split; discriminate|]. split; [discriminate|]. intros H1. apply i_mutex0 in H1. congruence.
  - intros c H. cases c; [tauto|auto].
  - auto.
  - intros u. cases u; [exact I|auto].
  - intros u v. cases u; [discriminate|]. cases v; [discriminate|]. auto.
  - intros u e' k td a. cases u; [discriminate|eauto].
  - intros c e'. cases c; [congruence|eauto].
  - intros c. destruct (Nat.eq_dec c t) as [->|N]; [rewrite set_same; discriminate|]. rewrite !set_other; auto.
  - intros u c. cases u; [intros []|]. intros W. cases c; [|eauto]. exfalso. destruct (pcs S u) eqn:P; try destruct W; simpl in W; try tauto.
    pose proof (i_mutex0 u) as M. rewrite P in M. assert (mutex S = Some u) by (now apply M). congruence.
  - intros c Hc. congruence.
  - intros c Hc. destruct (Nat.eq_dec c t) as [->|N]; [rewrite !set_same; left; discriminate|]. rewrite !set_other by auto. intros H.
    destruct (i_wake0 c Hc H) as [W|[u W]]; [now left|right]. exists u. rewrite set_other; auto. intros ->. rewrite E in W. destruct W.
  - intros c Hc. cases c; [discriminate|]. intros H. destruct (i_act0 c Hc H) as (u & e' & a & U). exists u, e', a. rewrite set_other; auto. congruence.
  - intros u. destruct (i_stops0 u) as [H|(H & U & C)]; [now left|right]. rewrite set_other; auto. congruence.
  - intros u. cases u; [intros [|]; discriminate|auto].
  - intros u. cases u; [discriminate|auto].
Qed.
Lemma act_none_inv S t : inv S -> pcs S t = PSubAct None -> inv (release t (PCheck AFirst) (with_subs (subs S ++ [t]) S)).
Proof.
  intros HI E. destruct HI. assert (HM : mutex S = Some t) by (apply i_mutex0; now rewrite E).
  assert (HN : ~ In t (subs S)) by (intros H; apply i_sub0 in H; rewrite E in H; discriminate).
  assert (NS : forall u e k td a, pcs S u <> PSend e k td a).
  { intros u e k td a H. assert (mutex S = Some u) by (apply i_mutex0; now rewrite H). assert (u = t) by congruence. subst. congruence. }
  constructor; cbn [release goto with_mutex with_subs cell mutex subs buf done late stops pcs].
  - intros u. cases u; [split; discriminate|]. split; [discriminate|]. intros H1. apply i_mutex0 in H1. congruence.
  - intros c H. cases c; [reflexivity|]. apply in_app_or in H as [H|[H|[]]]; [auto|congruence].
  - apply (Permutation.Permutation_NoDup (l := t :: subs S)); [apply Permutation.Permutation_cons_append|]. now constructor.
  - intros u. cases u; [exact I|auto].
  - intros u v. cases u; [discriminate|]. cases v; [discriminate|]. auto.
  - intros u e' k td a. cases u; [discriminate|]. intros H. now apply NS in H.
  - auto.
  - intros c. cases c; [discriminate|auto].
  - intros u c. cases u; [intros []|]. intros W. destruct (pcs S u) eqn:P; try destruct W; simpl in W; try (now apply NS in P).
    apply in_app_or in W as [W|[<-|[]]]; [apply (i_free0 u); now rewrite P | apply i_young0; now rewrite E].
  - intros c Hc. cases c; intros H; apply in_or_app; [right; now left|left; auto].
  - intros c Hc H. assert (K : c = t \/ c <> t /\ unreceived (pcs S c) = true). { destruct (Nat.eq_dec c t) as [->|N]; [now left|]. rewrite set_other in H; auto. }
    destruct K as [->|[N K]].
    + right. destruct (i_act0 t Hc E) as (u & e & a & U). exists u. rewrite set_other by congruence. rewrite U. simpl. apply in_or_app. right. now left.
    + destruct (i_wake0 c Hc K) as [W|[u W]]; [now left|right]. exists u. rewrite set_other by (intros ->; rewrite E in W; destruct W).
      destruct (pcs S u) eqn:P; try destruct W; simpl in *; auto; apply in_or_app; now left.
  - intros c Hc. cases c; [discriminate|]. intros H. destruct (i_act0 c Hc H) as (u & e' & a & U). exists u, e', a. rewrite set_other; auto. congruence.
  - intros u. destruct (i_stops0 u) as [H|(H & U & C)]; [now left|right]. rewrite set_other; auto. congruence.
  - intros u. cases u; [intros [|]; discriminate|auto].
  - intros u. cases u; [discriminate|auto].
Qed.
Lemma cas_inv S t e a : inv S -> pcs S t = PCas e a -> cell S = None -> inv (goto t (PLock e a) (with_cell (Some e) S)).
Proof.
  intros HI E C. destruct HI. pose proof (i_knows0 t) as K0. rewrite E in K0. assert (KN : forall u, notifier (pcs S u) = false).
  { intros u. specialize (i_knows0 u). destruct (pcs S u); auto; simpl in i_knows0; congruence. }
  constructor; cbn [goto with_cell cell mutex subs buf done late stops pcs].
  - intros u. specialize (i_mutex0 u). cases u; [rewrite E in i_mutex0|]; auto.
  - intros c H. apply i_sub0 in H. cases c; [|auto]. rewrite E in H. destruct a; auto.
  - auto.
  - intros u. cases u; [reflexivity|]. specialize (i_knows0 u). clear - i_knows0 C. rewrite C in i_knows0. destruct (pcs S u); simpl in *; auto;
    repeat match goal with r : option limit_error |- _ => destruct r | x : after |- _ => destruct x | n : next |- _ => destruct n end; simpl in *; congruence.
  - intros u v. cases u; cases v; auto; rewrite ?KN; intros; discriminate.
  - intros u e' k td a'. cases u; [discriminate|eauto].
  - intros c e' H. apply i_buf0 in H. congruence.
  - intros c. cases c; [discriminate|auto].
  - intros u c. assert (B : buf S c = None). { destruct (buf S c) eqn:B; auto. apply i_buf0 in B. congruence. } auto.
  - intros c Hc. discriminate.
  - intros c _ H. right. exists t. rewrite set_same. simpl. apply i_none0; auto. revert H. cases c; auto. rewrite E. destruct a; auto.
  - intros c _ H. exists t, e, a. now rewrite set_same.
  - intros u. destruct (i_stops0 u) as [H|(H & U & D)]; [now left|right]. congruence.
  - intros u. cases u; [intros [|]; discriminate|auto].
  - intros u. cases u; [discriminate|auto].
Qed.
Lemma lock_inv S t e a : inv S -> pcs S t = PLock e a -> mutex S = None -> inv (goto t (PSend e [] (subs S) a) (with_mutex (Some t) S)).
Proof.
  intros HI E M. destruct HI. pose proof (i_knows0 t) as K0. rewrite E in K0. simpl in K0.
  assert (ON : forall u, notifier (pcs S u) = true -> u = t) by (intros u H; apply i_one0; auto; now rewrite E).
  assert (NH : forall u, holds (pcs S u) = false). { intros u. destruct (holds (pcs S u)) eqn:H; auto. apply i_mutex0 in H. congruence. }
  constructor; cbn [goto with_mutex cell mutex subs buf done late stops pcs].
  - intros u. cases u; [tauto|]. rewrite NH. split; [congruence|discriminate].
  - intros c H. apply i_sub0 in H. cases c; [|auto]. rewrite E in H. destruct a; auto.
  - auto.
  - intros u. cases u; auto.
  - intros u v. cases u; cases v; auto; intros; solve [auto | symmetry; auto].
  - intros u e' k td a'. cases u; [intros [= <- <- <- <-]; reflexivity|]. intros H. specialize (NH u). rewrite H in NH. discriminate.
  - auto.
  - intros c. cases c; [discriminate|auto].
  - intros u c. cases u; [|eauto]. simpl. intros H. apply (i_free0 t). now rewrite E.
  - intros c Hc. congruence.
  - intros c Hc H. assert (K : unreceived (pcs S c) = true). { revert H. cases c; auto. rewrite E. destruct a; auto. }
    destruct (i_wake0 c Hc K) as [W|[u W]]; [now left|right]. exists t. rewrite set_same. simpl. assert (u = t) as -> by (apply ON; destruct (pcs S u); try destruct W; reflexivity).
    now rewrite E in W.
  - intros c Hc. cases c; [discriminate|]. intros H. specialize (NH c). rewrite H in NH. discriminate.
  - intros u. destruct (i_stops0 u) as [H|(H & U & D)]; [now left|right]. rewrite set_other; auto. congruence.
  - intros u. cases u; [intros [|]; discriminate|auto].
  - intros u. cases u; [discriminate|auto].
Qed.
Lemma send_inv S t e k c td a : inv S -> pcs S t = PSend e k (c :: td) a -> inv (goto t (PSend e (k ++ [c]) td a) (with_buf c (Some e) S)).
Proof.
  intros HI E. destruct HI. pose proof (i_knows0 t) as K0. rewrite E in K0. simpl in K0. assert (HM : mutex S = Some t) by (apply i_mutex0; now rewrite E).
  assert (ON : forall u, notifier (pcs S u) = true -> u = t) by (intros u H; apply i_one0; auto; now rewrite E).
  pose proof (i_send0 _ _ _ _ _ E) as SU. assert (SC : subscribed (pcs S c) = true). { apply i_sub0. rewrite SU. apply in_or_app. right. now left. }
  assert (NC : ~ In c td). { rewrite SU in i_nodup0. apply NoDup_remove_2 in i_nodup0. intros H. apply i_nodup0. apply in_or_app. now right. }
  constructor; cbn [goto with_buf cell mutex subs buf done late stops pcs].
  - intros u. specialize (i_mutex0 u). cases u; [rewrite E in i_mutex0|]; auto.
  - intros c' H. apply i_sub0 in H. cases c'; [|auto]. rewrite E in H. destruct a; auto.
  - auto.
  - intros u. cases u; auto.
  - intros u v. cases u; cases v; auto; intros; solve [auto | symmetry; auto].
  - intros u e' k' td' a'. cases u; [intros [= <- <- <- <-]; rewrite SU, <- app_assoc; reflexivity|eauto].
  - intros c' e'. cases c'; [congruence|eauto].
  - intros c' H. destruct (Nat.eq_dec c' c) as [->|N].
    + exfalso. revert H. cases c; [discriminate|]. intros H. destruct (pcs S c); discriminate.
    + rewrite set_other by auto. revert H. cases c'; [discriminate|auto].
  - intros u c'. cases u.
    + simpl. intros H. rewrite set_other by congruence. apply (i_free0 t). rewrite E. now right.
    + intros H. assert (u = t) by (apply ON; destruct (pcs S u); try destruct H; reflexivity). congruence.
  - intros c' Hc. congruence.
  - intros c' Hc H. destruct (Nat.eq_dec c' c) as [->|N]; [left; rewrite set_same; discriminate|]. rewrite (set_other (buf S)) by auto.
    assert (K : unreceived (pcs S c') = true). { revert H. cases c'; auto. rewrite E. destruct a; auto. }
    destruct (i_wake0 c' Hc K) as [W|[u W]]; [now left|right]. exists t. rewrite set_same. simpl. assert (u = t) as -> by (apply ON; destruct (pcs S u); try destruct W; reflexivity).
    rewrite E in W. destruct W; [congruence|auto].
  - intros c' Hc. cases c'; [discriminate|]. intros H. assert (mutex S = Some c') by (apply i_mutex0; now rewrite H). congruence.
  - intros u. destruct (i_stops0 u) as [H|(H & U & D)]; [now left|right]. rewrite set_other; auto. congruence.
  - intros u. cases u; [intros [|]; discriminate|auto].
  - intros u. cases u; [discriminate|auto].
Qed.
Lemma sent_inv S t e k a : inv S -> pcs S t = PSend e k [] a -> inv (release t (ret a (Some e)) (with_subs k S)).
Proof.
  intros HI E. destruct HI. pose proof (i_knows0 t) as K0. rewrite E in K0. simpl in K0. assert (HM : mutex S = Some t) by (apply i_mutex0; now rewrite E).
  assert (ON : forall u, notifier (pcs S u) = true -> u = t) by (intros u H; apply i_one0; auto; now rewrite E).
  pose proof (i_send0 _ _ _ _ _ E) as SU. rewrite app_nil_r in SU. rewrite <- SU.
  assert (NW : forall u c, ~ will (subs S) (pcs S u) c).
  { intros u c W. assert (u = t) as -> by (apply ON; destruct (pcs S u); try destruct W; reflexivity). rewrite E in W. destruct W. }
  assert (P : holds (ret a (Some e)) = false /\ notifier (ret a (Some e)) = false /\ young (ret a (Some e)) = false /\ unreceived (ret a (Some e)) = false /\
    knows (ret a (Some e)) (cell S) /\ ret a (Some e) <> PUnLock NFin /\ ret a (Some e) <> PUnsub NFin /\ ret a (Some e) <> PExit /\ ret a (Some e) <> PSubAct None /\
    (forall e' k td a', ret a (Some e) <> PSend e' k td a') /\ (subscribed (PSend e k [] a) = true -> subscribed (ret a (Some e)) = true)).
  { destruct a; simpl; rewrite K0; repeat split; try discriminate; auto. }
  destruct P as (P1 & P2 & P3 & P4 & P5 & P6 & P7 & P8 & P9 & P10 & P11). set (p := ret a (Some e)) in *. clearbody p.
  constructor; cbn [release goto with_mutex with_subs cell mutex subs buf done late stops pcs].
  - intros u. cases u; [split; congruence|]. split; [discriminate|]. intros H1. apply i_mutex0 in H1. congruence.
  - intros c H. apply i_sub0 in H. cases c; [|auto]. rewrite E in H. auto.
  - auto.
  - intros u. cases u; auto.
  - intros u v. cases u; [congruence|]. cases v; [congruence|]. auto.
  - intros u e' k' td a'. cases u; [intros H; now apply P10 in H|eauto].
  - auto.
  - intros c. cases c; [congruence|auto].
  - intros u c. cases u; [destruct p; try discriminate; intros []|]. intros W. now apply NW in W.
  - intros c Hc. congruence.
  - intros c Hc. cases c; [congruence|]. intros H. destruct (i_wake0 c Hc H) as [W|[u W]]; [now left|now apply NW in W].
  - intros c Hc. cases c; [congruence|]. intros H. assert (mutex S = Some c) by (apply i_mutex0; now rewrite H). congruence.
  - intros u. destruct (i_stops0 u) as [H|(H & U & D)]; [now left|right]. rewrite set_other; auto. congruence.
  - intros u. cases u; [intros [|]; congruence|auto].
  - intros u. cases u; [congruence|auto].
Qed.
Lemma receive_inv S t : inv S -> pcs S t = PSelect -> buf S t <> None -> inv (goto t (PUnLock NSecond) (with_buf t None S)).
Proof.
  intros HI E B. destruct HI. assert (C : cell S <> None). { destruct (buf S t) eqn:B'; [apply i_buf0 in B'|]; congruence. }
  constructor; cbn [goto with_buf cell mutex subs buf done late stops pcs].
  - intros u. specialize (i_mutex0 u). cases u; [rewrite E in i_mutex0|]; auto.
  - intros c H. apply i_sub0 in H. cases c; auto.
  - auto.
  - intros u. cases u; auto.
  - intros u v. cases u; [discriminate|]. cases v; [discriminate|]. auto.
  - intros u e' k' td a'. cases u; [discriminate|eauto].
  - intros c e. cases c; [discriminate|eauto].
  - intros c H. cases c; [reflexivity|]. revert H. cases c; [discriminate|auto].
  - intros u c. cases u; [intros []|]. intros H. cases c; [reflexivity|eauto].
  - intros c Hc. congruence.
  - intros c Hc H. destruct (Nat.eq_dec c t) as [->|N]; [rewrite set_same in H; discriminate|]. rewrite set_other in H by auto. rewrite set_other by auto.
    destruct (i_wake0 c Hc H) as [W|[u W]]; [now left|right]. exists u. rewrite set_other; auto. intros ->. rewrite E in W. destruct W.
  - intros c Hc. cases c; [discriminate|]. intros H. destruct (i_act0 c Hc H) as (u & e' & a & U). exists u, e', a. rewrite set_other; auto. congruence.
  - intros u. destruct (i_stops0 u) as [H|(H & U & D)]; [now left|right]. rewrite set_other; auto. congruence.
  - intros u. cases u; [intros [|]; discriminate|auto].
  - intros u. cases u; [discriminate|auto].
Qed.
Lemma unsub_inv S t n : inv S -> pcs S t = PUnsub n ->
  inv (release t (match n with NStop => PStop | NFin => PExit | NSecond => PCheck ASecond end) (with_subs (filter (fun c => negb (Nat.eqb c t)) (subs S)) S)).
Proof.
  intros HI E. destruct HI. pose proof (i_knows0 t) as K0. rewrite E in K0. assert (HM : mutex S = Some t) by (apply i_mutex0; now rewrite E).
  assert (NS : forall u e k td a, pcs S u <> PSend e k td a).
  { intros u e k td a H. assert (mutex S = Some u) by (apply i_mutex0; now rewrite H). assert (u = t) by congruence. subst. congruence. }
  assert (FI : forall c, In c (filter (fun c => negb (Nat.eqb c t)) (subs S)) <-> In c (subs S) /\ c <> t).
  { intros c. rewrite filter_In, Bool.negb_true_iff, Nat.eqb_neq. tauto. }
  set (p := match n with NStop => PStop | NFin => PExit | NSecond => PCheck ASecond end).
  assert (P : holds p = false /\ notifier p = false /\ young p = false /\ unreceived p = false /\ knows p (cell S) /\ p <> PUnLock NFin /\ p <> PUnsub NFin /\
    (p = PExit -> done S t = true) /\ p <> PSubAct None /\ (forall e' k td a', p <> PSend e' k td a')).
  { subst p. destruct n; simpl in *; repeat split; try discriminate; auto. }
  destruct P as (P1 & P2 & P3 & P4 & P5 & P6 & P7 & P8 & P9 & P10). clearbody p.
  constructor; cbn [release goto with_mutex with_subs cell mutex subs buf done late stops pcs].
  - intros u. cases u; [split; congruence|]. split; [discriminate|]. intros H1. apply i_mutex0 in H1. congruence.
  - intros c H. apply FI in H as [H N]. rewrite set_other; auto.
  - now apply NoDup_filter.
  - intros u. cases u; auto.
  - intros u v. cases u; [congruence|]. cases v; [congruence|]. auto.
  - intros u e' k' td a'. cases u; [intros H; now apply P10 in H|]. intros H. now apply NS in H.
  - auto.
  - intros c. cases c; [congruence|auto].
  - intros u c. cases u; [destruct p; try discriminate; intros []|]. intros W. apply (i_free0 u).
    destruct (pcs S u) eqn:U; try destruct W; simpl in *; [now apply FI in W | now apply NS in U].
  - intros c Hc. cases c; [congruence|]. intros H. apply FI. auto.
  - intros c Hc. cases c; [congruence|]. intros H. destruct (i_wake0 c Hc H) as [W|[u W]]; [now left|right]. exists u. rewrite set_other by (intros ->; rewrite E in W; destruct W).
    destruct (pcs S u) eqn:U; try destruct W; simpl in *; [now apply FI | now apply NS in U].
  - intros c Hc. cases c; [congruence|]. intros H. destruct (i_act0 c Hc H) as (u & e' & a & U). exists u, e', a. rewrite set_other; auto. congruence.
  - intros u. destruct (i_stops0 u) as [H|(H & U & D)]; [now left|right]. rewrite set_other; auto. congruence.
  - intros u. cases u; [intros [|]; congruence|auto].
  - intros u. cases u; [auto|auto].
Qed.
Lemma stop_inv S t : inv S -> pcs S t = PStop ->
  inv (goto t PExit (mksys (cell S) (mutex S) (subs S) (buf S) (done S) (late S) (set (stops S) t (Datatypes.S (stops S t))) (pcs S))).
Proof.
  intros HI E. destruct HI. pose proof (i_knows0 t) as K0. rewrite E in K0. simpl in K0.
  constructor; cbn [goto cell mutex subs buf done late stops pcs].
  - intros u. specialize (i_mutex0 u). cases u; [rewrite E in i_mutex0|]; auto.
  - intros c H. apply i_sub0 in H. cases c; [rewrite E in H; discriminate|auto].
  - auto.
  - intros u. cases u; [exact I|auto].
  - intros u v. cases u; [discriminate|]. cases v; [discriminate|]. auto.
  - intros u e' k' td a'. cases u; [discriminate|eauto].
  - auto.
  - intros c. cases c; [discriminate|auto].
  - intros u c. cases u; [intros []|eauto].
  - intros c Hc. congruence.
  - intros c Hc. cases c; [discriminate|]. intros H. 
    destruct (i_wake0 c Hc H) as [W|[u W]]; [now left|right]. exists u. rewrite set_other; auto. intros ->. rewrite E in W. destruct W.
  - intros c Hc. cases c; [discriminate|]. intros H. destruct (i_act0 c Hc H) as (u & e' & a & U). exists u, e', a. rewrite set_other; auto. congruence.
  - intros u. destruct (Nat.eq_dec u t) as [->|N].
    + rewrite !set_same. destruct (i_stops0 t) as [H|(H & U & D)]; [|congruence]. right. auto.
    + rewrite !set_other by auto. auto.
  - intros u. cases u; [intros [|]; discriminate|auto].
  - intros u. destruct (Nat.eq_dec u t) as [->|N].
    + rewrite !set_same. intros _. destruct (i_stops0 t) as [H|(H & U & D)]; [|congruence]. right. now rewrite H.
    + rewrite !set_other by auto. auto.
Qed.

Lemma alive_sub S c : subscribed (pcs S c) = true -> alive S c = true.
Proof. unfold alive. destruct (pcs S c); auto; discriminate. Qed.
Ltac side := solve [auto 8 | discriminate | intros [|]; discriminate | congruence | tauto].
Lemma run_inv S t b S' : inv S -> run t b S = Some S' -> inv S'.
Proof.
  intros HI H. pose proof (i_knows _ HI t) as K. pose proof (i_mutex _ HI t) as M. unfold run, acquire in H. destruct (pcs S t) eqn:E; try discriminate; simpl in K, M.
  - destruct (mutex S) eqn:Mu; [discriminate|]. injection H as <-. apply move_inv; rewrite ?E; side.
  - injection H as <-. rewrite goto_eq. apply move_inv; rewrite ?E; try side. destruct (cell S); simpl; auto.
  - destruct r as [e|]; [|injection H as <-; now apply act_none_inv]. destruct (buf S t) eqn:B; [discriminate|]. injection H as <-. now apply act_some_inv.
  - destruct (cell S) as [e'|] eqn:C; injection H as <-; [|now apply cas_inv]. rewrite goto_eq. apply move_inv; rewrite ?E, ?C; destruct a; cbn; side.
  - destruct (mutex S) eqn:Mu; [discriminate|]. injection H as <-. now apply lock_inv.
  - destruct todo as [|c todo]; [injection H as <-; now apply sent_inv|].
    assert (A : alive S c = true). { apply alive_sub, (i_sub _ HI). rewrite (i_send _ HI _ _ _ _ _ E). apply in_or_app. right. now left. }
    rewrite A in H. destruct (buf S c); [discriminate|]. injection H as <-. now apply send_inv.
  - destruct (cell S) as [e|] eqn:C; [|congruence]. injection H as <-. rewrite goto_eq. apply move_inv; rewrite ?E, ?C; destruct a; cbn; side.
  - destruct (cell S) as [e|] eqn:C; injection H as <-; rewrite goto_eq; apply move_inv; rewrite ?E, ?C; destruct a; cbn; side.
  - destruct (late S); injection H as <-; rewrite goto_eq; apply move_inv; rewrite ?E; destruct a; cbn; side.
  - destruct (done S t) eqn:D; destruct (buf S t) eqn:B; try discriminate; try destruct b; injection H as <-;
      try (apply receive_inv; auto; congruence); rewrite goto_eq; apply move_inv; rewrite ?E; side.
  - destruct (mutex S) eqn:Mu; [discriminate|]. injection H as <-. apply move_inv; rewrite ?E; try side.
    intros [|X]; [discriminate|]. injection X as ->. apply (i_fin _ HI). auto.
  - injection H as <-. now apply unsub_inv.
  - injection H as <-. now apply stop_inv.
Qed.
Lemma step_inv S ev S' : inv S -> step S ev = Some S' -> inv S'.
Proof.
  intros HI. destruct ev as [t r|t| |t b]; simpl; [| | |apply run_inv; auto].
  - destruct (pcs S t) eqn:E; try discriminate. intros [= <-]. rewrite goto_eq. apply move_inv; rewrite ?E; destruct r; cbn; side.
  - intros [= <-]. destruct HI. constructor; simpl; auto.
    + intros u H. apply i_fin0 in H. cases u; auto.
    + intros u H. apply i_exit0 in H. cases u; auto.
  - intros [= <-]. now destruct HI; constructor.
Qed.
Theorem reachable_inv l S : steps start l = Some S -> inv S.
Proof.
  assert (G : forall l S, inv S -> forall S', steps S l = Some S' -> inv S').
  { induction l0 as [|ev l0 IH]; simpl; intros S0 H S'; [intros [= <-]; auto|]. destruct (step S0 ev) eqn:E; [|discriminate]. apply IH. eapply step_inv; eauto. }
  intros H. eapply G; [apply start_inv|eauto].
Qed.

Lemma reach S : reachable S -> inv S. Proof. intros [l H]. eapply reachable_inv; eauto. Qed.

(** * What is promised *)
Lemma step_cell S ev S' e : step S ev = Some S' -> cell S = Some e -> cell S' = Some e.
Proof.
  destruct ev as [t r|t| |t b]; simpl; [| | |].
  - destruct (pcs S t); try discriminate; now intros [= <-].
  - now intros [= <-].
  - now intros [= <-].
  - unfold run, acquire. intros H C. rewrite C in H. destruct (pcs S t); try discriminate;
      repeat match type of H with context [match ?x with _ => _ end] => destruct x; try discriminate end; injection H as <-; auto.
Qed.
Theorem first_wins l S S' e : cell S = Some e -> steps S l = Some S' -> cell S' = Some e.
Proof.
  revert S. induction l as [|ev l IH]; simpl; intros S C; [intros [= <-]; auto|]. destruct (step S ev) eqn:E; [|discriminate]. apply IH. eapply step_cell; eauto.
Qed.
Theorem agreement S t e : reachable S -> (pcs S t = PReturn (Some e) \/ buf S t = Some e) -> cell S = Some e.
Proof. intros R [H|H]; apply reach in R. - pose proof (i_knows _ R t) as K. now rewrite H in K. - eapply i_buf; eauto. Qed.

Lemma holder_runs S t : inv S -> holds (pcs S t) = true -> exists S', run t true S = Some S'.
Proof.
  intros HI H. unfold run. destruct (pcs S t) eqn:E; try discriminate; eauto.
  - destruct r; eauto. rewrite (i_young _ HI t) by now rewrite E. eauto.
  - destruct todo as [|c td]; eauto. destruct (alive S c); eauto. rewrite (i_free _ HI t c) by (rewrite E; now left). eauto.
Qed.
Theorem never_blocks S t : reachable S -> mutex S = Some t -> exists S', run t true S = Some S'.
Proof. intros R H. apply reach in R. apply holder_runs; auto. now apply (i_mutex _ R). Qed.

Theorem progress S t : reachable S -> stuck S -> started S t -> ended S t \/ pcs S t = PSelect /\ cell S = None /\ done S t = false.
Proof.
  intros R K N. apply reach in R. unfold ended, started in *.
  assert (M : mutex S = None).
  { destruct (mutex S) as [u|] eqn:M; auto. apply (i_mutex _ R) in M. destruct (holder_runs S u R M) as [S' E]. now rewrite (K u true) in E. }
  pose proof (K t true) as H. unfold run, acquire in H. rewrite M in H. destruct (pcs S t) eqn:E; eauto; try discriminate; try congruence.
  - assert (holds (pcs S t) = true) by now rewrite E. apply (i_mutex _ R) in H0. congruence.
  - destruct (cell S); discriminate.
  - assert (holds (pcs S t) = true) by now rewrite E. apply (i_mutex _ R) in H0. congruence.
  - destruct (cell S); discriminate.
  - destruct (late S); discriminate.
  - right. destruct (done S t) eqn:D, (buf S t) eqn:B; try discriminate. repeat split; auto.
    destruct (cell S) eqn:C; auto. exfalso. destruct (i_wake _ R t ltac:(congruence) ltac:(now rewrite E)) as [W|[u W]]; [congruence|].
    pose proof (K u true) as U. unfold run, acquire in U. rewrite M in U. destruct (pcs S u) eqn:P; try destruct W; try discriminate.
    assert (X : holds (pcs S u) = true) by now rewrite P. apply (i_mutex _ R) in X. congruence.
Qed.
Theorem all_end S e : reachable S -> stuck S -> cell S = Some e -> forall t, started S t -> ended S t.
Proof. intros R K C t H. destruct (progress S t R K H) as [|(_ & X & _)]; auto. congruence. Qed.

Theorem stop_once S t : reachable S -> stops S t <= 1.
Proof. intros R. apply reach in R. destruct (i_stops _ R t) as [->|[-> _]]; auto. Qed.
Theorem stop_only S t : reachable S -> stops S t = 1 -> cell S <> None.
Proof. intros R H. apply reach in R. destruct (i_stops _ R t) as [E|(_ & _ & C)]; auto. congruence. Qed.
Theorem stop_called S t : reachable S -> pcs S t = PExit -> done S t = false -> stops S t = 1 /\ cell S <> None.
Proof.
  intros R H D. pose proof (stop_only S t R) as O. apply reach in R. destruct (i_exit _ R t H) as [X|X]; [congruence|auto].
Qed.
Theorem unsubscribed S t : reachable S -> ended S t -> ~ In t (subs S).
Proof. intros R H I. apply reach in R. apply (i_sub _ R) in I. destruct H as [H|[r H]]; rewrite H in I; discriminate. Qed.

(** * Termination *)
Section measure.
  Variable N : nat.
  Definition rest (a : after) : nat := match a with AReturn => 0 | ASecond => 2 | AFirst => N + 10 end.
  Definition weight (p : pc) : nat :=
    match p with
    | PIdle | PReturn _ | PExit => 0
    | PStop => 1
    | PUnsub _ => N + 8 | PUnLock _ => N + 9 | PSelect => N + 10
    | PLoad a => 1 + rest a | PSend _ _ td a => List.length td + 1 + rest a | PLock _ a => N + 2 + rest a
    | PCas _ a => N + 3 + rest a | PClock a => N + 4 + rest a | PCheck a => N + 5 + rest a
    | PSubAct _ => N + 6 + rest AFirst | PSubLoad => N + 7 + rest AFirst | PSubLock => N + 8 + rest AFirst
    end.
  Lemma ret_weight a r : weight (ret a r) < 1 + rest a.
  Proof. destruct a, r; simpl; lia. Qed.
  Lemma run_weight S t b S' : List.length (subs S) <= N -> run t b S = Some S' -> exists p, pcs S' = set (pcs S) t p /\ weight p < weight (pcs S t).
  Proof.
    intros L H. unfold run, acquire in H. destruct (pcs S t) eqn:E; try discriminate;
      repeat match type of H with context [match ?x with _ => _ end] => destruct x eqn:?; try discriminate end; injection H as <-;
      (eexists; split; [reflexivity|]); repeat match goal with |- context [ret ?a ?r] => lazymatch goal with H : weight (ret a r) < _ |- _ => fail | _ => pose proof (ret_weight a r) end end;
      simpl in *; lia.
  Qed.
  Definition total (ts : list nat) (S : sys) : nat := list_sum (map (fun t => weight (pcs S t)) ts).
  Lemma sum_set ts f t p : NoDup ts -> In t ts -> weight p < weight (f t) -> list_sum (map (fun u => weight (set f t p u)) ts) < list_sum (map (fun u => weight (f u)) ts).
  Proof.
    intros ND I W. induction ts as [|a ts IH]; [destruct I|]. inversion ND; subst. cbn [map list_sum fold_right]. change (fold_right plus 0) with list_sum. destruct (Nat.eq_dec a t) as [->|Na].
    - rewrite set_same. rewrite (map_ext_in (fun u => weight (set f t p u)) (fun u => weight (f u))); [lia|]. intros u Hu. rewrite set_other; auto. congruence.
    - destruct I as [|I]; [congruence|]. rewrite set_other by auto. specialize (IH H2 I). lia.
  Qed.
End measure.
Theorem terminates S ts : reachable S -> NoDup ts -> (forall t, started S t -> In t ts) ->
  exists n, forall l S', existsb starts l = false -> steps S l = Some S' -> List.length (filter runs l) <= n.
Proof.
  intros R ND HT. apply reach in R. exists (total (List.length ts) ts S).
  intros l. revert S R HT. induction l as [|ev l IH]; simpl; intros S R HT S' NS H; [lia|].
  apply orb_false_elim in NS as [NS1 NS2]. destruct (step S ev) as [S1|] eqn:E; [|discriminate]. pose proof (step_inv _ _ _ R E) as R1.
  destruct ev as [t r|t| |t b]; try discriminate; simpl in E.
  - injection E as <-. exact (IH _ R1 HT _ NS2 H).
  - injection E as <-. exact (IH _ R1 HT _ NS2 H).
  - assert (L : List.length (subs S) <= List.length ts).
    { apply NoDup_incl_length; [apply (i_nodup _ R)|]. intros c Hc. apply HT. apply (i_sub _ R) in Hc. unfold started. destruct (pcs S c); easy. }
    destruct (run_weight _ _ _ _ _ L E) as (p & P & W). assert (It : In t ts). { apply HT. unfold started. intros X. rewrite X in W. simpl in W. lia. }
    assert (T : total (List.length ts) ts S1 < total (List.length ts) ts S). { unfold total. rewrite P. now apply sum_set. }
    assert (HT1 : forall u, started S1 u -> In u ts). { unfold started. rewrite P. intros u. destruct (set_cases (pcs S) t p u) as [[-> ->]|[Ne ->]]; auto. }
    specialize (IH _ R1 HT1 _ NS2 H). simpl. lia.
Qed.
