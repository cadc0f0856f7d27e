(** Grouping operators: unique, and possible unless operators that do not group are chained (C45). *)
From Coq Require Import Bool List String Arith ZArith QArith Lia Wf_nat.
From Verif.Model Require Import Syntax Tycheck Precedence.
From Verif.Spec Require Import Reading.
From Verif.Proofs Require Import GrammarProofs ReadingProofs.
Import ListNotations.
Local Open Scope list_scope.
Local Open Scope nat_scope.

Fixpoint rsize (e : rexpr) : nat :=
  match e with
  | RVar _ _ | RLit _ _ => 1
  | RCall _ _ args => S ((fix go l := match l with [] => 0 | a :: l' => rsize a + go l' end) args)
  | RIte _ c a b => S (rsize c + rsize a + rsize b)
  | RBin _ _ a b => S (rsize a + rsize b)
  | RUn _ _ a | RCast _ a | RQuant _ _ _ a => S (rsize a)
  | RSubst _ _ v a => S (rsize v + rsize a)
  end.
Lemma rsize_kid e a : In a (kids e) -> rsize a < rsize e.
Proof.
  destruct e; cbn; intros H; repeat (destruct H as [<-|H]; [lia|]); try contradiction.
  induction args as [|x args IH]; [contradiction|]. destruct H as [<-|H]; [lia|specialize (IH H); lia].
Qed.
Lemma rsize_operand e a : In a (operands e) -> rsize a <= rsize e /\ (is_bin e = true -> rsize a < rsize e).
Proof.
  induction e; cbn [operands is_bin]; try (intros [<-|[]]; split; [lia|discriminate]).
  cbn [rsize]. rewrite in_app_iff. intros [H|H]; [apply IHe1 in H|apply IHe2 in H]; split; intros; lia.
Qed.
Lemma operand_nonbin e a : In a (operands e) -> is_bin a = false.
Proof. induction e; cbn; try (intros [<-|[]]; reflexivity). rewrite in_app_iff. intros [H|H]; auto. Qed.

Lemma split3 {T} (l1 l2 r1 r2 : list T) x y : l1 ++ x :: r1 = l2 ++ y :: r2 ->
  (l1 = l2 /\ x = y /\ r1 = r2) \/ (exists m, l2 = l1 ++ x :: m /\ r1 = m ++ y :: r2) \/ (exists m, l1 = l2 ++ y :: m /\ r2 = m ++ x :: r1).
Proof.
  revert l2. induction l1 as [|a l1 IH]; intros [|b l2]; cbn; intros E; injection E; intros.
  - subst. auto.
  - right. left. exists l2. subst. auto.
  - right. right. exists l1. subst. auto.
  - subst. destruct (IH _ H) as [(-> & -> & ->)|[(m & -> & ->)|(m & -> & ->)]]; eauto 6.
Qed.

Section B.
Variable B : binding.
Hypothesis U : forall o o', strength B o = strength B o' -> groups B o = groups B o'.

Definition under (e : rexpr) (k : nat) : Prop := forall o, In o (ops e) -> strength B o <= k.
Lemma ops_root o op a b : In op (ops (RBin o op a b)).
Proof. cbn. rewrite in_app_iff. cbn. auto. Qed.
Lemma grouped_max e : grouped B e -> match e with RBin _ op _ _ => under e (strength B op) | _ => True end.
Proof.
  induction e; intros H; auto. inversion H as [x NN K]; subst; destruct NN as [Na Nb]. cbn in Na, Nb.
  assert (Ga : grouped B e1) by (apply K; cbn; auto). assert (Gb : grouped B e2) by (apply K; cbn; auto).
  intros o' Ho. cbn in Ho. rewrite in_app_iff in Ho. destruct Ho as [Ho|[<-|Ho]]; auto.
  - specialize (IHe1 Ga). destruct e1; cbn in Ho; try contradiction. specialize (IHe1 o' Ho). cbn in Na. destruct Na as [|[]]; lia.
  - specialize (IHe2 Gb). destruct e2; cbn in Ho; try contradiction. specialize (IHe2 o' Ho). cbn in Nb. destruct Nb as [|[]]; lia.
Qed.
(** an operator below an operand's root *)
Lemma operand_under s op e o : operand B s op e -> grouped B e -> In o (ops e) ->
  strength B o <= strength B op /\ (strength B o = strength B op -> groups B op = s).
Proof.
  intros N H Ho. apply grouped_max in H. destruct e; cbn in Ho; try contradiction. specialize (H o Ho). cbn in N. destruct N as [N|[N S]]; split; intros; auto; lia.
Qed.
Lemma grouped_unique e : forall e', grouped B e -> grouped B e' -> bare e -> bare e' -> items e = items e' -> e = e'.
Proof.
  induction e as [| | |o op a IHa b IHb| | | | |]; intros e' H H' Be Be' E.
  1,2,3,5,6,7,8,9: destruct e'; try (cbn in E; injection E; intros; congruence);
    exfalso; match type of E with _ = items ?x => destruct (bin_items x eq_refl) as (x1 & x2 & x3 & l0 & E') end;
    rewrite E' in E; discriminate.
  destruct e' as [| | |o' op' a' b'| | | | |].
  1,2,3,5,6,7,8,9: exfalso; destruct (bin_items (RBin o op a b) eq_refl) as (x1 & x2 & x3 & l0 & E'); rewrite E' in E; discriminate.
  inversion H as [x NN K]; subst; destruct NN as [Na Nb]. inversion H' as [x NN' K']; subst; destruct NN' as [Na' Nb']. cbn in K, K'.
  assert (Ga : grouped B a) by auto. assert (Gb : grouped B b) by auto.
  assert (Ga' : grouped B a') by auto. assert (Gb' : grouped B b') by auto.
  destruct Be as (-> & B1 & B2), Be' as (-> & B1' & B2'). cbn in E.
  destruct (split3 _ _ _ _ _ _ E) as [(E1 & E2 & E3)|[(m & E1 & E2)|(m & E1 & E2)]].
  - injection E2 as ->. f_equal; auto.
  - exfalso.
    assert (X : In op (ops a')) by (rewrite <- iops_items; apply iops_in; rewrite E1, in_app_iff; cbn; auto).
    assert (Y : In op' (ops b)) by (rewrite <- iops_items; apply iops_in; rewrite E2, in_app_iff; cbn; auto).
    destruct (operand_under _ _ _ _ Na' Ga' X) as [P1 P2]. destruct (operand_under _ _ _ _ Nb Gb Y) as [P3 P4].
    assert (Q : strength B op = strength B op') by lia. specialize (P2 Q). specialize (P4 (eq_sym Q)). rewrite (U _ _ Q) in P4. congruence.
  - exfalso.
    assert (X : In op' (ops a)) by (rewrite <- iops_items; apply iops_in; rewrite E1, in_app_iff; cbn; auto).
    assert (Y : In op (ops b')) by (rewrite <- iops_items; apply iops_in; rewrite E2, in_app_iff; cbn; auto).
    destruct (operand_under _ _ _ _ Na Ga X) as [P1 P2]. destruct (operand_under _ _ _ _ Nb' Gb' Y) as [P3 P4].
    assert (Q : strength B op' = strength B op) by lia. specialize (P2 Q). specialize (P4 (eq_sym Q)). rewrite (U _ _ Q) in P4. congruence.
Qed.
Lemma grouped_operand e a : grouped B e -> In a (operands e) -> grouped B a.
Proof.
  induction e; intros H Ha; cbn in Ha; try (destruct Ha as [<-|[]]; exact H).
  inversion H as [x N K]; subst. cbn in K. rewrite in_app_iff in Ha. destruct Ha; auto.
Qed.
Theorem rg_unique e : forall e', rg e e' -> grouped B e -> grouped B e' -> e = e'.
Proof.
  induction e as [e IH] using (induction_ltof1 _ rsize); unfold ltof in IH. intros e' R H H'.
  assert (K : forall a, In a (kids e) -> forall a', In a' (kids e') -> rg a a' -> a = a').
  { intros a Ha a' Ha' Ra. apply IH; [apply rsize_kid; auto|auto| |]; [inversion H; auto|inversion H'; auto]. }
  inversion R; subst; try (f_equal; apply K; cbn; auto; fail); auto.
  - f_equal. clear -K H0. cbn in K. induction H0; auto. f_equal; [apply K; cbn; auto|apply IHForall2; intros; apply K; cbn; auto].
  - apply grouped_unique; auto.
    assert (KO : forall a, In (inl a) (items e) -> forall a', In (inl a') (items e') -> rg a a' -> a = a').
    { intros a Ha a' Ha' Ra. apply items_operand in Ha. apply items_operand in Ha'. apply IH; [apply (proj2 (rsize_operand e a Ha)); auto|exact Ra|exact (grouped_operand e a H Ha)|exact (grouped_operand e' a' H' Ha')]. }
    revert KO. clear -H4. induction H4 as [|x y l l' X F IHF]; intros KO; auto. f_equal.
    + inversion X; subst; auto. f_equal. apply KO; cbn; auto.
    + apply IHF. intros; apply KO; cbn; auto.
Qed.

(** ** Existence *)
Lemma first_occ {T} (P : T -> Prop) (D : forall x, {P x} + {~ P x}) l : (exists x, In x l /\ P x) ->
  exists u x w, l = u ++ x :: w /\ P x /\ forall y, In y u -> ~ P y.
Proof.
  induction l as [|a l IH]; intros (x & Hx & Px); [contradiction|]. destruct (D a) as [Pa|Na].
  - exists [], a, l. split; auto.
  - destruct Hx as [<-|Hx]; [contradiction|]. destruct IH as (u & y & w & -> & Py & N); eauto.
    exists (a :: u), y, w. split; [reflexivity|split; auto]. intros z [<-|Hz]; auto.
Qed.
Lemma last_occ {T} (P : T -> Prop) (D : forall x, {P x} + {~ P x}) l : (exists x, In x l /\ P x) ->
  exists u x w, l = u ++ x :: w /\ P x /\ forall y, In y w -> ~ P y.
Proof.
  intros (x & Hx & Px). destruct (first_occ P D (rev l)) as (u & y & w & E & Py & N).
  - exists x. rewrite <- in_rev. auto.
  - exists (rev w), y, (rev u). split; [|split; auto].
    + rewrite <- (rev_involutive l), E, rev_app_distr. cbn. rewrite <- app_assoc. reflexivity.
    + intros z Hz. apply N. apply in_rev. auto.
Qed.
Lemma max_op l : l <> [] -> exists op, In op l /\ forall o, In o l -> strength B o <= strength B op.
Proof.
  induction l as [|a l IH]; intros N; [congruence|]. destruct l as [|b l].
  - exists a. split; cbn; auto. intros o [<-|[]]; auto.
  - destruct IH as (op & Hop & M); [congruence|]. destruct (le_lt_dec (strength B a) (strength B op)) as [L|L].
    + exists op. split; [right; auto|]. intros o [<-|Ho]; auto.
    + exists a. split; [left; auto|]. intros o [<-|Ho]; auto. specialize (M o Ho). lia.
Qed.
Definition at_level (k : nat) (i : item) : Prop := match i with inr op => strength B op = k | inl _ => False end.
Lemma at_level_dec k i : {at_level k i} + {~ at_level k i}.
Proof. destruct i; cbn; auto. apply Nat.eq_dec. Qed.
Lemma chained_infix u l w : chained B l -> chained B (u ++ l ++ w).
Proof.
  intros (a & o1 & v & o2 & c & -> & H). exists (u ++ a), o1, v, o2, (c ++ w). split; auto.
  rewrite <- !app_assoc. cbn. rewrite <- !app_assoc. cbn. reflexivity.
Qed.
Lemma group_exists n : forall l t, List.length l <= n -> pieces l t -> (forall a, In (inl a) l -> grouped B a) -> ~ chained B (iops l) ->
  exists e, items e = l /\ grouped B e /\ bare e.
Proof.
  induction n as [|n IH]; intros l t Len P GO NC; [inversion P; subst; cbn in Len; lia|].
  destruct (iops l) as [|o0 os] eqn:EO.
  - inversion P; subst; [|discriminate]. exists a. destruct H as [N Q].
    split; [destruct a; auto; discriminate|split; [apply GO; cbn; auto|destruct a; cbn; auto; discriminate]].
  - destruct (max_op (iops l)) as (m & Hm & M); [rewrite EO; discriminate|]. set (k := strength B m) in *.
    assert (EX : exists x, In x l /\ at_level k x) by (exists (inr m); split; [apply iops_in; auto|reflexivity]).
    assert (ML : forall o, In (inr o) l -> strength B o <= k) by (intros o Ho; apply M, iops_in; auto).
    assert (SP : exists u op w, l = u ++ inr op :: w /\ strength B op = k /\
      (groups B op <> ToLeft -> forall o, In (inr o) u -> strength B o < k) /\ (groups B op <> ToRight -> forall o, In (inr o) w -> strength B o < k)).
    { destruct (groups B m) eqn:Gm.
      - destruct (last_occ (at_level k) (at_level_dec k) l EX) as (u & x & w & -> & Px & N). destruct x as [a|op]; [contradiction|]. cbn in Px.
        exists u, op, w. split; [auto|split; [auto|split]].
        + intros F. exfalso. apply F. rewrite <- Gm. apply U. auto.
        + intros _ o Ho. specialize (N _ Ho). cbn in N. specialize (ML o ltac:(rewrite in_app_iff; cbn; auto)). lia.
      - destruct (first_occ (at_level k) (at_level_dec k) l EX) as (u & x & w & -> & Px & N). destruct x as [a|op]; [contradiction|]. cbn in Px.
        exists u, op, w. split; [auto|split; [auto|split]].
        + intros _ o Ho. specialize (N _ Ho). cbn in N. specialize (ML o ltac:(rewrite in_app_iff; cbn; auto)). lia.
        + intros F. exfalso. apply F. rewrite <- Gm. apply U. auto.
      - destruct (first_occ (at_level k) (at_level_dec k) l EX) as (u & x & w & -> & Px & N). destruct x as [a|op]; [contradiction|]. cbn in Px.
        exists u, op, w. split; [auto|split; [auto|split]].
        + intros _ o Ho. specialize (N _ Ho). cbn in N. specialize (ML o ltac:(rewrite in_app_iff; cbn; auto)). lia.
        + intros _ o Ho. pose proof (ML o ltac:(rewrite in_app_iff; cbn; auto)) as L1.
          destruct (Nat.eq_dec (strength B o) k) as [Eo|]; [|lia]. exfalso. apply NC.
          rewrite <- EO, iops_app. cbn. apply iops_in in Ho. apply in_split in Ho as (v & w' & Ew).
          exists (iops u), op, v, o, w'. rewrite Ew. split; [reflexivity|split; [congruence|split]].
          * rewrite <- Gm. apply U. auto.
          * intros o1 H1. rewrite Px. apply M. rewrite iops_app. cbn. rewrite Ew, in_app_iff. right. right. rewrite in_app_iff. auto. }
    destruct SP as (u & op & w & -> & Eop & Lu & Lw). rewrite app_length in Len. cbn in Len.
    destruct (pieces_split _ _ _ _ P) as (t1 & t2 & -> & P1 & P2). rewrite <- EO, iops_app in NC. cbn in NC.
    destruct (IH u t1) as (a & Ia & Ga & Ba); [unfold item in *; lia|exact P1| | |].
    { intros a Ha. apply GO. rewrite in_app_iff. auto. }
    { intros C. apply NC. apply (chained_infix [] _ (op :: iops w)) in C. exact C. }
    destruct (IH w t2) as (b & Ib & Gb & Bb); [unfold item in *; lia|exact P2| | |].
    { intros b Hb. apply GO. rewrite in_app_iff. cbn. auto. }
    { intros C. apply NC. apply (chained_infix (iops u ++ [op]) _ []) in C. rewrite app_nil_r, <- app_assoc in C. exact C. }
    exists (RBin None op a b). cbn. rewrite Ia, Ib. split; [auto|split; [|auto]]. constructor.
    + cbn. subst u w. split.
      * destruct a as [| | |oa opa a1 a2| | | |op' xs' e'|]; cbn; auto; [|pose proof (pieces_quant _ _ P1); discriminate].
        assert (H : In (inr opa) (items (RBin oa opa a1 a2))) by (apply iops_in; rewrite iops_items; apply ops_root).
        pose proof (ML opa ltac:(rewrite in_app_iff; auto)) as L1. rewrite Eop.
        destruct (Nat.eq_dec (strength B opa) k); [right|left; lia]. split; auto.
        destruct (groups B op) eqn:Gop; auto; specialize (Lu ltac:(discriminate) _ H); lia.
      * destruct b as [| | |ob opb b1 b2| | | |op' xs' e'|]; cbn; auto; [|pose proof (pieces_quant _ _ P2); discriminate].
        assert (H : In (inr opb) (items (RBin ob opb b1 b2))) by (apply iops_in; rewrite iops_items; apply ops_root).
        pose proof (ML opb ltac:(rewrite in_app_iff; cbn; auto)) as L1. rewrite Eop.
        destruct (Nat.eq_dec (strength B opb) k); [right|left; lia]. split; auto.
        destruct (groups B op) eqn:Gop; auto; specialize (Lw ltac:(discriminate) _ H); lia.
    + cbn. intros x [<-|[<-|[]]]; auto.
Qed.

(** ** Chains *)
Lemma unchained_ops e : unchained B e -> ~ chained B (ops e).
Proof. intros H. inversion H; auto. Qed.
Lemma unchained_part e a : unchained B e -> In a (parts e) -> unchained B a.
Proof. intros H. inversion H; auto. Qed.
Lemma unchained_kid e a : unchained B e -> In a (kids e) -> unchained B a.
Proof.
  intros H Ha. destruct (is_bin e) eqn:N; [|apply (unchained_part e); auto; unfold parts; rewrite N; auto].
  destruct e; try discriminate. pose proof (unchained_ops _ H) as NC. cbn in NC.
  assert (X : forall x, In x (operands e1 ++ operands e2) -> unchained B x) by (intros x Hx; apply (unchained_part _ x H); exact Hx).
  assert (Y : forall c, (forall x, In x (operands c) -> unchained B x) -> ~ chained B (ops c) -> unchained B c).
  { intros c Hc Nc. destruct (is_bin c) eqn:Nb.
    - constructor; auto. unfold parts. rewrite Nb. auto.
    - apply Hc. destruct c; try discriminate; cbn; auto. }
  cbn in Ha. destruct Ha as [<-|[<-|[]]]; apply Y.
  - intros x Hx. apply X, in_app_iff; auto.
  - intros C. apply NC. apply (chained_infix [] _ (op :: ops e2)) in C. exact C.
  - intros x Hx. apply X, in_app_iff; auto.
  - intros C. apply NC. apply (chained_infix (ops e1 ++ [op]) _ []) in C. rewrite app_nil_r, <- app_assoc in C. exact C.
Qed.
Lemma rg_ops_eq e e' : rg e e' -> ops e = ops e'.
Proof.
  intros R. inversion R; subst; cbn; auto. rewrite <- !iops_items.
  match goal with F : Forall2 rgi _ _ |- _ => induction F as [|x y l l' X F IH]; auto end. inversion X; subst; cbn; auto. congruence.
Qed.
Lemma rg_parts e e' a' : rg e e' -> In a' (parts e') -> exists a, In a (parts e) /\ rg a a'.
Proof.
  intros R Ha. inversion R; subst; unfold parts in *; cbn in Ha |- *.
  - contradiction.
  - contradiction.
  - match goal with F : Forall2 rg _ _ |- _ => revert F end. clear -Ha. intros F. revert Ha. induction F; cbn; intros Ha; [contradiction|].
    destruct Ha as [<-|Ha]; eauto. destruct (IHF Ha) as (a & X & Y). eauto.
  - repeat (destruct Ha as [<-|Ha]; [eauto 6|]). contradiction.
  - repeat (destruct Ha as [<-|Ha]; [eauto 6|]). contradiction.
  - repeat (destruct Ha as [<-|Ha]; [eauto 6|]). contradiction.
  - repeat (destruct Ha as [<-|Ha]; [eauto 6|]). contradiction.
  - rewrite H0 in Ha. rewrite H. apply items_operand in Ha.
    assert (X : exists a, In (inl a) (items e) /\ rg a a').
    { clear -H3 Ha. induction H3 as [|x y l l' X F IH]; [contradiction|]. destruct Ha as [->|Ha].
      - inversion X; subst. eexists; split; [left; reflexivity|auto].
      - destruct (IH Ha) as (a & P & Q). eexists; split; [right; exact P|auto]. }
    destruct X as (a & P & Q). exists a. split; auto. apply items_operand. auto.
Qed.
Lemma rg_unchained e : unchained B e -> forall e', rg e e' -> unchained B e'.
Proof.
  induction 1 as [e NC H IH]. intros e' R. constructor.
  - rewrite <- (rg_ops_eq _ _ R). auto.
  - intros a' Ha. destruct (rg_parts _ _ _ R Ha) as (a & P & Q). eauto.
Qed.
Lemma grouped_not_chained e : grouped B e -> ~ chained B (ops e).
Proof.
  induction e as [| | |o op a IHa b IHb| | | | |]; intros H (u & o1 & v & o2 & w & E & S & N & M); try (destruct u; discriminate).
  inversion H as [x NN K]; subst; destruct NN as [Na Nb]. cbn in K.
  assert (Ga : grouped B a) by auto. assert (Gb : grouped B b) by auto. cbn in E.
  destruct (split3 _ _ _ _ _ _ E) as [(E1 & EE & E2)|[(m & E1 & E2)|(m & E1 & E2)]].
  - subst op. assert (X : In o2 (ops b)) by (rewrite E2, in_app_iff; cbn; auto).
    destruct (operand_under _ _ _ _ Nb Gb X) as [_ P]. specialize (P (eq_sym S)). congruence.
  - apply (IHb Gb). exists m, o1, v, o2, w. auto.
  - destruct (split3 _ _ _ _ _ _ (eq_sym E2)) as [(E4 & EE & E3)|[(m' & E4 & E3)|(m' & E4 & E3)]]; try subst op.
    + assert (X : In o1 (ops a)) by (rewrite E1, in_app_iff; cbn; auto).
      destruct (operand_under _ _ _ _ Na Ga X) as [_ P]. specialize (P S). rewrite (U _ _ S) in N. congruence.
    + assert (X : In o1 (ops a)) by (rewrite E1, in_app_iff; cbn; auto).
      destruct (operand_under _ _ _ _ Na Ga X) as [P1 P2]. specialize (M op ltac:(rewrite E4, in_app_iff; cbn; auto)).
      assert (Q : strength B o1 = strength B op) by lia. specialize (P2 Q). rewrite (U _ _ Q) in N. congruence.
    + apply (IHa Ga). exists u, o1, v, o2, m'. rewrite E1, E4; auto.
Qed.
Lemma grouped_unchained e : grouped B e -> unchained B e.
Proof.
  induction e as [e IH] using (induction_ltof1 _ rsize); unfold ltof in IH. intros H. constructor; [apply grouped_not_chained; auto|].
  unfold parts. destruct (is_bin e) eqn:N; intros a Ha.
  - apply IH; [apply (proj2 (rsize_operand e a Ha)); auto|]. eapply grouped_operand; eauto.
  - apply IH; [apply rsize_kid; auto|]. inversion H; auto.
Qed.

Definition regrouped (e : rexpr) (t : list tok) : Prop :=
  exists e', writes e' t /\ grouped B e' /\ ops e' = ops e /\ is_bin e' = is_bin e /\ is_quant e' = is_quant e.
Lemma ops_bin e : ops e = [] -> is_bin e = false.
Proof. destruct e; auto. cbn. intros E. apply app_eq_nil in E as [_ E]. discriminate. Qed.
Ltac kid := constructor; [cbn; auto|cbn; intros ?k Hk; repeat (destruct Hk as [<-|Hk]; [assumption|]); try contradiction].
Lemma regroup_exists :
  (forall e t, writes e t -> unchained B e -> regrouped e t) /\
  (forall es t, writes_args es t -> (forall a, In a es -> unchained B a) -> exists es', writes_args es' t /\ forall a, In a es' -> grouped B a).
Proof.
  apply writes_ind2.
  - intros x _. exists (RVar None x). split; [constructor|split; [kid|auto]].
  - intros l _. exists (RLit None l). split; [constructor|split; [kid|auto]].
  - intros f args t _ IH H. destruct IH as (es & W & Gr); [intros a Ha; apply (unchained_kid _ _ H); auto|].
    exists (RCall None f es). split; [constructor; auto|split; [constructor; [exact I|exact Gr]|auto]].
  - intros c a b t1 t2 t3 _ I1 _ I2 _ I3 H.
    destruct I1 as (c' & W1 & G1 & _); [apply (unchained_kid _ _ H); cbn; auto|].
    destruct I2 as (a' & W2 & G2 & _); [apply (unchained_kid _ _ H); cbn; auto|].
    destruct I3 as (b' & W3 & G3 & _); [apply (unchained_kid _ _ H); cbn; auto|].
    exists (RIte None c' a' b'). split; [constructor; auto|split; [kid|auto]].
  - intros x v a t1 t2 _ I1 _ I2 H.
    destruct I1 as (v' & W1 & G1 & _); [apply (unchained_kid _ _ H); cbn; auto|].
    destruct I2 as (a' & W2 & G2 & _); [apply (unchained_kid _ _ H); cbn; auto|].
    exists (RSubst None x v' a'). split; [constructor; auto|split; [kid|auto]].
  - intros a t _ I1 H. destruct I1 as (a' & W1 & G1 & _); [apply (unchained_kid _ _ H); cbn; auto|].
    exists (RUn None OParens a'). split; [constructor; auto|split; [kid|auto]].
  - intros a t _ I1 H. destruct I1 as (a' & W1 & G1 & _); [apply (unchained_kid _ _ H); cbn; auto|].
    exists (RUn None OIverson a'). split; [constructor; auto|split; [kid|auto]].
  - intros op a t O [S1 S2] _ I1 H. destruct I1 as (a' & W1 & G1 & _ & E1 & E2); [apply (unchained_kid _ _ H); cbn; auto|].
    exists (RUn None op a'). split; [apply wr_prefix; auto; split; congruence|split; [kid|auto]].
  - intros op a b t1 t2 Q1 Q2 _ I1 _ I2 H.
    destruct I1 as (a' & W1 & G1 & O1 & E1 & F1); [apply (unchained_kid _ _ H); cbn; auto|].
    destruct I2 as (b' & W2 & G2 & O2 & E2 & F2); [apply (unchained_kid _ _ H); cbn; auto|].
    assert (P : pieces (items a' ++ inr op :: items b') (t1 ++ KBin op :: t2)) by (apply pieces_app; apply writes_pieces; auto; congruence).
    destruct (group_exists _ _ _ (le_n _) P) as (e & Ie & Ge & Be).
    { intros x Hx. rewrite in_app_iff in Hx. cbn in Hx. destruct Hx as [Hx|[Hx|Hx]]; [|discriminate|]; apply items_operand in Hx; [exact (grouped_operand a' x G1 Hx)|exact (grouped_operand b' x G2 Hx)]. }
    { rewrite iops_app. cbn. rewrite !iops_items, O1, O2. apply (unchained_ops _ H). }
    exists e. assert (OE : ops e = ops (RBin None op a b)) by (rewrite <- iops_items, Ie, iops_app; cbn; rewrite !iops_items; congruence).
    split; [apply pieces_writes; auto; rewrite Ie; auto|split; [auto|split; [auto|]]].
    destruct e; cbn in *; try (destruct (ops a); discriminate); auto.
  - intros op xs a tv t V _ I1 H. destruct I1 as (a' & W1 & G1 & _); [apply (unchained_kid _ _ H); cbn; auto|].
    exists (RQuant None op xs a'). split; [constructor; auto|split; [kid|auto]].
  - intros _. exists []. split; [constructor|intros a []].
  - intros a t _ I1 H. destruct I1 as (a' & W1 & G1 & _); [apply H; cbn; auto|]. exists [a']. split; [constructor; auto|intros x [<-|[]]; auto].
  - intros a t l ts _ I1 _ I2 H. destruct I1 as (a' & W1 & G1 & _); [apply H; cbn; auto|]. destruct I2 as (l' & W2 & G2); [intros; apply H; cbn; auto|].
    exists (a' :: l'). split; [constructor; auto|intros x [<-|Hx]; auto].
Qed.
Theorem reading_exists e t : writes e t -> (exists e', writes e' t /\ grouped B e') <-> unchained B e.
Proof.
  intros W. split.
  - intros (e' & W' & G'). eapply rg_unchained; [apply grouped_unchained, G'|]. eapply same_text; eauto.
  - intros H. destruct (proj1 regroup_exists e t W H) as (e' & W' & G' & _). eauto.
Qed.
Theorem reading_unique e e' t : writes e t -> grouped B e -> writes e' t -> grouped B e' -> e = e'.
Proof. intros. eapply rg_unique; eauto. eapply same_text; eauto. Qed.
(** without operators that never group there are no chains *)
Lemma never_unchained e : (forall o, groups B o <> Never) -> unchained B e.
Proof.
  intros NN. induction e as [e IH] using (induction_ltof1 _ rsize); unfold ltof in IH. constructor.
  - intros (u & o1 & v & o2 & w & _ & _ & N & _). apply (NN o1 N).
  - unfold parts. destruct (is_bin e) eqn:N; intros a Ha; apply IH; [apply (proj2 (rsize_operand e a Ha)); auto|apply rsize_kid; auto].
Qed.
End B.

Lemma uniform_doc o o' : strength documented o = strength documented o' -> groups documented o = groups documented o'.
Proof. destruct o, o'; cbn; intros; congruence. Qed.
Lemma uniform_old o o' : strength before_4 o = strength before_4 o' -> groups before_4 o = groups before_4 o'.
Proof. destruct o, o'; cbn; intros; congruence. Qed.

Theorem new_reads t e : gexpr new_levels t e <-> writes e t /\ grouped documented e.
Proof. apply grammar_iff. exact agree_new. Qed.
Theorem old_reads t e : gexpr old_levels t e <-> writes e t /\ grouped before_4 e.
Proof. apply grammar_iff. exact agree_old. Qed.
Theorem new_unique t e e' : gexpr new_levels t e -> gexpr new_levels t e' -> e = e'.
Proof. rewrite !new_reads. intros [] []. eapply reading_unique; eauto using uniform_doc. Qed.
Theorem old_unique t e e' : gexpr old_levels t e -> gexpr old_levels t e' -> e = e'.
Proof. rewrite !old_reads. intros [] []. eapply reading_unique; eauto using uniform_old. Qed.
Theorem new_accepts e t : writes e t -> (exists e', gexpr new_levels t e') <-> unchained documented e.
Proof.
  intros W. rewrite <- (reading_exists documented uniform_doc e t W). split; intros (e' & H); exists e'; apply new_reads; auto.
Qed.
Theorem old_accepts t : (exists e, gexpr old_levels t e) <-> exists e, writes e t.
Proof.
  split.
  - intros (e & H). apply old_reads in H as [H _]. eauto.
  - intros (e & W). destruct (proj2 (reading_exists before_4 uniform_old e t W)) as (e' & W' & G').
    + apply never_unchained. intros []; discriminate.
    + exists e'. apply old_reads. auto.
Qed.
Theorem new_in_old t e : gexpr new_levels t e -> exists e', gexpr old_levels t e'.
Proof. intros H. apply old_accepts. apply new_reads in H as [W _]. eauto. Qed.
Lemma bracketed_grouped B e : bracketed e -> grouped B e.
Proof.
  induction 1 as [e N _ IH]. constructor; auto. destruct e as [| | |? ? a b| | | | |]; cbn; auto.
  destruct N as (N1 & N2 & N3 & N4). split; [destruct a|destruct b]; cbn in *; auto; discriminate.
Qed.
Theorem brackets_help t e : writes e t -> bracketed e -> gexpr new_levels t e /\ gexpr old_levels t e.
Proof. intros W H. split; [apply new_reads|apply old_reads]; auto using bracketed_grouped. Qed.
