(** C48: a printed expression is checked like the expression itself. *)
From Coq Require Import Bool List String Arith.
From Verif.Model Require Import Syntax Tycheck Precedence Printing.
From Verif.Spec Require Import Reading Printed.
From Verif.Proofs Require Import GroupingProofs PrintExprs.
Import ListNotations.
Local Open Scope list_scope.

Definition alike (a b : rexpr) : Prop := rty a = rty b /\ strip a = strip b.
Definition near (a b : rexpr) : Prop := alike a b /\ is_lit a = is_lit b.
Definition rel {A} (R : A -> A -> Prop) (m m' : res A) : Prop :=
  match m, m' with Ok a, Ok b => R a b | Err w, Err w' => w = w' | Panic w, Panic w' => w = w' | _, _ => False end.
Lemma rel_bind {A B} (RA : A -> A -> Prop) (RB : B -> B -> Prop) m m' f f' : rel RA m m' -> (forall a a', RA a a' -> rel RB (f a) (f' a')) ->
  rel RB (let? x := m in f x) (let? x := m' in f' x).
Proof. destruct m, m'; cbn; try contradiction; auto. Qed.
Lemma alike_ty a b : alike a b -> rel eq (the_ty a) (the_ty b).
Proof. intros [H _]. unfold the_ty. rewrite H. destruct (rty b); cbn; auto. Qed.
Lemma alike_cast t a b : alike a b -> alike (RCast t a) (RCast t b).
Proof. intros [_ H]. unfold alike. cbn. now rewrite H. Qed.
Lemma cast_near t a b : alike a b -> rel alike (try_cast t a) (try_cast t b).
Proof.
  intros H. unfold try_cast. eapply rel_bind; [apply alike_ty, H|]. intros x ? <-. destruct (xty_cmp t x) as [[]|]; cbn; auto using alike_cast.
Qed.
Definition near3 (p q : rexpr * rexpr * xty) : Prop := alike (fst (fst p)) (fst (fst q)) /\ alike (snd (fst p)) (snd (fst q)) /\ snd p = snd q.
Lemma unify_near a b a' b' : alike a a' -> alike b b' -> rel near3 (try_unify a b) (try_unify a' b').
Proof.
  intros H H'. unfold try_unify. eapply rel_bind; [apply alike_ty, H|]. intros x ? <-. eapply rel_bind; [apply alike_ty, H'|]. intros y ? <-.
  destruct (xty_cmp x y) as [[]|]; cbn; unfold near3; cbn; auto using alike_cast.
Qed.
Lemma near_alike l l' : Forall2 near l l' -> Forall2 alike l l'.
Proof. induction 1 as [|a b l l' [H _]]; constructor; auto. Qed.
Lemma f2_length {A B} (R : A -> B -> Prop) l l' : Forall2 R l l' -> List.length l = List.length l'.
Proof. induction 1; cbn; auto. Qed.
Lemma args_near ps args args' : Forall2 near args args' -> rel (Forall2 alike) (check_args ps args) (check_args ps args').
Proof.
  intros H. revert ps. induction H as [|a a' l l' Ha Hl IH]; intros [|[t lo] ps]; cbn; try constructor; try apply Ha; try now apply near_alike. destruct Ha as [Hs Hlit]. rewrite Hlit.
  destruct (lo && negb (is_lit a')); [reflexivity|]. eapply rel_bind; [apply cast_near; exact Hs|]. intros x x' Hx. eapply rel_bind; [apply IH|]. cbn. auto.
Qed.
Lemma call_near ps args args' : Forall2 near args args' -> rel (Forall2 alike) (check_call ps args) (check_call ps args').
Proof. intros H. unfold check_call. rewrite (f2_length _ _ _ H). destruct (Nat.eqb _ _); [now apply args_near|reflexivity]. Qed.
Lemma op_near ok a b : alike a b -> rel eq (op_check ok a) (op_check ok b).
Proof. intros H. unfold op_check. eapply rel_bind; [apply alike_ty, H|]. intros x ? <-. destruct x; cbn; auto. destruct (ok t); cbn; auto. Qed.
Lemma ops_near ok a b a' b' : alike a a' -> alike b b' -> rel eq (ops_check ok a b) (ops_check ok a' b').
Proof. intros H H'. unfold ops_check. eapply rel_bind; [apply op_near, H|]. intros _ _ _. now apply op_near. Qed.
Lemma bin_near op a b a' b' : alike a a' -> alike b b' -> rel near3 (check_bin op a b) (check_bin op a' b').
Proof.
  intros H H'. destruct op; cbn [check_bin].
  4: { assert (R1 := cast_near (One TUReal) _ _ H). assert (R2 := cast_near (One TUReal) _ _ H').
       destruct (try_cast (One TUReal) a), (try_cast (One TUReal) a'); cbn in R1; try contradiction; cbn; auto;
       destruct (try_cast (One TUReal) b), (try_cast (One TUReal) b'); cbn in R2; try contradiction; cbn; auto.
       { unfold near3. auto. }
       all: eapply rel_bind; [apply cast_near; eassumption|]; intros x x' Hx; eapply rel_bind; [apply cast_near; eassumption|]; intros y y' Hy; cbn; unfold near3; auto. }
  all: try (eapply rel_bind; [apply ops_near; eassumption|]; intros _ _ _); try (apply unify_near; assumption).
  all: try (eapply rel_bind; [apply unify_near; eassumption|]; intros [[? ?] ?] [[? ?] ?] (? & ? & ?); cbn in *; unfold near3; auto).

  all: cbn; unfold near3; auto.
Qed.
Definition near2 (p q : rexpr * xty) : Prop := alike (fst p) (fst q) /\ snd p = snd q.
Lemma un_near op a a' : alike a a' -> rel near2 (check_un op a) (check_un op a').
Proof.
  intros H. destruct op; cbn [check_un].
  1-2: eapply rel_bind; [apply op_near, H|]; intros _ _ _.
  1,2,5: eapply rel_bind; [apply alike_ty, H|]; intros ? ? <-; cbn; unfold near2; auto.
  all: eapply rel_bind; [apply cast_near, H|]; intros; cbn; unfold near2; auto.
Qed.
Lemma alike_strip l l' : Forall2 alike l l' -> map strip l = map strip l'.
Proof. induction 1 as [|a b l l' [_ H]]; cbn; congruence. Qed.
Theorem shown_near S pre e : untyped e = true -> forall imp, rel near (visit S pre imp (shown e)) (visit S pre imp e).
Proof.
  induction e using rexpr_all; cbn [untyped shown visit]; destruct o; try discriminate; intros HU imp; rewrite ?andb_true_iff in HU.
  - destruct (s_var S x); [|reflexivity]. destruct (pre && _); [reflexivity|]. cbn. repeat split.
  - eapply rel_bind with (RA := Forall2 near).
    + clear - H HU. induction H as [|a l Ha Hl IH]; [constructor|]. cbn in HU. apply andb_true_iff in HU as [U1 U2]. cbn [map]. eapply rel_bind; [apply Ha, U1|]. intros x x' Hx.
      eapply rel_bind; [apply IH, U2|]. intros y y' Hy. cbn. auto.
    + intros x x' Hx. destruct (s_call S f) as [[ins outs|ins out|]|]; [| |reflexivity|reflexivity].
      * destruct (negb imp); [reflexivity|]. eapply rel_bind; [apply call_near, Hx|]. intros y y' Hy. cbn. apply alike_strip in Hy. unfold near, alike. cbn. rewrite Hy. auto.
      * eapply rel_bind; [apply call_near, Hx|]. intros y y' Hy. cbn. apply alike_strip in Hy. unfold near, alike. cbn. rewrite Hy. auto.
  - destruct HU as [[U1 U2] U3]. eapply rel_bind; [now apply IHe1|]. intros c c' [Hc _]. eapply rel_bind; [now apply IHe2|]. intros a a' [Ha _]. eapply rel_bind; [now apply IHe3|]. intros b b' [Hb _].
    eapply rel_bind; [apply cast_near, Hc|]. intros d d' [_ Hd]. eapply rel_bind; [apply unify_near; eassumption|]. intros [[x y] t] [[x' y'] t'] ([_ Hx] & [_ Hy] & Ht). cbn in *. subst.
    unfold near, alike. cbn. rewrite Hd, Hx, Hy. auto.
  - destruct HU as [U1 U2]. assert (K1 := IHe1 U1 false). assert (K2 := IHe2 U2 false).
    destruct (visit S pre false (shown e1)) as [a| |], (visit S pre false e1) as [a'| |]; cbn in K1; try contradiction; try exact K1.
    destruct (visit S pre false (shown e2)) as [b| |], (visit S pre false e2) as [b'| |]; cbn in K2; try contradiction; try exact K2.
    assert (B := bin_near op _ _ _ _ (proj1 K1) (proj1 K2)). cbn [check_un]. cbn -[check_bin rel near the_ty].
    destruct (check_bin op a b) as [[[x y] t]| |], (check_bin op a' b') as [[[x' y'] t']| |]; cbn in B; try contradiction; try exact B. destruct B as ([_ Hx] & [_ Hy] & Ht). cbn in *. subst.
    unfold near, alike. cbn. rewrite Hx, Hy. auto.
  - assert (K := IHe HU false). assert (P : forall a b, near a b -> rel near (let? (a, t) := check_un op a in finish None t (fun o => RUn o op a)) (let? (a, t) := check_un op b in finish None t (fun o => RUn o op a))).
    { intros a b [Hab _]. eapply rel_bind; [apply un_near, Hab|]. intros [x t] [x' t'] [[Hty Hx] Ht]. cbn in *. subst. unfold near, alike. cbn. rewrite Hx. auto. }
    assert (P2 : op <> OParens -> op <> OIverson -> rel near (let? a := visit S pre false (RUn None OParens (shown e)) in let? (a, t) := check_un op a in finish None t (fun o => RUn o op a)) (let? a := visit S pre false e in let? (a, t) := check_un op a in finish None t (fun o => RUn o op a))).
    { intros N1 N2. cbn [visit]. destruct (visit S pre false (shown e)) as [a| |], (visit S pre false e) as [b| |]; cbn in K; try contradiction; auto. destruct K as [[K1 K2] _].
      destruct (rty a) as [t|] eqn:Ta.
      - cbn [check_un]. cbn -[check_un rel near the_ty]. unfold the_ty at 1. rewrite Ta. cbn -[check_un rel near]. eapply rel_bind; [apply un_near; split; [cbn; exact K1|exact K2]|].
        intros [x t'] [x' t''] [[Hty Hx] Ht]. cbn in *. subst. unfold near, alike. cbn. rewrite Hx. destruct op; auto; congruence.
      - destruct op; try congruence; cbn; unfold op_check, try_cast, the_ty; rewrite Ta, <- K1; cbn; reflexivity. }
    destruct op; try (apply P2; discriminate); (eapply rel_bind; [exact K|exact P]).
  - eapply rel_bind; [now apply IHe|]. intros a a' [Ha _]. eapply rel_bind; [apply alike_ty, Ha|]. intros t ? <-. cbn. destruct Ha as [_ Ha]. unfold near, alike. cbn. rewrite Ha. auto.
  - eapply rel_bind; [now apply IHe|]. intros a a' [Ha _]. eapply rel_bind; [apply alike_ty, Ha|]. intros t ? <-. eapply rel_bind; [apply op_near, Ha|]. intros _ _ _. cbn. destruct Ha as [_ Ha]. unfold near, alike. cbn. rewrite Ha. auto.
  - destruct HU as [U1 U2]. eapply rel_bind; [now apply IHe1|]. intros v v' [Hv _]. eapply rel_bind; [apply alike_ty, Hv|]. intros t ? <-. destruct (negb _); [reflexivity|].
    eapply rel_bind; [now apply IHe2|]. intros a a' [Ha _]. eapply rel_bind; [apply alike_ty, Ha|]. intros u ? <-. cbn. destruct Ha as [_ Ha], Hv as [_ Hv]. unfold near, alike. cbn. rewrite Ha, Hv. auto.
  - cbn. repeat split.
Qed.
(** However the text of an expression is read, it is checked as the expression is. *)
Theorem printed_checked e : printable e = true -> untyped e = true -> forall e', gexpr new_levels (pexpr e) e' ->
  forall S pre imp, agree (visit S pre imp e') (visit S pre imp e).
Proof.
  intros HP HU e' H S pre imp. destruct (printed_reads e HP) as [N _]. rewrite (new_unique _ _ _ H N). assert (K := shown_near S pre e HU imp). unfold rel, agree in *.
  destruct (visit S pre imp (shown e)), (visit S pre imp e); auto. destruct K as [[? ?] _]. auto.
Qed.
