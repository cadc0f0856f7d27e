(** A text has at most one reading, and which texts have one (C45). *)
From Coq Require Import Bool List String Arith ZArith QArith Lia Wf_nat.
From Verif.Model Require Import Syntax Tycheck Precedence.
From Verif.Spec Require Import Reading.
From Verif.Proofs Require Import GrammarProofs.
Import ListNotations.
Local Open Scope list_scope.
Local Open Scope nat_scope.

Definition item : Type := (rexpr + binop)%type.
Fixpoint items (e : rexpr) : list item := match e with RBin _ op a b => items a ++ inr op :: items b | _ => [inl e] end.
Fixpoint bare (e : rexpr) : Prop := match e with RBin o _ a b => o = None /\ bare a /\ bare b | _ => True end.
Fixpoint iops (l : list item) : list binop := match l with [] => [] | inl _ :: l' => iops l' | inr op :: l' => op :: iops l' end.
Lemma iops_app l l' : iops (l ++ l') = iops l ++ iops l'.
Proof. induction l as [|[a|op] l IH]; cbn; congruence. Qed.
Lemma iops_in l op : In op (iops l) <-> In (inr op) l.
Proof.
  induction l as [|[a|o] l IH]; cbn; [tauto| |]; rewrite IH.
  - split; [auto|intros [H|H]; [discriminate|auto]].
  - split; (intros [H|H]; [left; congruence|auto]).
Qed.
Lemma iops_items e : iops (items e) = ops e.
Proof. induction e; cbn; auto. rewrite iops_app. cbn. congruence. Qed.
Lemma items_operand e a : In (inl a) (items e) <-> In a (operands e).
Proof.
  induction e; cbn; try (split; (intros [H|H]; [left; congruence|contradiction])).
  rewrite !in_app_iff. cbn. rewrite IHe1, IHe2. split; [intros [H|[H|H]]; auto; discriminate|intros [H|H]; auto].
Qed.

(** ** The operands and operators of a text *)
Inductive pieces : list item -> list tok -> Prop :=
| pc_one a t : simple a -> writes a t -> pieces [inl a] t
| pc_cons a t op l t' : simple a -> writes a t -> pieces l t' -> pieces (inl a :: inr op :: l) (t ++ KBin op :: t').
Lemma pieces_app l t l' t' op : pieces l t -> pieces l' t' -> pieces (l ++ inr op :: l') (t ++ KBin op :: t').
Proof. intros H. revert l' t'. induction H; intros l' t2 H2; cbn; [constructor; auto|]. rewrite <- app_assoc. cbn. constructor; auto. Qed.
Lemma pieces_split l : forall op l' t, pieces (l ++ inr op :: l') t -> exists t1 t2, t = t1 ++ KBin op :: t2 /\ pieces l t1 /\ pieces l' t2.
Proof.
  induction l as [l IH] using (induction_ltof1 _ (@List.length item)); unfold ltof in IH. intros op l' t H.
  destruct l as [|x [|y l]]; cbn in H; inversion H; subst.
  - eexists; eexists; split; [reflexivity|]. split; [constructor; auto|auto].
  - destruct (IH l ltac:(cbn; lia) _ _ _ H6) as (t1 & t2 & -> & P1 & P2).
    exists (t0 ++ KBin op0 :: t1), t2. rewrite <- app_assoc. cbn. split; [reflexivity|]. split; [constructor; auto|auto].
Qed.
Lemma writes_pieces e : forall t, writes e t -> is_quant e = false -> pieces (items e) t.
Proof.
  induction e; intros t W Q; try discriminate; cbn; try (constructor; [split; reflexivity|auto]).
  inversion W; subst. apply pieces_app; auto.
Qed.
Lemma pieces_quant e : forall t, pieces (items e) t -> is_quant e = false.
Proof. destruct e; intros t P; cbn; auto. inversion P; subst. destruct H0. auto. Qed.
Lemma pieces_writes e : forall t, bare e -> pieces (items e) t -> writes e t.
Proof.
  induction e; intros t Bare P; cbn in P; try (inversion P; subst; assumption).
  destruct Bare as (-> & B1 & B2). destruct (pieces_split _ _ _ _ P) as (t1 & t2 & -> & P1 & P2).
  constructor; auto; eapply pieces_quant; eauto.
Qed.
Lemma writes_bare e : forall t, writes e t -> bare e.
Proof. induction e; intros t W; cbn; auto. inversion W; subst. split; [auto|split; eauto]. Qed.

(** ** Two trees of the same text differ in grouping only *)
Inductive rg : rexpr -> rexpr -> Prop :=
| rg_var x : rg (RVar None x) (RVar None x)
| rg_lit l : rg (RLit None l) (RLit None l)
| rg_call f args args' : Forall2 rg args args' -> rg (RCall None f args) (RCall None f args')
| rg_ite c a b c' a' b' : rg c c' -> rg a a' -> rg b b' -> rg (RIte None c a b) (RIte None c' a' b')
| rg_un op a a' : rg a a' -> rg (RUn None op a) (RUn None op a')
| rg_quant op xs a a' : rg a a' -> rg (RQuant None op xs a) (RQuant None op xs a')
| rg_let x v a v' a' : rg v v' -> rg a a' -> rg (RSubst None x v a) (RSubst None x v' a')
| rg_ops e e' : is_bin e = true -> is_bin e' = true -> bare e -> bare e' -> Forall2 rgi (items e) (items e') -> rg e e'
with rgi : item -> item -> Prop :=
| rgi_op op : rgi (inr op) (inr op)
| rgi_e a a' : rg a a' -> rgi (inl a) (inl a').

Definition stop (r : list tok) : Prop := match r with [] | KComma :: _ | KRpar :: _ | KRbr :: _ => True | _ => False end.
Definition starts (k : tok) : bool :=
  match k with KId _ | KFun _ | KLit _ | KLet | KIte | KPre _ | KLpar | KLbr => true | _ => false end.
Lemma writes_start e : forall t, writes e t -> is_quant e = false -> exists k t', t = k :: t' /\ starts k = true.
Proof.
  induction e; intros t W Q; inversion W; subst; cbn; try (eexists; eexists; split; [reflexivity|reflexivity]).
  - destruct (IHe1 t1) as (k & t' & -> & S); auto. cbn. eauto.
  - discriminate.
Qed.
Lemma quant_start e t : writes e t -> is_quant e = true -> exists op t', t = KQuant op :: t'.
Proof. intros W Q. destruct e; try discriminate. inversion W; subst. eauto. Qed.
Lemma writes_head e t : writes e t -> exists k t', t = k :: t' /\ match k with KComma | KRpar | KRbr | KBin _ => False | _ => True end.
Proof.
  intros W. destruct (is_quant e) eqn:Q.
  - destruct (quant_start e t W Q) as (op & t' & ->). eexists; eexists; split; [reflexivity|exact I].
  - destruct (writes_start e t W Q) as (k & t' & -> & S). eexists; eexists; split; [reflexivity|]. destruct k; cbn in *; try discriminate; exact I.
Qed.
Lemma qvars_det tv xs : qvars tv xs -> forall tv' xs' r r', qvars tv' xs' -> tv ++ KDot :: r = tv' ++ KDot :: r' -> xs = xs' /\ tv = tv' /\ r = r'.
Proof.
  induction 1; intros tv' xs' r r' H' E; inversion H'; subst; cbn in E; injection E; intros; subst; try discriminate; auto.
  destruct (IHqvars _ _ _ _ H0 H1) as (-> & -> & ->). auto.
Qed.

Section Prefix.
Variable n : nat.
Definition pre_atom (m : nat) := forall e e' t t' r r', List.length t <= m -> simple e -> simple e' -> writes e t -> writes e' t' ->
  t ++ r = t' ++ r' -> rg e e' /\ t = t' /\ r = r'.
Definition pre_expr (m : nat) := forall e e' t t' r r', List.length t <= m -> writes e t -> writes e' t' ->
  t ++ r = t' ++ r' -> stop r -> stop r' -> rg e e' /\ t = t' /\ r = r'.
Definition pre_args (m : nat) := forall es es' t t' r r', List.length t <= m -> writes_args es t -> writes_args es' t' ->
  t ++ KRpar :: r = t' ++ KRpar :: r' -> Forall2 rg es es' /\ t = t' /\ r = r'.
End Prefix.

Ltac norm H := repeat (cbn [app] in H; rewrite <- ?app_assoc in H).
Lemma expr_step (Q : nat -> Prop) m : pre_expr m -> forall e e' t t' k r r', List.length t <= m -> writes e t -> writes e' t' ->
  t ++ k :: r = t' ++ k :: r' -> stop [k] -> rg e e' /\ t = t' /\ r = r'.
Proof.
  intros P e e' t t' k r r' L W W' E S.
  destruct (P e e' t t' (k :: r) (k :: r')) as (R & -> & X); auto; try (destruct k; cbn in *; auto; fail).
  injection X. auto.
Qed.
Lemma atom_step m : pre_expr m -> pre_args m -> pre_atom m -> pre_atom (S m).
Proof.
  intros PE PL PA e e' t t' r r' L S S' W W' E.
  pose proof (expr_step (fun _ => True) m PE) as ST.
  inversion W; subst; try (destruct S; discriminate); inversion W'; subst; try (destruct S'; discriminate); cbn in L; norm E; try discriminate;
    try (match goal with H : _ = ONot \/ _ |- _ => destruct H as [->|[->| ->]] end; norm E; discriminate);
    rewrite ?app_length in L; cbn in L; rewrite ?app_length in L; cbn in L; injection E; clear E; intros.
  all: subst; rewrite ?app_length in L; cbn in L.
  all: try (match goal with
    | HE : ?ta ++ _ = ?tb ++ _, HA : writes_args _ ?ta, HB : writes_args _ ?tb |- _ =>
        assert (LL : List.length ta <= m) by lia; destruct (PL _ _ _ _ _ _ LL HA HB HE) as (F & -> & ->); split; [constructor; auto|auto]; fail
    | HE : ?ta ++ _ = ?tb ++ _, HA : writes _ ?ta, HB : writes _ ?tb, SA : simple _, SB : simple _ |- _ =>
        assert (LL : List.length ta <= m) by lia; destruct (PA _ _ _ _ _ _ LL SA SB HA HB HE) as (F & -> & ->); split; [constructor; auto|auto]; fail
    end).
  all: try (split; [constructor|auto]; fail).
  all: repeat match goal with
    | HE : ?ta ++ _ = ?tb ++ _, HA : writes _ ?ta, HB : writes _ ?tb |- _ =>
        assert (LL : List.length ta <= m) by lia; destruct (ST _ _ _ _ _ _ _ LL HA HB HE I) as (?R & -> & ?X); clear HE HA HB LL; subst; repeat (match goal with X : _ ++ _ = _ |- _ => progress norm X end)
    end.
  all: subst; split; [constructor; auto|auto].
Qed.
Lemma pieces_step m : pre_atom m -> forall l t, pieces l t -> forall l' t' r r', pieces l' t' -> List.length t <= m -> t ++ r = t' ++ r' ->
  stop r -> stop r' -> Forall2 rgi l l' /\ t = t' /\ r = r'.
Proof.
  intros PA l t P. induction P; intros l1 t1 r r' P' L E St St'; inversion P'; subst.
  - destruct (PA a a0 t t1 r r') as (R & -> & ->); auto. split; [auto using Forall2_cons, Forall2_nil, rgi_e, rgi_op|auto].
  - norm E. destruct (PA a a0 t t0 r (KBin op :: t' ++ r')) as (R & ? & ?); auto. subst. contradiction.
  - norm E. rewrite app_length in L. cbn in L. destruct (PA a a0 t t1 (KBin op :: t' ++ r) r') as (R & ? & ?); auto; try lia. subst. contradiction.
  - norm E. rewrite app_length in L. cbn in L. destruct (PA a a0 t t0 (KBin op :: t' ++ r) (KBin op0 :: t'0 ++ r')) as (R & -> & X); auto; try lia.
    injection X as -> X. match goal with HP : pieces _ t'0 |- _ => destruct (IHP _ _ _ _ HP ltac:(lia) X St St') as (F & -> & ->) end. split; [auto using Forall2_cons, Forall2_nil, rgi_e, rgi_op|auto].
Qed.
Lemma nonbin_items e : is_bin e = false -> items e = [inl e].
Proof. destruct e; auto. discriminate. Qed.
Lemma bin_items e : is_bin e = true -> exists x y z l, items e = x :: y :: z :: l.
Proof.
  intros Bn. destruct e; try discriminate. clear Bn. cbn.
  assert (N : forall e, exists x l, items e = x :: l).
  { intros e. induction e as [| | |? ? e0_1 IHe0_1 e0_2 IHe0_2| | | | |]; cbn; eauto. destruct IHe0_1 as (x & l & ->). cbn. eauto. }
  destruct (N e1) as (x & l & ->). destruct (N e2) as (x' & l' & ->). destruct l as [|y [|z l]]; cbn; eauto.
Qed.
Lemma rgi_len l l' : Forall2 rgi l l' -> List.length l = List.length l'.
Proof. induction 1; cbn; auto. Qed.
Lemma items_rg e e' : bare e -> bare e' -> Forall2 rgi (items e) (items e') -> rg e e'.
Proof.
  intros Be Be' F. pose proof (rgi_len _ _ F) as Len. destruct (is_bin e) eqn:N, (is_bin e') eqn:N'.
  - apply rg_ops; auto.
  - rewrite (nonbin_items e' N') in Len. destruct (bin_items e N) as (x & y & z & l & E). rewrite E in Len. discriminate.
  - rewrite (nonbin_items e N) in Len. destruct (bin_items e' N') as (x & y & z & l & E). rewrite E in Len. discriminate.
  - rewrite (nonbin_items e N), (nonbin_items e' N') in F. inversion F; subst. match goal with X : rgi _ _ |- _ => inversion X; auto end.
Qed.
Lemma expr_of_atom m : pre_atom m -> (forall m', m' < m -> pre_expr m') -> pre_expr m.
Proof.
  intros PA PE e e' t t' r r' L W W' E St St'.
  destruct (is_quant e) eqn:Q, (is_quant e') eqn:Q'.
  - destruct e; try discriminate. destruct e'; try discriminate. inversion W; subst. inversion W'; subst. norm E. injection E as -> E.
    match goal with H1 : qvars _ xs, H2 : qvars _ xs0 |- _ => destruct (qvars_det _ _ H1 _ _ _ _ H2 E) as (-> & -> & X) end. cbn in L. rewrite app_length in L. cbn in L.
    destruct m as [|m]; [lia|]. 
    match type of X with ?ta ++ _ = ?tb ++ _ => destruct (PE m ltac:(lia) e e' ta tb r r') as (R & -> & ->); auto; try lia end. split; [constructor; auto|auto].
  - destruct (quant_start _ _ W Q) as (op & t1 & ->). destruct (writes_start _ _ W' Q') as (k & t2 & -> & S).
    injection E as <- _. discriminate.
  - destruct (quant_start _ _ W' Q') as (op & t1 & ->). destruct (writes_start _ _ W Q) as (k & t2 & -> & S).
    injection E as -> _. discriminate.
  - destruct (pieces_step m PA _ _ (writes_pieces _ _ W Q) _ _ _ _ (writes_pieces _ _ W' Q') L E St St') as (F & -> & ->).
    split; auto. apply items_rg; eauto using writes_bare.
Qed.
Lemma args_of_expr m : pre_expr m -> (forall m', m' < m -> pre_args m') -> pre_args m.
Proof.
  intros PE PL es es' t t' r r' L W W' E.
  assert (Z : forall e t1 x y, writes e t1 -> KRpar :: x = t1 ++ y -> False).
  { intros e t1 x y W1 X. destruct (writes_head e t1 W1) as (k & t2 & -> & H). cbn in X. injection X as <- _. exact H. }
  inversion W; subst; inversion W'; subst.
  - cbn in E. injection E as <-. auto.
  - exfalso. eapply Z; [exact H|exact E].
  - exfalso. norm E. eapply Z; [exact H|exact E].
  - exfalso. eapply Z; [exact H|symmetry; exact E].
  - destruct (expr_step (fun _ => True) m PE _ _ _ _ _ _ _ L H H0 E I) as (R & -> & ->). auto.
  - norm E. destruct (PE _ _ _ _ _ _ L H H0 E I I) as (_ & _ & X). discriminate.
  - exfalso. norm E. eapply Z; [exact H|symmetry; exact E].
  - norm E. rewrite app_length in L. cbn in L. destruct (PE a a0 t0 t' (KComma :: ts ++ KRpar :: r) (KRpar :: r')) as (_ & _ & X); auto; cbn; auto; try lia. discriminate.
  - norm E. rewrite app_length in L. cbn in L.
    destruct (PE a a0 t0 t (KComma :: ts ++ KRpar :: r) (KComma :: ts0 ++ KRpar :: r')) as (R & -> & X); auto; cbn; auto; try lia.
    injection X as X. destruct m as [|m]; [lia|].
    destruct (PL m ltac:(lia) l l0 ts ts0 r r') as (F & -> & ->); auto; try lia.
Qed.
Lemma prefix_all m : forall k, k <= m -> pre_atom k /\ pre_expr k /\ pre_args k.
Proof.
  induction m as [|m IH]; intros k L.
  - assert (k = 0) as -> by lia.
    assert (PA : pre_atom 0).
    { intros e e' t t' r r' L0 _ _ W. destruct (writes_head e t W) as (x & t0 & -> & _). cbn in L0. lia. }
    assert (PE : pre_expr 0) by (apply expr_of_atom; auto; intros; lia).
    split; [auto|split; [auto|]]. apply args_of_expr; auto. intros; lia.
  - destruct (Nat.eq_dec k (S m)) as [->|]; [|apply IH; lia].
    destruct (IH m ltac:(lia)) as (PA & PE & PL).
    assert (PA' : pre_atom (S m)) by (apply atom_step; auto).
    assert (PE' : pre_expr (S m)) by (apply expr_of_atom; auto; intros k Lk; apply (IH k); lia).
    split; [auto|split; [auto|]]. apply args_of_expr; auto. intros k Lk. apply (IH k); lia.
Qed.
Theorem same_text e e' t : writes e t -> writes e' t -> rg e e'.
Proof.
  intros W W'. destruct (prefix_all (List.length t) _ (le_n _)) as (_ & P & _).
  apply (P e e' t t [] []); auto; try exact I.
Qed.
