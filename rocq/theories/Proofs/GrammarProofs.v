(** The grammars read a text as documented (C45). *)
From Coq Require Import Bool List String Arith ZArith QArith Lia Wf_nat.
From Verif.Model Require Import Syntax Tycheck Precedence.
From Verif.Spec Require Import Reading.
Import ListNotations.
Local Open Scope list_scope.
Local Open Scope nat_scope.

Scheme atom_mut := Minimality for atom Sort Prop
  with glevel_mut := Minimality for glevel Sort Prop
  with gexpr_mut := Minimality for gexpr Sort Prop
  with gargs_mut := Minimality for gargs Sort Prop.
Combined Scheme grammar_ind from atom_mut, glevel_mut, gexpr_mut, gargs_mut.
Scheme writes_mut := Minimality for writes Sort Prop
  with writes_args_mut := Minimality for writes_args Sort Prop.
Combined Scheme writes_ind2 from writes_mut, writes_args_mut.

Definition side_of (a : assoc) : side := match a with ALeft => ToLeft | ARight => ToRight | ANone => Never end.
Definition agree (G : levels) (B : binding) : Prop :=
  forall op, strength B op = level_of G op /\ groups B op = side_of (assoc_of G (level_of G op)) /\ 1 <= level_of G op <= loosest G.
Lemma agree_new : agree new_levels documented.
Proof. intros []; cbn; repeat split; lia. Qed.
Lemma agree_old : agree old_levels before_4.
Proof. intros []; cbn; repeat split; lia. Qed.

Section G.
Variables (G : levels) (B : binding).
Hypothesis A : agree G B.
Definition top (e : rexpr) : nat := match e with RBin _ op _ _ => level_of G op | _ => 0 end.
Lemma simple_top e : simple e -> top e = 0.
Proof. intros [H _]. destruct e; cbn in *; congruence. Qed.
Lemma kids_nil e : node_ok B e -> kids e = [] -> grouped B e.
Proof. intros N K. constructor; auto. rewrite K. intros a []. Qed.
Lemma op_tight s op e : is_quant e = false -> top e <= pred (level_of G op) -> operand B s op e.
Proof.
  destruct (A op) as (E & _ & L). destruct e; cbn; auto; intros Q H; try discriminate.
  left. destruct (A op0) as (E' & _ & _). lia.
Qed.
Lemma op_side s op e : is_quant e = false -> top e <= level_of G op -> side_of (assoc_of G (level_of G op)) = s -> operand B s op e.
Proof.
  destruct (A op) as (E & E2 & L). destruct e; cbn; auto; intros Q H S; try discriminate.
  destruct (A op0) as (E' & _ & _). rewrite E2, E, E'. destruct (Nat.eq_dec (level_of G op0) (level_of G op)); [right; auto|left; lia].
Qed.
Lemma op_top s op e : operand B s op e -> is_quant e = false /\
  (top e <= pred (level_of G op) \/ top e = level_of G op /\ side_of (assoc_of G (level_of G op)) = s).
Proof.
  destruct (A op) as (E & E2 & L). destruct e; cbn; intros H; try (split; [reflexivity|left; lia]).
  - destruct (A op0) as (E' & _ & _). split; auto. rewrite E2, E, E' in H. destruct H as [H|[H S]]; [left; lia|right; auto].
  - contradiction.
Qed.
Ltac kid := constructor; [cbn; auto|cbn; intros ?k Hk; repeat (destruct Hk as [<-|Hk]; [assumption|]); try contradiction].

Lemma grammar_sound :
  (forall t e, atom G t e -> writes e t /\ grouped B e /\ simple e) /\
  (forall k t e, glevel G k t e -> writes e t /\ grouped B e /\ is_quant e = false /\ top e <= k) /\
  (forall t e, gexpr G t e -> writes e t /\ grouped B e) /\
  (forall t es, gargs G t es -> writes_args es t /\ forall a, In a es -> grouped B a).
Proof.
  apply grammar_ind.
  - intros x t1 v t2 a _ [W1 G1] _ [W2 G2]. split; [constructor; auto|split; [kid|split; reflexivity]].
  - intros t1 c t2 a t3 b _ [W1 G1] _ [W2 G2] _ [W3 G3]. split; [constructor; auto|split; [kid|split; reflexivity]].
  - intros t a _ (W & Gr & S). split; [constructor; auto|split; [kid|split; reflexivity]].
  - intros t a _ (W & Gr & S). split; [constructor; auto|split; [kid|split; reflexivity]].
  - intros t a _ (W & Gr & S). split; [constructor; auto|split; [kid|split; reflexivity]].
  - intros f t args _ [W Gr]. split; [constructor; auto|split; [constructor; [exact I|exact Gr]|split; reflexivity]].
  - intros t a _ [W Gr]. split; [constructor; auto|split; [kid|split; reflexivity]].
  - intros t a _ [W Gr]. split; [constructor; auto|split; [kid|split; reflexivity]].
  - intros l. split; [constructor|split; [apply kids_nil; [exact I|reflexivity]|split; reflexivity]].
  - intros x. split; [constructor|split; [apply kids_nil; [exact I|reflexivity]|split; reflexivity]].
  - intros t e _ (W & Gr & S). split; [auto|split; [auto|split; [apply S|rewrite (simple_top e S); lia]]].
  - intros k t e _ _ (W & Gr & Q & T). auto 6.
  - intros op tl l tr r S _ (W1 & G1 & Q1 & T1) _ (W2 & G2 & Q2 & T2).
    split; [constructor; auto|split; [|split; [reflexivity|cbn; lia]]]. kid.
    split; [apply op_side; auto; rewrite S; auto|apply op_tight; auto].
  - intros op tl l tr r S _ (W1 & G1 & Q1 & T1) _ (W2 & G2 & Q2 & T2).
    split; [constructor; auto|split; [|split; [reflexivity|cbn; lia]]]. kid.
    split; [apply op_tight; auto|apply op_side; auto; rewrite S; auto].
  - intros op tl l tr r S _ (W1 & G1 & Q1 & T1) _ (W2 & G2 & Q2 & T2).
    split; [constructor; auto|split; [|split; [reflexivity|cbn; lia]]]. kid. split; apply op_tight; auto.
  - intros t e _ (W & Gr & _). auto.
  - intros op tv xs t e V _ [W Gr]. split; [constructor; auto|kid].
  - split; [constructor|intros a []].
  - intros t e _ [W Gr]. split; [constructor; auto|]. intros a [<-|[]]; auto.
  - intros t e ts es _ [W Gr] _ [W' Gr']. split; [constructor; auto|]. intros a [<-|H]; auto.
Qed.

Lemma glevel_up k t e : glevel G k t e -> forall k', k <= k' -> k' <= loosest G -> glevel G k' t e.
Proof. intros H k' L. induction L; intros; auto. constructor; [lia|apply IHL; lia]. Qed.
Lemma grouped_kid e a : grouped B e -> In a (kids e) -> grouped B a.
Proof. intros H. inversion H; auto. Qed.
Lemma grouped_node e : grouped B e -> node_ok B e.
Proof. intros H. inversion H; auto. Qed.
Definition derivable (e : rexpr) (t : list tok) : Prop :=
  gexpr G t e /\ (is_quant e = false -> glevel G (top e) t e) /\ (simple e -> atom G t e).
Lemma from_atom e t : simple e -> atom G t e -> derivable e t.
Proof.
  intros S H. split; [|split]; auto.
  - apply ge_ops. apply glevel_up with 0; [constructor; auto|lia|lia].
  - intros _. rewrite (simple_top e S). constructor; auto.
Qed.
Lemma grammar_complete :
  (forall e t, writes e t -> grouped B e -> derivable e t) /\
  (forall es t, writes_args es t -> (forall a, In a es -> grouped B a) -> gargs G t es).
Proof.
  apply writes_ind2.
  - intros. apply from_atom; [split; reflexivity|constructor].
  - intros. apply from_atom; [split; reflexivity|constructor].
  - intros f args t _ IH H. apply from_atom; [split; reflexivity|]. constructor. apply IH. intros a Ha. apply (grouped_kid _ _ H Ha).
  - intros c a b t1 t2 t3 _ I1 _ I2 _ I3 H. apply from_atom; [split; reflexivity|].
    constructor; [apply I1|apply I2|apply I3]; apply (grouped_kid _ _ H); cbn; auto.
  - intros x v a t1 t2 _ I1 _ I2 H. apply from_atom; [split; reflexivity|].
    constructor; [apply I1|apply I2]; apply (grouped_kid _ _ H); cbn; auto.
  - intros a t _ IH H. apply from_atom; [split; reflexivity|]. constructor. apply IH, (grouped_kid _ _ H); cbn; auto.
  - intros a t _ IH H. apply from_atom; [split; reflexivity|]. constructor. apply IH, (grouped_kid _ _ H); cbn; auto.
  - intros op a t O S _ IH H. apply from_atom; [split; reflexivity|].
    assert (atom G t a) by (apply IH; auto; apply (grouped_kid _ _ H); cbn; auto).
    destruct O as [->|[->| ->]]; constructor; auto.
  - intros op a b t1 t2 Qa Qb _ I1 _ I2 H. destruct (grouped_node _ H) as [N1 N2]. cbn in N1, N2.
    assert (D1 : glevel G (top a) t1 a) by (apply I1; auto; apply (grouped_kid _ _ H); cbn; auto).
    assert (D2 : glevel G (top b) t2 b) by (apply I2; auto; apply (grouped_kid _ _ H); cbn; auto).
    destruct (A op) as (_ & _ & L). apply op_top in N1 as [_ N1]. apply op_top in N2 as [_ N2].
    assert (D : glevel G (level_of G op) (t1 ++ KBin op :: t2) (RBin None op a b)).
    { destruct (assoc_of G (level_of G op)) eqn:E; cbn in N1, N2.
      - apply lv_left; auto; [apply glevel_up with (top a); auto; lia|]. destruct N2 as [N2|[_ ?]]; [|discriminate]. apply glevel_up with (top b); auto; lia.
      - apply lv_right; auto; [|apply glevel_up with (top b); auto; lia]. destruct N1 as [N1|[_ ?]]; [|discriminate]. apply glevel_up with (top a); auto; lia.
      - destruct N1 as [N1|[_ ?]]; [|discriminate]. destruct N2 as [N2|[_ ?]]; [|discriminate].
        apply lv_none; auto; [apply glevel_up with (top a)|apply glevel_up with (top b)]; auto; lia. }
    split; [|split]; auto.
    + apply ge_ops. apply glevel_up with (level_of G op); auto; lia.
    + intros [F _]; discriminate.
  - intros op xs a tv t V _ IH H. split; [|split].
    + apply ge_quant; auto. apply IH, (grouped_kid _ _ H); cbn; auto.
    + discriminate.
    + intros [_ F]; discriminate.
  - constructor.
  - intros a t _ IH H. apply ga_last. apply IH. apply H; cbn; auto.
  - intros a t l ts _ IH _ IHl H. constructor; [apply IH; apply H; cbn; auto|apply IHl; intros; apply H; cbn; auto].
Qed.
Theorem grammar_iff t e : gexpr G t e <-> writes e t /\ grouped B e.
Proof.
  split; [apply grammar_sound|]. intros [W Gr]. apply (proj1 grammar_complete e t W Gr).
Qed.
End G.
