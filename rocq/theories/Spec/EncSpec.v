(** What it means for an SMT-level lattice to represent a mathematical one, and
    how the epair/datatype/concrete representations are read as elements of [0,oo]. *)
From Coq Require Import Reals.
From Verif.Spec Require Import Eur.
From Verif.Model Require Import Orders EurEncodings.
Local Open Scope R_scope.

(** [le] is a total order on [A]. *)
Definition total_order {A} (le : A -> A -> Prop) : Prop :=
  (forall x, le x x) /\ (forall x y z, le x y -> le y z -> le x z) /\
  (forall x y, le x y -> le y x -> x = y) /\ (forall x y, le x y \/ le y x).

(** The dictionary [L] on terms satisfying [ok] represents the bounded total
    order [le] through [abs]. *)
Record represents {T A} (L : smt_lattice T) (ok : T -> Prop) (abs : T -> A) (le : A -> A -> Prop) : Prop := {
  rep_le : forall a b, ok a -> ok b -> cmp L a b OLe = true <-> le (abs a) (abs b);
  rep_ge : forall a b, ok a -> ok b -> cmp L a b OGe = true <-> le (abs b) (abs a);
  rep_lt : forall a b, ok a -> ok b -> cmp L a b OLt = true <-> le (abs a) (abs b) /\ abs a <> abs b;
  rep_gt : forall a b, ok a -> ok b -> cmp L a b OGt = true <-> le (abs b) (abs a) /\ abs a <> abs b;
  rep_eq : forall a b, ok a -> ok b -> cmp L a b OEq = true <-> abs a = abs b;
  rep_branch : forall (c : bool) a b, branch L c a b = if c then a else b;
  rep_bot : ok (bot L) /\ forall x, le (abs (bot L)) x;
  rep_top : ok (top L) /\ forall x, le x (abs (top L));
  rep_inf : forall a b, ok a -> ok b -> ok (inf L a b) /\
     forall x, le x (abs (inf L a b)) <-> le x (abs a) /\ le x (abs b);
  rep_sup : forall a b, ok a -> ok b -> ok (sup L a b) /\
     forall x, le (abs (sup L a b)) x <-> le (abs a) x /\ le (abs b) x
}.

(** Reading of a pair. Every term built by pair.rs from canonical variables
    satisfies [pair_ok]; only variables satisfy the stronger [pair_invariant]. *)
Definition pair_ok (a : epair) : Prop := 0 <= p_num a.
Definition pair_val (a : epair) : eur := if p_inf a then Inf else fin (p_num a).

Definition dt_ok (a : dt) : Prop := match a with DInf => True | DReal r => 0 <= r end.
Definition dt_val (a : dt) : eur := match a with DInf => Inf | DReal r => fin r end.

Definition concrete_ok (a : concrete) : Prop := match a with CInf => True | CReal r => 0 <= r end.
Definition concrete_val (a : concrete) : eur := match a with CInf => Inf | CReal r => fin r end.
