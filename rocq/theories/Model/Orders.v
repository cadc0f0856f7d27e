(** Model of z3rro/src/orders.rs.  SMT terms are modelled by the value they
    denote in a fixed SMT structure: a term-building function becomes the
    function on denotations.  Syntax of terms, reference counting and the Z3
    context are omitted. *)

From Coq Require Import Bool.

(** orders.rs 22-31 *)
Inductive ordering := OLt | OLe | OEq | OGe | OGt.

(** orders.rs 33-44: SmtOrdering::reverse *)
Definition reverse (o : ordering) : ordering :=
  match o with OLt => OGt | OLe => OGe | OEq => OEq | OGe => OLe | OGt => OLt end.

(** The trait dictionary: SmtPartialOrd (47-55), SmtBranch, SmtLattice (113-121). *)
Record smt_lattice (T : Type) := {
  cmp    : T -> T -> ordering -> bool;
  branch : bool -> T -> T -> T;
  bot    : T;
  top    : T;
  inf    : T -> T -> T;
  sup    : T -> T -> T
}.
Arguments cmp {T}. Arguments branch {T}. Arguments bot {T}. Arguments top {T}.
Arguments inf {T}. Arguments sup {T}.

(** orders.rs 83-88 and 92-97, generic in branch and cmp. *)
Definition smt_min_with {T} (br : bool -> T -> T -> T) (c : T -> T -> ordering -> bool) (a b : T) : T :=
  br (c a b OLe) a b.
Definition smt_max_with {T} (br : bool -> T -> T -> T) (c : T -> T -> ordering -> bool) (a b : T) : T :=
  br (c a b OGe) a b.

(** orders.rs 126-131 *)
Definition bool_embed {T} (L : smt_lattice T) (c : bool) : T := branch L c (top L) (bot L).

(** orders.rs 372-400: the opposite lattice.  The newtype wrapper is transparent. *)
Definition opp {T} (L : smt_lattice T) : smt_lattice T := {|
  cmp a b o := cmp L a b (reverse o);
  branch := branch L;
  bot := top L;
  top := bot L;
  inf := sup L;
  sup := inf L
|}.

(** orders.rs 158-193: SmtGodel default methods. *)
Definition implication {T} (L : smt_lattice T) (a b : T) : T :=
  branch L (cmp L a b OLe) (top L) b.
Definition coimplication {T} (L : smt_lattice T) (a b : T) : T := implication (opp L) a b.
Definition compare {T} (L : smt_lattice T) (a b : T) : T :=
  branch L (cmp L a b OLe) (top L) (bot L).
Definition cocompare {T} (L : smt_lattice T) (a b : T) : T := compare (opp L) a b.
Definition negate {T} (L : smt_lattice T) (a : T) : T :=
  branch L (cmp L a (bot L) OLe) (top L) (bot L).
Definition conegate {T} (L : smt_lattice T) (a : T) : T := negate (opp L) a.

(** orders.rs 57-67, 99-149: Bool as a lattice. *)
Definition bool_cmp (a b : bool) (o : ordering) : bool :=
  match o with
  | OLt => andb (negb a) b
  | OLe => implb a b
  | OEq => Bool.eqb a b
  | OGe => implb b a
  | OGt => andb a (negb b)
  end.
Definition bool_lattice : smt_lattice bool := {|
  cmp := bool_cmp;
  branch c a b := if c then a else b;
  bot := false; top := true; inf := andb; sup := orb |}.

(** orders.rs 216-322: the constraints emitted for [inf q. body(args, q)].
    [A] is the type of valuations of the outer bound variables satisfying their
    scope's constraints, [Q] that of the quantified ones (scope.rs 93-105:
    [forall] assumes all constraints of the scope); [inv] is SmtInvariant of
    the result type, assumed for the candidate (scope.rs 168-174) and asserted
    of the extremum (orders.rs 230-234). *)
Definition infimum_axioms {T A Q : Type} (L : smt_lattice T) (inv : T -> Prop)
    (body : A -> Q -> T) (extremum : A -> T) : Prop :=
  (forall args, inv (extremum args)) /\
  (forall args q, cmp L (extremum args) (body args q) OLe = true) /\
  (forall args candidate, inv candidate ->
     (forall q, cmp L candidate (body args q) OLe = true) ->
     cmp L candidate (extremum args) OLe = true).

(** orders.rs 265-272: supremum is infimum in the opposite lattice. *)
Definition supremum_axioms {T A Q : Type} (L : smt_lattice T) (inv : T -> Prop)
    (body : A -> Q -> T) (extremum : A -> T) : Prop :=
  infimum_axioms (opp L) inv body extremum.
