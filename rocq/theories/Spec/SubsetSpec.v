(** What is asked of a search for subsets that verify. *)
From Coq Require Import Bool List Arith.
From Verif.Model Require Import Prover SliceSearch Subsets.
Import ListNotations.

Definition same_set (a b : list nat) : Prop := forall v, In v a <-> In v b.
(** [proof s]: the slice with exactly the statements [s] verifies. *)
Definition extensional (proof : list nat -> Prop) : Prop := forall a b, same_set a b -> proof a -> proof b.
(** Adding extensive statements and removing reductive ones keeps verification. *)
Definition monotone_in (vars ext red : list nat) (proof : list nat -> Prop) : Prop := forall a b,
  incl a vars -> incl b vars ->
  (forall v, In v b -> ~ In v a -> In v ext) -> (forall v, In v a -> ~ In v b -> In v red) -> proof a -> proof b.
Definition right_answer (proof : list nat -> Prop) (check : nat -> list nat -> prove_result) : Prop := forall k s,
  match check k s with Proof => proof s | Counterexample => ~ proof s | ProveUnknown => True end.
(** The statements in the unsat core suffice. *)
Definition right_core (proof : list nat -> Prop) (check : nat -> list nat -> prove_result) (core : nat -> list nat -> list nat) : Prop :=
  forall k s, check k s = Proof -> incl (core k s) s /\ NoDup (core k s) /\ proof (core k s).
Definition satisfies (s : nat -> bool) (cs : list constraint) : Prop := forall c, In c cs -> c s = true.
(** Every completion of the model is a model. *)
Definition right_pick (p : pick) (cs : list constraint) : Prop :=
  match p with
  | PNone => forall s, ~ satisfies s cs
  | PUnknown => False
  | PModel m => forall s, (forall v b, m v = Some b -> s v = b) -> satisfies s cs
  end.
(** Conditions on these variables, and a solver that is right about them. *)
Definition local (vars : list nat) (c : constraint) : Prop := forall s s', (forall v, In v vars -> s v = s' v) -> c s = c s'.
Definition right_picks (vars : list nat) (picks : nat -> list constraint -> pick) : Prop :=
  forall j cs, Forall (local vars) cs -> right_pick (picks j cs) cs.
Definition minimal_subset (vars : list nat) (proof : list nat -> Prop) (s : list nat) : Prop :=
  proof s /\ forall a, incl a s -> proof a -> incl s a.
Definition smallest (vars : list nat) (proof : list nat -> Prop) (s : list nat) : Prop :=
  proof s /\ forall a, incl a vars -> NoDup a -> proof a -> length s <= length a.
