(** What is asked of a search for small counterexamples. *)
From Coq Require Import List Arith.
From Verif.Model Require Import Syntax Prover SliceSearch.
Import ListNotations.

(** [sizes m]: there is a counterexample in which exactly [m] of the statements are enabled. *)
Definition sound_search (sizes : nat -> Prop) (check : nat -> nat -> satres) (model : nat -> nat -> option nat) : Prop :=
  forall k n, match check k n with
              | Unsat => forall m, m <= n -> ~ sizes m
              | Sat => exists m, model k n = Some m /\ m <= n /\ sizes m
              | Unknown => True
              end.
Definition definite (check : nat -> nat -> satres) : Prop := forall k n, check k n <> Unknown.
Definition least_size (sizes : nat -> Prop) (m : nat) : Prop := sizes m /\ forall x, sizes x -> m <= x.

(** Which sizes an answer settles, if larger slices are accepted whenever smaller ones are. *)
Definition settles (h : nat * trial_result) (n : nat) : Prop :=
  match snd h with RejectDownwards => n <= fst h | AcceptUpwards => fst h <= n | TrialUnknown => n = fst h end.
Definition open_size (hist : list (nat * trial_result)) (a b n : nat) : Prop :=
  a <= n <= b /\ forall h, In h hist -> ~ settles h n.
(** The answers are within the range and do not contradict each other. *)
Definition coherent (hist : list (nat * trial_result)) (a b : nat) : Prop :=
  (forall h, In h hist -> a <= fst h <= b) /\
  (forall x y, In (x, RejectDownwards) hist -> In (y, AcceptUpwards) hist -> x < y).
(** The recorded answers; most recent answer first. *)
Fixpoint record (hist : list (nat * trial_result)) (a b : nat) : res minimizer :=
  match hist with
  | [] => Ok (new_min a b)
  | (n, r) :: hist => let? m := record hist a b in add_result m n r
  end.
