(** C20: direction tracking through negations. *)
From Coq Require Import Bool List.
From Verif.Model Require Import Syntax Negations.
From Verif.Proofs Require Import MonoProofs.
Import ListNotations.

(** One forward step flips the direction exactly at a negation of that direction. *)
Theorem C20_forwards_step : forall d s d', negation_forwards d s = Ok d' <->
  match s with SNegate dir => dir = d /\ d' = toggle d | _ => d' = d end.
Proof. exact forwards_spec. Qed.
Print Assumptions C20_forwards_step.

(** A straight-line program is accepted exactly if its negations alternate, and the
    final direction is the initial one flipped once per negation. *)
Theorem C20_forwards_walk : forall b d d', walk_forwards d b = Ok d' <->
  alternating d (negs b) /\ d' = Nat.iter (List.length (negs b)) toggle d.
Proof. exact walk_forwards_iff. Qed.
Print Assumptions C20_forwards_walk.

(** Walking backwards undoes a [negate] ... *)
Theorem C20_backwards_negate : forall d d',
  negation_forwards d (SNegate Down) = Ok d' -> negation_backwards d' (SNegate Down) = Ok d.
Proof. exact backwards_negate. Qed.
Print Assumptions C20_backwards_negate.

(** ... but not a [conegate]: the accepted step is rejected backwards, and the step
    accepted backwards is rejected forwards. *)
Theorem C20_backwards_conegate_refuted : exists d d', negation_forwards d (SNegate Up) = Ok d' /\
  (exists w, negation_backwards d' (SNegate Up) = Err w) /\
  exists d1, negation_backwards d (SNegate Up) = Ok d1 /\ exists w, negation_forwards d1 (SNegate Up) = Err w.
Proof. exact backwards_conegate_refuted. Qed.
Print Assumptions C20_backwards_conegate_refuted.

Example C20_nonvacuous : walk_forwards Down [SNegate Down; SLabel (mkid String.EmptyString 0 TBool); SNegate Up; SNegate Down] = Ok Up.
Proof. reflexivity. Qed.
