(** C39: constants introduced for inf/sup quantifiers denote infima and suprema. *)
From Coq Require Import Reals.
From Verif.Spec Require Import Eur EncSpec.
From Verif.Model Require Import Orders EurEncodings.
From Verif.Proofs Require Import EncProofs EncProps.
Local Open Scope R_scope.

Theorem C39_infimum : forall A Q (body : A -> Q -> epair) ext, (forall a q, pair_ok (body a q)) ->
  infimum_axioms pair_lattice (fun t => pair_invariant t = true) body ext <->
  (forall a, pair_invariant (ext a) = true /\
             pair_val (ext a) = einf (fun v => exists q, v = pair_val (body a q))).
Proof. exact @pair_infimum. Qed.
Print Assumptions C39_infimum.

Theorem C39_supremum : forall A Q (body : A -> Q -> epair) ext, (forall a q, pair_ok (body a q)) ->
  supremum_axioms pair_lattice (fun t => pair_invariant t = true) body ext <->
  (forall a, pair_invariant (ext a) = true /\
             pair_val (ext a) = esup (fun v => exists q, v = pair_val (body a q))).
Proof. exact @pair_supremum. Qed.
Print Assumptions C39_supremum.

(** The constraints are always satisfiable, so they never make a context inconsistent. *)
Theorem C39_extrema_exist : forall A Q (body : A -> Q -> epair), (forall a q, pair_ok (body a q)) ->
  (exists ext, infimum_axioms pair_lattice (fun t => pair_invariant t = true) body ext) /\
  (exists ext, supremum_axioms pair_lattice (fun t => pair_invariant t = true) body ext).
Proof. exact @pair_extrema_exist. Qed.
Print Assumptions C39_extrema_exist.

(** Datatype encoding, in solver models with a non-negative get_real(oo). *)
Theorem C39_datatype_infimum_partial : forall junk A Q (body : A -> Q -> dt) ext, 0 <= junk ->
  (forall a q, dt_ok (body a q)) ->
  infimum_axioms (dt_lattice junk) (fun t => dt_invariant junk t = true) body ext <->
  (forall a, dt_invariant junk (ext a) = true /\
             dt_val (ext a) = einf (fun v => exists q, v = dt_val (body a q))).
Proof. exact @dt_infimum. Qed.
Print Assumptions C39_datatype_infimum_partial.

(** ... and in the other solver models the constraints of [inf q. oo] are unsatisfiable. *)
Theorem C39_datatype_negative_junk_refuted : forall junk, junk < 0 ->
  ~ exists ext : unit -> dt, infimum_axioms (dt_lattice junk) (fun t => dt_invariant junk t = true)
      (fun (_ : unit) (_ : unit) => DInf) ext.
Proof. exact dt_infimum_unsat. Qed.
Print Assumptions C39_datatype_negative_junk_refuted.

(** The hypotheses are met by an unbounded family. *)
Example C39_example : forall (a : unit) (q : nat), pair_ok (mkpair false (INR q)).
Proof. intros a q. exact (pos_INR q). Qed.
