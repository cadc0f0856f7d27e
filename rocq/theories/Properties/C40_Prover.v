(** C40: solver answers become the right verdicts. *)
From Coq Require Import Bool List String.
From Verif.Model Require Import Syntax Prover.
From Verif.Spec Require Import Proving.
From Verif.Proofs Require Import ProverProofs.
Import ListNotations.

(** For every sequence of operations, in both incremental modes, and every solver whose definite answers are right: no panic, and
    the verdict is right for the assumptions and obligations that are open. *)
Theorem C40_verdict : forall (F M : Type) neg (holds : M -> F -> Prop) answer,
  (forall m f, holds m (neg f) <-> ~ holds m f) -> sound_answer holds answer ->
  forall emulated os o, after os [[]] = Some o -> Forall plain os ->
  exists p, run F neg answer os (new_prover F emulated) = Ok p /\ verdict holds (fst (check_proof F answer p)) (all o) [].
Proof. exact plain_verdict. Qed.
Print Assumptions C40_verdict.
Theorem C40_assuming_verdict : forall (F M : Type) neg (holds : M -> F -> Prop) answer,
  (forall m f, holds m (neg f) <-> ~ holds m f) -> sound_answer holds answer ->
  forall emulated os o f a, after os [[]] = Some o ->
  exists p, run F neg answer os (new_prover F emulated) = Ok p /\
    verdict holds (fst (check_proof_assuming F answer (f :: a) p)) (all o) (f :: a).
Proof. exact assuming_verdict. Qed.
Print Assumptions C40_assuming_verdict.
Theorem C40_sat : forall (F M : Type) neg (holds : M -> F -> Prop) answer,
  (forall m f, holds m (neg f) <-> ~ holds m f) -> sound_answer holds answer ->
  forall emulated os o, after os [[]] = Some o -> Forall plain os ->
  exists p, run F neg answer os (new_prover F emulated) = Ok p /\
    match fst (check_sat F answer p) with
    | Sat => exists m, model_of holds m (assumed (all o)) /\ forall f, In f (to_prove (all o)) -> ~ holds m f
    | Unsat => forall m, model_of holds m (assumed (all o)) -> exists f, In f (to_prove (all o)) /\ holds m f
    | Unknown => True
    end.
Proof. exact plain_sat. Qed.
Print Assumptions C40_sat.
Example C40_case : (forall m f, Bholds m (Bneg f) <-> ~ Bholds m f) /\ sound_answer Bholds Banswer /\
  after [OPush; OProvable true; OPush; OAssume false; OCheckProof []; OPop; OCheckSat] [[]] = Some [[ToProve true]; []].
Proof. exact (conj Bspec (conj Bsound eq_refl)). Qed.

(** An answer given under assumptions is cached and then given to the question without them. *)
Theorem C40_stale_cache_refuted : exists (F M : Type) neg (holds : M -> F -> Prop) answer os o p,
  (forall m f, holds m (neg f) <-> ~ holds m f) /\ sound_answer holds answer /\ after os [[]] = Some o /\
  run F neg answer os (new_prover F false) = Ok p /\ ~ verdict holds (fst (check_proof F answer p)) (all o) [].
Proof. exact stale_refuted. Qed.
Print Assumptions C40_stale_cache_refuted.
(** Several obligations are a disjunction. *)
Theorem C40_two_obligations_refuted : exists (F M : Type) neg (holds : M -> F -> Prop) answer f g p m,
  (forall m f, holds m (neg f) <-> ~ holds m f) /\ sound_answer holds answer /\
  run F neg answer [OProvable f; OProvable g] (new_prover F false) = Ok p /\ fst (check_proof F answer p) = Proof /\ ~ holds m g.
Proof. exact two_refuted. Qed.
Print Assumptions C40_two_obligations_refuted.
