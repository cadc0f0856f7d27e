(** C08: quantifier elimination preserves validity. *)
From Coq Require Import List String QArith.
From Verif.Spec Require Import Eur Sem Linear Valid.
From Verif.Model Require Import Syntax Builder Lits TyCtx Qelim Subst.
From Verif.Proofs Require Import SubstProofs QelimProofs.
Import ListNotations.

(** On expressions in which no user-quantified variable occurs outside of its quantifier. *)
Theorem C08_qelim_verified_partial : forall q d T e,
  wt e = true -> lattice (ty_of e) = true -> linear d e -> (forall x, In x (all_ids e) -> is_var T x) ->
  exists e' T', qelim q d T e = Ok (e', T') /\ wt e' = true /\ ty_of e' = ty_of e /\
    forall I, interp_ok I -> (verified I d e <-> verified I d e').
Proof. exact qelim_verified. Qed.
Print Assumptions C08_qelim_verified_partial.

(** State by state, elimination moves a value only towards "verified". *)
Theorem C08_qelim_pointwise_partial : forall q d T e,
  wt e = true -> lattice (ty_of e) = true -> linear d e -> (forall x, In x (all_ids e) -> is_var T x) ->
  exists e' T', qelim q d T e = Ok (e', T') /\ forall I s, interp_ok I -> env_ok s ->
    match d with Down => lat_le (eval I e s) (eval I e' s) | Up => lat_le (eval I e' s) (eval I e s) end.
Proof. exact qelim_pointwise. Qed.
Print Assumptions C08_qelim_pointwise_partial.

(** Together with the substitution pass after it and the Boolean question that is asked. *)
Theorem C08_qelim_question_partial : forall q qs d T e,
  wt e = true -> lattice (ty_of e) = true -> linear d e -> (forall x, In x (all_ids e) -> is_var T x) ->
  exists e1 T1 e2 T2 vc, qelim q d T e = Ok (e1, T1) /\ apply_subst qs T1 e1 = Ok (e2, T2) /\ into_bool_vc d e2 = Ok vc /\
    wt vc = true /\ no_subst vc /\ ty_of vc = TBool /\
    forall I, interp_ok I -> (verified I d e <-> forall s, env_ok s -> eval I vc s = VBool true).
Proof. exact qelim_question. Qed.
Print Assumptions C08_qelim_question_partial.

(** Without that condition the claim is false: a condition that fails everywhere becomes one that holds everywhere. *)
Theorem C08_duplicate_refuted : wt dup_vc = true /\ lattice (ty_of dup_vc) = true /\ (forall x, In x (all_ids dup_vc) -> is_var dup_tcx x) /\
  (forall q, qelim q Down dup_tcx dup_vc = Ok (dup_out, dup_tcx)) /\
  (forall I, interp_ok I -> ~ verified I Down dup_vc) /\ (forall I, interp_ok I -> verified I Down dup_out).
Proof. exact qelim_duplicate_refuted. Qed.
Print Assumptions C08_duplicate_refuted.

(** The hypotheses are met by an expression with nested, shadowed and user-written quantifiers on both sides of an implication. *)
Example C08_example :
  let x := mkid "x" 0 TEUReal in let y := mkid "y" 0 TEUReal in let z := mkid "z" 0 TBool in
  let e := EBin TEUReal OImpl (EQuant QSup [QShadow x] (EBin TEUReal OInf (EVar x) (EVar y)))
             (EBin TEUReal OAdd (EQuant QInf [QShadow x; QFresh z] (EUn TEUReal OIverson (EVar z))) (EVar x)) in
  let T := mktcx [(x, true); (y, true); (z, true)] [] in
  wt e = true /\ lattice (ty_of e) = true /\ linear Down e /\ (forall v, In v (all_ids e) -> is_var T v) /\
  match qelim (fun _ => 1%nat) Down T e with Ok (e', _) => e' <> e | _ => False end.
Proof.
  cbv zeta. split; [reflexivity|]. split; [reflexivity|]. split; [|split].
  - simpl. unfold disjoint. repeat split; auto; intros v H K; simpl in *; intuition; subst; discriminate.
  - intros v H; simpl in H. repeat (destruct H as [<-|H]; [reflexivity|]). destruct H.
  - vm_compute. discriminate.
Qed.
