(** C09: the optional expression simplifications preserve values. *)
From Coq Require Import Bool List String NArith ZArith QArith Reals.
From Verif.Model Require Import Syntax Builder Constfold Relational Egraph.
From Verif.Spec Require Import Eur Sem Exprs Folding.
From Verif.Proofs Require Import ConstfoldProofs RelationalProofs EgraphProofs SimplifyRefuted.
Import ListNotations.
Local Open Scope string_scope.
Local Open Scope nat_scope.

(** Constant folding keeps type and value of every well-typed expression in which no constant zero is the left operand
    of [-] or [/], no reals are multiplied and no (signed) integers or reals are joined or met. *)
Theorem C09_constfold : forall e e', wt e = true -> foldable e -> constfold e = Ok e' ->
  wt e' = true /\ ty_of e' = ty_of e /\ forall I s, interp_ok I -> env_ok s -> eval I e' s = eval I e s.
Proof. exact constfold_sim. Qed.
Print Assumptions C09_constfold.

(** It does not panic on them, if constant UInt arithmetic stays below 2^128. *)
Theorem C09_constfold_total : forall e, wt e = true -> foldable e -> fits e -> exists e', constfold e = Ok e'.
Proof. exact (fun e W F B => match constfold_total e W F B with ex_intro _ e' (conj H _) => ex_intro _ e' H end). Qed.
Print Assumptions C09_constfold_total.

(** Each of the conditions is needed. *)
Theorem C09_constfold_sub_refuted : exists e e', wt e = true /\ constfold e = Ok e' /\ differs e' e.
Proof. exact constfold_sub_refuted. Qed.
Print Assumptions C09_constfold_sub_refuted.
Theorem C09_constfold_div_refuted : exists e e', wt e = true /\ constfold e = Ok e' /\ differs e' e.
Proof. exact constfold_div_refuted. Qed.
Print Assumptions C09_constfold_div_refuted.
Theorem C09_constfold_sup_refuted : exists e e', wt e = true /\ constfold e = Ok e' /\ differs e' e.
Proof. exact constfold_sup_refuted. Qed.
Print Assumptions C09_constfold_sup_refuted.
Theorem C09_constfold_inf_refuted : exists e m, wt e = true /\ constfold e = Panic m.
Proof. exact constfold_inf_refuted. Qed.
Print Assumptions C09_constfold_inf_refuted.
Theorem C09_constfold_mul_refuted : exists e e', wt e = true /\ constfold e = Ok e' /\ wt e' = false.
Proof. exact constfold_mul_refuted. Qed.
Print Assumptions C09_constfold_mul_refuted.
Theorem C09_constfold_u128_refuted : exists e m, wt e = true /\ foldable e /\ constfold e = Panic m.
Proof. exact constfold_u128_refuted. Qed.
Print Assumptions C09_constfold_u128_refuted.

(** Relational rewriting keeps type and value of every well-typed expression whose [<=] and [>=] compare UInt, UReal or
    EUReal, and so do its [==] with a literal on the left. *)
Theorem C09_relational : forall e, wt e = true -> comparable e ->
  wt (relational e) = true /\ ty_of (relational e) = ty_of e /\
  forall I s, interp_ok I -> env_ok s -> eval I (relational e) s = eval I e s.
Proof. exact relational_sim. Qed.
Print Assumptions C09_relational.

(** The model's recursion bound is never reached. *)
Theorem C09_relational_terminates : forall n l u, nodes l + nodes u <= n -> relational_leq_fuel n l u = relational_leq l u.
Proof. exact (fun n l u H => fuel_enough (nodes l + nodes u) n l u (le_n _) H). Qed.
Print Assumptions C09_relational_terminates.

Theorem C09_relational_le_refuted : exists e, wt e = true /\ relational e = b_bool true /\ differs (relational e) e.
Proof. exact relational_le_refuted. Qed.
Print Assumptions C09_relational_le_refuted.
Theorem C09_relational_eq_refuted : exists e, wt e = true /\
  relational e = EBin TBool OLe (vx TInt) (ECast TInt (b_uint 0)) /\ differs (relational e) e.
Proof. exact relational_eq_refuted. Qed.
Print Assumptions C09_relational_eq_refuted.
Theorem C09_relational_type_refuted : exists e, wt e = true /\
  relational e = EBin TBool OLe (vx TBool) (b_frac 0) /\ wt (relational e) = false.
Proof. exact relational_type_refuted. Qed.
Print Assumptions C09_relational_type_refuted.

(** All rewrite rules of the e-graph but two are equations of HeyLo; the two about subtraction are not. *)
Theorem C09_egraph_rules : Forall (fun r => fst r <> "add-sub" -> fst r <> "sub-add" -> rule_sound r) rules.
Proof. exact egraph_rules. Qed.
Print Assumptions C09_egraph_rules.
Theorem C09_egraph_subtraction_refuted : exists r1 r2, In ("add-sub", r1) rules /\ In ("sub-add", r2) rules /\
  ~ rule_sound ("add-sub", r1) /\ ~ rule_sound ("sub-add", r2).
Proof. exact egraph_subtraction_refuted. Qed.
Print Assumptions C09_egraph_subtraction_refuted.

(** [(1 + 2) * x + (0 * y)] folds to [3 * x]. *)
Example C09_constfold_nonvacuous :
  let x := vx TUInt in
  let e := EBin TUInt OAdd (EBin TUInt OMul (EBin TUInt OAdd (b_uint 1) (b_uint 2)) x) (EBin TUInt OMul (b_uint 0) x) in
  wt e = true /\ foldable e /\ fits e /\ constfold e = Ok (EBin TUInt OMul (b_uint 3) x).
Proof.
  assert (B : forall e, (forall n, eval I5 e (st 0 0) = VUInt n -> (n < 2 ^ 128)%N) -> below_u128 e).
  { intros e H. exists I5, (st 0 0). auto using I5_ok, st_ok. }
  split; [reflexivity|]. split; [simpl; intuition discriminate|]. split; [|reflexivity].
  simpl. repeat split; intros _; apply B; intros n H; vm_compute in H; inversion H; reflexivity.
Qed.

(** [oo <= (x -> (y ⊓ oo))] is decomposed. *)
Example C09_relational_nonvacuous :
  let x := vx TEUReal in
  let e := EBin TBool OEq b_inf (EBin TEUReal OImpl x (EBin TEUReal OInf x b_inf)) in
  wt e = true /\ comparable e /\
  relational e = bbin OOr (bbin OAnd (bbin OLe b_inf x) (b_bool true)) (bbin OAnd (bbin OLe x x) (b_bool true)).
Proof. simpl. auto 10. Qed.
