(** C01: the SMT encodings of EUReal arithmetic. *)
From Coq Require Import Reals ZArith Lra.
From Verif.Spec Require Import Eur EncSpec.
From Verif.Model Require Import Orders EurEncodings.
From Verif.Proofs Require Import EncProofs.
Local Open Scope R_scope.

(** The specification's monus is the residual of addition. *)
Theorem C01_monus_is_residual : forall a b c, ele (emonus a b) c <-> ele a (eadd b c).
Proof. exact monus_spec. Qed.
Print Assumptions C01_monus_is_residual.

(** Pair encoding: +, *, ite, min, max on every representation. *)
Theorem C01_pair_arith : forall a b, pair_ok a -> pair_ok b ->
  (pair_ok (pair_add a b) /\ pair_val (pair_add a b) = eadd (pair_val a) (pair_val b)) /\
  (pair_ok (pair_mul a b) /\ pair_val (pair_mul a b) = emul (pair_val a) (pair_val b)) /\
  (forall c : bool, pair_val (pair_branch c a b) = if c then pair_val a else pair_val b) /\
  (pair_val (smt_min_with pair_branch pair_cmp a b) = emin (pair_val a) (pair_val b)) /\
  (pair_val (smt_max_with pair_branch pair_cmp a b) = emax (pair_val a) (pair_val b)).
Proof. exact pair_arith_correct. Qed.
Print Assumptions C01_pair_arith.

(** A non-canonical infinity meets the hypotheses. *)
Example C01_pair_arith_example : pair_ok (mkpair true 7) /\ pair_ok (mkpair false 0) /\
  pair_val (pair_mul (mkpair true 7) (mkpair false 0)) = ebot.
Proof.
  repeat split; try (unfold pair_ok; simpl; lra).
  unfold pair_val; simpl. rewrite (proj2 (Reqb_iff 0 0) eq_refl). simpl. now rewrite Rmult_0_r.
Qed.

(** All five comparisons. *)
Theorem C01_pair_order : represents pair_lattice pair_ok pair_val ele.
Proof. exact pair_represents. Qed.
Print Assumptions C01_pair_order.

(** Fresh variables range over all of [0,oo], each value once. *)
Theorem C01_pair_canonical : forall v, exists a,
  (pair_invariant a = true /\ pair_val a = v) /\
  forall b, pair_invariant b = true /\ pair_val b = v -> b = a.
Proof. exact pair_canonical. Qed.
Print Assumptions C01_pair_canonical.

(** The constants have the values they name and are the canonical representations. *)
Theorem C01_pair_constants :
  (pair_invariant pair_infinity = true /\ pair_val pair_infinity = Inf) /\
  (pair_invariant pair_zero = true /\ pair_val pair_zero = ebot) /\
  (forall r, 0 <= r -> pair_invariant (pair_from_ureal r) = true /\ pair_val (pair_from_ureal r) = fin r) /\
  (forall c : bool, pair_invariant (pair_iverson c) = true /\ pair_val (pair_iverson c) = if c then fin 1 else ebot).
Proof. exact pair_constants. Qed.
Print Assumptions C01_pair_constants.

(** Subtraction: exactly when the default encoding is right. *)
Theorem C01_pair_sub_iff : forall a b, pair_ok a -> pair_ok b ->
  pair_val (pair_sub a b) = emonus (pair_val a) (pair_val b) <->
  (p_inf b = true -> p_num a <= p_num b).
Proof. exact pair_sub_correct_iff. Qed.
Print Assumptions C01_pair_sub_iff.

(** FINDING: with the default encoding 5 - oo is 4. *)
Theorem C01_pair_sub_refuted : exists a b, pair_invariant a = true /\ pair_invariant b = true /\
  pair_val a = fin 5 /\ pair_val b = Inf /\
  pair_val (pair_sub a b) = fin 4 /\ emonus (pair_val a) (pair_val b) = ebot /\ fin 4 <> ebot.
Proof. exact pair_sub_refuted. Qed.
Print Assumptions C01_pair_sub_refuted.

(** Datatype encoding: every operation, whatever the solver picks for get_real(oo). *)
Theorem C01_datatype_arith : forall junk a b, dt_ok a -> dt_ok b ->
  (dt_ok (dt_add junk a b) /\ dt_val (dt_add junk a b) = eadd (dt_val a) (dt_val b)) /\
  (dt_ok (dt_sub junk a b) /\ dt_val (dt_sub junk a b) = emonus (dt_val a) (dt_val b)) /\
  (dt_ok (dt_mul junk a b) /\ dt_val (dt_mul junk a b) = emul (dt_val a) (dt_val b)) /\
  (dt_val (smt_min_with dt_branch (dt_cmp junk) a b) = emin (dt_val a) (dt_val b)) /\
  (dt_val (smt_max_with dt_branch (dt_cmp junk) a b) = emax (dt_val a) (dt_val b)).
Proof. exact dt_arith_correct. Qed.
Print Assumptions C01_datatype_arith.

Example C01_datatype_example : dt_ok DInf /\ dt_ok (DReal 3) /\ dt_val (dt_sub (-2) (DReal 3) DInf) = ebot.
Proof. repeat split. simpl; lra. Qed.

Theorem C01_datatype_order : forall junk, represents (dt_lattice junk) dt_ok dt_val ele.
Proof. exact dt_represents. Qed.
Print Assumptions C01_datatype_order.

(** FINDING: the datatype invariant constrains get_real(oo); a solver model with a
    negative junk value excludes infinity from the range of every fresh variable. *)
Theorem C01_datatype_range_refuted : exists junk, forall a, dt_invariant junk a = true -> dt_val a <> Inf.
Proof. exact dt_invariant_excludes_infinity. Qed.
Print Assumptions C01_datatype_range_refuted.

(** The encodings agree on everything except subtraction of infinity. *)
Theorem C01_encodings_agree : forall p q a b junk, pair_ok p -> pair_ok q -> dt_ok a -> dt_ok b ->
  pair_val p = dt_val a -> pair_val q = dt_val b ->
  pair_val (pair_add p q) = dt_val (dt_add junk a b) /\
  pair_val (pair_mul p q) = dt_val (dt_mul junk a b) /\
  (forall o, pair_cmp p q o = dt_cmp junk a b o) /\
  (dt_val b <> Inf -> pair_val (pair_sub p q) = dt_val (dt_sub junk a b)).
Proof. exact encodings_agree. Qed.
Print Assumptions C01_encodings_agree.

Theorem C01_encodings_agree_refuted : exists (p q : epair) (a b : dt) (junk : R),
  pair_invariant p = true /\ pair_invariant q = true /\ dt_invariant junk a = true /\ dt_invariant junk b = true /\
  pair_val p = dt_val a /\ pair_val q = dt_val b /\ pair_val (pair_sub p q) <> dt_val (dt_sub junk a b).
Proof. exact encodings_disagree. Qed.
Print Assumptions C01_encodings_agree_refuted.

(** Concrete values read back from models. *)
Theorem C01_concrete : forall a b, concrete_ok a -> concrete_ok b ->
  concrete_val (concrete_add a b) = eadd (concrete_val a) (concrete_val b) /\
  concrete_val (concrete_mul a b) = emul (concrete_val a) (concrete_val b) /\
  (forall c, concrete_sub a b = Some c -> concrete_val c = emonus (concrete_val a) (concrete_val b)) /\
  (concrete_sub a b = None <-> concrete_val b = Inf).
Proof. exact concrete_ops_correct. Qed.
Print Assumptions C01_concrete.

Theorem C01_model_readback : forall a, pair_ok a -> concrete_ok (pair_eval a) /\ concrete_val (pair_eval a) = pair_val a.
Proof. exact pair_eval_correct. Qed.
Print Assumptions C01_model_readback.

Theorem C01_uint_monus : forall a b, (0 <= a)%Z -> (0 <= b)%Z -> int_monus a b = Z.max 0 (a - b).
Proof. exact uint_monus_spec. Qed.
Print Assumptions C01_uint_monus.
