(** C02: the order operators are the Heyting/co-Heyting operators. *)
From Coq Require Import Reals.
From Verif.Spec Require Import Eur EncSpec.
From Verif.Model Require Import Orders EurEncodings.
From Verif.Proofs Require Import EncProofs EncProps.

(** c <= (a -> b) iff min(c,a) <= b, in [0,oo] through the default encoding. *)
Theorem C02_implication_adjoint : forall a b c, pair_ok a -> pair_ok b ->
  ele c (pair_val (implication pair_lattice a b)) <-> ele (emin c (pair_val a)) (pair_val b).
Proof. exact pair_impl_adjoint. Qed.
Print Assumptions C02_implication_adjoint.

(** The same through the datatype encoding. *)
Theorem C02_implication_adjoint_datatype : forall junk a b c, dt_ok a -> dt_ok b ->
  ele c (dt_val (implication (dt_lattice junk) a b)) <-> ele (emin c (dt_val a)) (dt_val b).
Proof. exact dt_impl_adjoint. Qed.
Print Assumptions C02_implication_adjoint_datatype.

(** (a <- b) <= c iff b <= max(a,c). *)
Theorem C02_coimplication_adjoint : forall a b c, pair_ok a -> pair_ok b ->
  ele (pair_val (coimplication pair_lattice a b)) c <-> ele (pair_val b) (emax (pair_val a) c).
Proof. exact pair_coimpl_adjoint. Qed.
Print Assumptions C02_coimplication_adjoint.

Theorem C02_coimplication_adjoint_datatype : forall junk a b c, dt_ok a -> dt_ok b ->
  ele (dt_val (coimplication (dt_lattice junk) a b)) c <-> ele (dt_val b) (emax (dt_val a) c).
Proof. exact dt_coimpl_adjoint. Qed.
Print Assumptions C02_coimplication_adjoint_datatype.

(** Values of the six operators, default encoding. *)
Theorem C02_operator_values : forall a b, pair_ok a -> pair_ok b ->
  pair_val (implication pair_lattice a b) = (if eleb (pair_val a) (pair_val b) then etop else pair_val b) /\
  pair_val (coimplication pair_lattice a b) = (if eleb (pair_val b) (pair_val a) then ebot else pair_val b) /\
  pair_val (compare pair_lattice a b) = (if eleb (pair_val a) (pair_val b) then etop else ebot) /\
  pair_val (cocompare pair_lattice a b) = (if eleb (pair_val b) (pair_val a) then ebot else etop) /\
  pair_val (negate pair_lattice a) = (if eleb (pair_val a) ebot then etop else ebot) /\
  pair_val (conegate pair_lattice a) = (if eleb etop (pair_val a) then ebot else etop).
Proof. exact pair_operator_values. Qed.
Print Assumptions C02_operator_values.

Theorem C02_operator_values_datatype : forall junk a b, dt_ok a -> dt_ok b ->
  dt_val (implication (dt_lattice junk) a b) = (if eleb (dt_val a) (dt_val b) then etop else dt_val b) /\
  dt_val (coimplication (dt_lattice junk) a b) = (if eleb (dt_val b) (dt_val a) then ebot else dt_val b) /\
  dt_val (compare (dt_lattice junk) a b) = (if eleb (dt_val a) (dt_val b) then etop else ebot) /\
  dt_val (cocompare (dt_lattice junk) a b) = (if eleb (dt_val b) (dt_val a) then ebot else etop) /\
  dt_val (negate (dt_lattice junk) a) = (if eleb (dt_val a) ebot then etop else ebot) /\
  dt_val (conegate (dt_lattice junk) a) = (if eleb etop (dt_val a) then ebot else etop).
Proof. exact dt_operator_values. Qed.
Print Assumptions C02_operator_values_datatype.

(** Booleans: the classical operators. *)
Theorem C02_bool_operators : forall a b : bool,
  implication bool_lattice a b = implb a b /\ negate bool_lattice a = negb a /\
  conegate bool_lattice a = negb a /\ compare bool_lattice a b = implb a b /\
  coimplication bool_lattice a b = andb b (negb a) /\ cocompare bool_lattice a b = andb b (negb a) /\
  bool_embed bool_lattice a = a.
Proof. exact bool_operator_values. Qed.
Print Assumptions C02_bool_operators.

(** Order reversal represents the reversed order. *)
Theorem C02_opp_dual : forall T A (L : smt_lattice T) ok (abs : T -> A) le,
  represents L ok abs le -> represents (opp L) ok abs (fun x y => le y x).
Proof. exact @opp_represents. Qed.
Print Assumptions C02_opp_dual.

Theorem C02_opp_involutive : forall T (L : smt_lattice T) a b o, cmp (opp (opp L)) a b o = cmp L a b o.
Proof. exact @opp_opp_cmp. Qed.
Print Assumptions C02_opp_involutive.

(** Embedding of a Boolean is the top or bottom element. *)
Theorem C02_embed : forall c : bool,
  pair_val (bool_embed pair_lattice c) = (if c then etop else ebot) /\
  (forall junk, dt_val (bool_embed (dt_lattice junk) c) = (if c then etop else ebot)) /\
  pair_val (pair_iverson c) = (if c then eone else ebot) /\ dt_val (dt_iverson c) = (if c then eone else ebot).
Proof. exact embed_values. Qed.
Print Assumptions C02_embed.

Example C02_example : pair_ok (mkpair true 3) /\ pair_ok (mkpair false 2) /\
  pair_val (implication pair_lattice (mkpair true 3) (mkpair false 2)) = fin 2.
Proof. exact pair_impl_example. Qed.
