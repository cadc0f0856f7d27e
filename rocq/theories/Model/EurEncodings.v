(** Model of the two SMT encodings of EUReal and of concrete values:
    z3rro/src/ureal.rs, z3rro/src/eureal/{pair,datatype,concrete}.rs.
    Terms are modelled by their denotation (see Model/Orders.v). *)
From Coq Require Import Reals Bool ZArith.
From Verif.Model Require Import Orders.
Local Open Scope R_scope.

Definition Rleb (a b : R) : bool := if Rle_dec a b then true else false.
Definition Rltb (a b : R) : bool := if Rlt_dec a b then true else false.
Definition Reqb (a b : R) : bool := if Req_EM_T a b then true else false.

(** orders.rs 69-79 (Real), used by UReal at ureal.rs 89-93. *)
Definition real_cmp (a b : R) (o : ordering) : bool :=
  match o with
  | OLt => Rltb a b | OLe => Rleb a b | OEq => Reqb a b
  | OGe => Rleb b a | OGt => Rltb b a
  end.

(** ureal.rs 149-152: real_monus *)
Definition real_monus (a b : R) : R := if Rleb b a then a - b else 0.
(** ureal.rs 58-62: the invariant of UReal *)
Definition ureal_inv (r : R) : bool := Rleb 0 r.

(** uint.rs 133-135: int_monus *)
Definition int_monus (a b : Z) : Z := if Z.geb a b then (a - b)%Z else 0%Z.

(** ** Pair encoding (pair.rs), the default. *)
Record epair := mkpair { p_inf : bool; p_num : R }.

(** pair.rs 44-50 *)
Definition pair_infinity : epair := mkpair true 1.
(** pair.rs 60-66 *)
Definition pair_from_ureal (r : R) : epair := mkpair false r.
(** pair.rs 56-58 *)
Definition pair_zero : epair := pair_from_ureal 0.
(** pair.rs 122-130 *)
Definition pair_branch (c : bool) (a b : epair) : epair :=
  mkpair (if c then p_inf a else p_inf b) (if c then p_num a else p_num b).
(** pair.rs 68-74 *)
Definition pair_iverson (c : bool) : epair := pair_branch c (pair_from_ureal 1) pair_zero.
(** pair.rs 93-100 *)
Definition pair_invariant (a : epair) : bool :=
  andb (ureal_inv (p_num a)) (implb (p_inf a) (Reqb (p_num a) 1)).
(** pair.rs 159-169 *)
Definition pair_add (a b : epair) : epair := mkpair (orb (p_inf a) (p_inf b)) (p_num a + p_num b).
(** pair.rs 173-183 *)
Definition pair_sub (a b : epair) : epair :=
  mkpair (andb (p_inf a) (negb (p_inf b))) (real_monus (p_num a) (p_num b)).
(** pair.rs 187-203 *)
Definition pair_mul (a b : epair) : epair :=
  let a_nonzero := orb (p_inf a) (negb (Reqb (p_num a) 0)) in
  let b_nonzero := orb (p_inf b) (negb (Reqb (p_num b) 0)) in
  mkpair (orb (andb (p_inf a) b_nonzero) (andb (p_inf b) a_nonzero)) (p_num a * p_num b).
(** pair.rs 207-215 *)
Definition pair_eq (a b : epair) : bool :=
  andb (Bool.eqb (p_inf a) (p_inf b))
       (implb (orb (negb (p_inf a)) (negb (p_inf b))) (Reqb (p_num a) (p_num b))).
(** pair.rs 219-224 *)
Definition pair_le (a b : epair) : bool :=
  orb (p_inf b) (andb (negb (p_inf a)) (Rleb (p_num a) (p_num b))).
(** pair.rs 226-233 *)
Definition pair_cmp (a b : epair) (o : ordering) : bool :=
  match o with
  | OLt => negb (pair_le b a)
  | OLe => pair_le a b
  | OEq => pair_eq a b
  | OGe => pair_le b a
  | OGt => negb (pair_le a b)
  end.
(** pair.rs 236-252 *)
Definition pair_lattice : smt_lattice epair := {|
  cmp := pair_cmp; branch := pair_branch;
  bot := pair_from_ureal 0; top := pair_infinity;
  inf := smt_min_with pair_branch pair_cmp;
  sup := smt_max_with pair_branch pair_cmp |}.

(** ** Datatype encoding (datatype.rs).
    [junk] is the value the SMT structure gives to the selector [get_real] on
    the constructor [inf]; SMT-LIB leaves it unspecified, so it is a parameter. *)
Inductive dt := DInf | DReal (r : R).

Definition dt_is_inf (a : dt) : bool := match a with DInf => true | DReal _ => false end.
Definition dt_is_real (a : dt) : bool := negb (dt_is_inf a).
(** datatype.rs 154-162 *)
Definition dt_get (junk : R) (a : dt) : R := match a with DInf => junk | DReal r => r end.
(** datatype.rs 102-108, 118-132 *)
Definition dt_infinity : dt := DInf.
Definition dt_from_ureal (r : R) : dt := DReal r.
Definition dt_zero : dt := DReal 0.
(** datatype.rs 184-188 *)
Definition dt_invariant (junk : R) (a : dt) : bool := ureal_inv (dt_get junk a).
(** datatype.rs 208-221 *)
Definition dt_eq (a b : dt) : bool :=
  match a, b with DInf, DInf => true | DReal r, DReal s => Reqb r s | _, _ => false end.
Definition dt_branch (c : bool) (a b : dt) : dt := if c then a else b.
(** datatype.rs 134-140 *)
Definition dt_iverson (c : bool) : dt := dt_branch c (dt_from_ureal 1) dt_zero.
(** datatype.rs 316-321 *)
Definition dt_le (junk : R) (a b : dt) : bool :=
  orb (dt_is_inf b) (andb (dt_is_real a) (Rleb (dt_get junk a) (dt_get junk b))).
(** datatype.rs 323-328 *)
Definition dt_add (junk : R) (a b : dt) : dt :=
  dt_branch (orb (dt_is_inf a) (dt_is_inf b)) dt_infinity
            (dt_from_ureal (dt_get junk a + dt_get junk b)).
(** datatype.rs 330-340 *)
Definition dt_sub (junk : R) (a b : dt) : dt :=
  dt_branch (dt_is_inf b) dt_zero
    (dt_branch (dt_is_inf a) dt_infinity
       (dt_from_ureal (real_monus (dt_get junk a) (dt_get junk b)))).
(** datatype.rs 342-356 *)
Definition dt_mul (junk : R) (a b : dt) : dt :=
  let both_finite := andb (dt_is_real a) (dt_is_real b) in
  let result_zero := orb (andb (dt_is_inf a) (dt_eq b dt_zero)) (andb (dt_is_inf b) (dt_eq a dt_zero)) in
  dt_branch both_finite (dt_from_ureal (dt_get junk a * dt_get junk b))
    (dt_branch result_zero dt_zero dt_infinity).
(** datatype.rs 406-424 *)
Definition dt_cmp (junk : R) (a b : dt) (o : ordering) : bool :=
  let le := dt_le junk a b in
  let eq := dt_eq a b in
  match o with
  | OLt => andb le (negb eq)
  | OLe => le
  | OEq => eq
  | OGe => orb (negb le) eq
  | OGt => negb le
  end.
(** datatype.rs 426-442 *)
Definition dt_lattice (junk : R) : smt_lattice dt := {|
  cmp := dt_cmp junk; branch := dt_branch;
  bot := dt_from_ureal 0; top := dt_infinity;
  inf := smt_min_with dt_branch (dt_cmp junk);
  sup := smt_max_with dt_branch (dt_cmp junk) |}.

(** ** Concrete values (concrete.rs); BigRational is modelled by R, a
    supertype; only +, *, -, and comparison are used. *)
Inductive concrete := CReal (r : R) | CInf.
(** concrete.rs 27-36 *)
Definition to_symbolic (c : concrete) : epair :=
  match c with CReal r => pair_from_ureal r | CInf => pair_infinity end.
(** concrete.rs 60-71 *)
Definition concrete_add (a b : concrete) : concrete :=
  match a, b with CReal x, CReal y => CReal (x + y) | _, _ => CInf end.
(** concrete.rs 73-90 *)
Definition concrete_sub (a b : concrete) : option concrete :=
  match a, b with
  | CInf, CInf => None
  | CInf, _ => Some CInf
  | _, CInf => None
  | CReal x, CReal y => if Rleb y x then Some (CReal (x - y)) else Some (CReal 0)
  end.
(** concrete.rs 92-109 *)
Definition concrete_mul (a b : concrete) : concrete :=
  match a, b with
  | CReal x, CReal y => if Reqb x 0 then CReal 0 else if Reqb y 0 then CReal 0 else CReal (x * y)
  | CReal x, CInf => if Reqb x 0 then CReal 0 else CInf
  | CInf, CReal y => if Reqb y 0 then CReal 0 else CInf
  | CInf, CInf => CInf
  end.
(** pair.rs 142-157: reading a value back from a solver model. *)
Definition pair_eval (a : epair) : concrete := if p_inf a then CInf else CReal (p_num a).
