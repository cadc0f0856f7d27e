(** C49: numbers are read and shown exactly. *)
From Coq Require Import Bool List String ZArith.
From Verif.Model Require Import Syntax Numerals.
From Verif.Spec Require Import Decimal.
From Verif.Proofs Require Import NumeralProofs NumeralReading NumeralUnique.
Import ListNotations.
Local Open Scope Z_scope.

(** What is shown for n/d means n/d, whatever the limit for the digits: as a terminating decimal, as a repeating one, or cut off
    with the fraction beside it. *)
Theorem C49_shown : forall limit n d, limit <> O -> denotes (pretty limit n d) n d.
Proof. exact pretty_denotes. Qed.
Print Assumptions C49_shown.
Example C49_shown_ex : decimal_limit <> O /\
  pretty decimal_limit (-7) 12 =
    [GMinus; GD 0; GDot; GD 5; GD 8; GO 3; GSpace; GOpen; GMinus; GD 7; GSlash; GD 1; GD 2; GClose] /\
  pretty decimal_limit 1 7 =
    [GD 0; GDot; GD 1; GD 4; GD 2; GD 8; GD 5; GDots; GSpace; GOpen; GD 1; GSlash; GD 7; GClose].
Proof. split; [discriminate|split; vm_compute; reflexivity]. Qed.
(** A text means one number at most. *)
Theorem C49_one_meaning : forall t n d n' d', denotes t n d -> denotes t n' d' -> n * Zpos d' = n' * Zpos d.
Proof. exact denotes_unique. Qed.
Print Assumptions C49_one_meaning.
(** Different numbers are shown differently. *)
Theorem C49_injective : forall limit limit' n d n' d', limit <> O -> limit' <> O ->
  pretty limit n d = pretty limit' n' d' -> n * Zpos d' = n' * Zpos d.
Proof. exact pretty_injective. Qed.
Print Assumptions C49_injective.
Example C49_injective_ex : pretty decimal_limit 2 8 = pretty decimal_limit 1 4.
Proof. vm_compute; reflexivity. Qed.
(** Decimal literals are read exactly; the unwrap in the grammar does not panic. *)
Theorem C49_literals : forall ds fs, ds <> [] ->
  exists q, parse_decimal (map GD ds ++ GDot :: map GD fs) = Some (dval (ds ++ fs), q) /\ Zpos q = 10 ^ Z.of_nat (List.length fs).
Proof. exact parse_decimal_exact. Qed.
Print Assumptions C49_literals.
Example C49_literals_ex : parse_decimal [GD 0; GD 3; GDot; GD 0; GD 5] = Some (305, 100%positive).
Proof. vm_compute; reflexivity. Qed.
(** A shown number that can be read as a literal is read as the same number. *)
Theorem C49_round_trip : forall limit n d t q, limit <> O -> 0 <= n -> parse_decimal (pretty limit n d) = Some (t, q) ->
  t * Zpos d = n * Zpos q.
Proof. exact shown_is_literal. Qed.
Print Assumptions C49_round_trip.
Example C49_round_trip_ex : parse_decimal (pretty decimal_limit 13 8) = Some (1625, 1000%positive).
Proof. vm_compute; reflexivity. Qed.
(** Integers of any size are read from the text of the solver. *)
Theorem C49_integers : forall z, parse_big_int (smt_int z) = Some z.
Proof. exact parse_big_int_exact. Qed.
Print Assumptions C49_integers.
(** Numerals of the solver: exactly which are read, and as what.  They are never read as another number and do not panic. *)
Theorem C49_reals : forall inner n d, eval_real inner (ZNum n d) = if readable n d then Ok (n, d) else Err "ParseError"%string.
Proof. exact eval_real_numeral. Qed.
Print Assumptions C49_reals.
Theorem C49_reals_exact : forall inner n d n' d', eval_real inner (ZNum n d) = Ok (n', d') -> n' * Zpos d = n * Zpos d'.
Proof. exact eval_real_exact. Qed.
Print Assumptions C49_reals_exact.
Example C49_reals_ex : forall inner, eval_real inner (ZNum (2 ^ 70) 3) = Ok (2 ^ 70, 3%positive).
Proof. intros inner. rewrite eval_real_numeral. reflexivity. Qed.
Theorem C49_reals_no_panic : forall inner n d p, eval_real inner (ZNum n d) <> Panic p.
Proof. exact eval_real_no_panic. Qed.
Print Assumptions C49_reals_no_panic.
Theorem C49_model_integers : forall n d z, eval_int (ZNum n d) = Ok z -> d = 1%positive /\ z = n.
Proof. exact eval_int_exact. Qed.
Print Assumptions C49_model_integers.
Example C49_model_integers_ex : eval_int (ZNum (-5) 1) = Ok (-5).
Proof. reflexivity. Qed.
Theorem C49_eureals : forall inner b n d v, eval_eureal inner (Some b) (ZNum n d) = Ok v -> v = if b then None else Some (n, d).
Proof. exact eval_eureal_exact. Qed.
Print Assumptions C49_eureals.
Example C49_eureals_ex : forall inner, eval_eureal inner (Some false) (ZNum 1 2) = Ok (Some (1, 2%positive)).
Proof. reflexivity. Qed.
(** Not every numeral is read: a large integer is not, nor a large negative quotient whose absolute value is. *)
Theorem C49_large_refuted : exists n d, forall inner, eval_real inner (ZNum n d) = Err "ParseError"%string.
Proof. exact eval_real_total_refuted. Qed.
Print Assumptions C49_large_refuted.
Theorem C49_negative_refuted : exists n d, forall inner,
  eval_real inner (ZNum n d) = Err "ParseError"%string /\ eval_real inner (ZNum (- n) d) = Ok (- n, d).
Proof. exact eval_real_negative_refuted. Qed.
Print Assumptions C49_negative_refuted.
(** A division by zero that the solver leaves as it is panics. *)
Theorem C49_division_refuted : exists t, forall inner, eval_real inner (ZTerm t) = Panic "denominator == 0"%string.
Proof. exact eval_real_term_refuted. Qed.
Print Assumptions C49_division_refuted.
(** Infinity is not shown if the solver has no value for the number that does not matter. *)
Theorem C49_infinity_refuted : exists number, forall inner, eval_eureal inner (Some true) number = Err "ParseError"%string.
Proof. exact eval_eureal_infinite_refuted. Qed.
Print Assumptions C49_infinity_refuted.
