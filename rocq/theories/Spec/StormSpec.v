(** What Storm's output says, and what a run amounts to. *)
From Coq Require Import Bool List String Arith ZArith.
From Verif.Model Require Import Syntax Numerals Driver Storm.
From Verif.Spec Require Import Decimal.
Import ListNotations.
Local Open Scope list_scope.

(** [p] occurs in [t] first behind [a], and [b] follows. *)
Definition first (p t a b : text) : Prop := t = a ++ p ++ b /\ forall a' b', t = a' ++ p ++ b' -> List.length a <= List.length a'.
Definition occurs (p t : text) : Prop := exists a b, t = a ++ p ++ b.
(** [line]: behind the first result text that follows the announcement of the property. *)
Definition announced (property out line : text) : Prop :=
  exists a b c r rest, first (header property) out a b /\ first result_text (header property ++ b) c (r ++ newline :: rest) /\ line = r /\ ~ In newline r.
(** No white space at either end. *)
Definition trimmed (t : text) : Prop := (forall g t', t = g :: t' -> white g = false) /\ (forall g t', t = t' ++ [g] -> white g = false).
Definition blank (t : text) : Prop := Forall (fun g => white g = true) t.
(** The part of a line that is the result: without an approximation behind it and surrounding space. *)
Definition result_in (line r : text) : Prop :=
  trimmed r /\ exists l m rest, blank l /\ blank m /\ line = l ++ r ++ m ++ rest /\
    (~ occurs (lit "(approx. ") line /\ rest = [] \/ exists rest', rest = lit "(approx. " ++ rest' /\ first (lit "(approx. ") line (l ++ r ++ m) rest').
(** The sign in front of a result: approximate without --exact, a lower bound with a limit on the states. *)
Definition mark (exact : bool) (limit : option Z) : text :=
  match exact, limit with
  | true, None => []
  | true, Some _ => [GOther (Z.to_nat 8805); GSpace]
  | false, Some _ => [GOther (Z.to_nat 10886); GSpace]
  | false, None => [GOther (Z.to_nat 8776); GSpace]
  end.
(** The message of Storm when it stops early. *)
Definition stopped (states seconds : list Z) : text :=
  lit "Explored " ++ map GD states ++ lit " states in " ++ map GD seconds ++ lit " seconds before abort".
(** A number that does not fit into 64 bits. *)
Definition too_many (ds : list Z) : Prop := (2 ^ 64 <= dval ds)%Z.

(** What is reported for a unit: nothing without a file. *)
Definition reports (o : soptions) (u : unit_run) (l : shown) : Prop :=
  match u_jani u, o_run o with
  | inr (EDiag k), _ => l = [(k, None)]
  | inr _, _ => False
  | inl false, _ | inl true, None => l = []
  | inl true, Some w => exists r k m, run_storm o w [reward] (u_storm u) = Ok r /\ to_diagnostic r = Ok (k, m) /\ l = [(k, Some m)]
  end.
