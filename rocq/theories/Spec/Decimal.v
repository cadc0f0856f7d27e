(** What a shown number means.  All statements are about integers: "n/d" stands for the rational with this numerator and
    denominator. *)
From Coq Require Import List ZArith.
From Verif.Model Require Import Numerals.
Import ListNotations.
Local Open Scope list_scope.
Local Open Scope Z_scope.

(** The value of a list of decimal digits. *)
Fixpoint dval (ds : list Z) : Z :=
  match ds with [] => 0 | x :: r => x * 10 ^ Z.of_nat (List.length r) + dval r end.
Definition digit (x : Z) : Prop := 0 <= x < 10.
Definition numeral (ds : list Z) : Prop :=
  ds <> [] /\ Forall digit ds /\ (forall r, ds = 0 :: r -> r = []).
Definition sign_of (n : Z) (s : text) : Prop := (n < 0 /\ s = [GMinus]) \/ (0 <= n /\ s = []).
Definition shows_int (t : text) (z : Z) : Prop :=
  exists s ds, t = s ++ map GD ds /\ sign_of z s /\ numeral ds /\ dval ds = Z.abs z.
Definition shows_fraction (t : text) (n : Z) (d : positive) : Prop :=
  (d = 1%positive /\ shows_int t n) \/
  (exists a b, t = a ++ GSlash :: b /\ shows_int a n /\ shows_int b (Zpos d)).
Fixpoint times (k : nat) (l : list Z) : list Z := match k with O => [] | S k' => times k' l ++ l end.
(** The digits [ds], of which the last [m] are behind the point, are those of a/d, cut off. *)
Definition truncates (ds : list Z) (m : nat) (a : Z) (d : positive) : Prop :=
  dval ds * Zpos d <= a * 10 ^ Z.of_nat m < (dval ds + 1) * Zpos d.

Inductive denotes : text -> Z -> positive -> Prop :=
| den_int n d s ds : sign_of n s -> numeral ds -> dval ds * Zpos d = Z.abs n -> denotes (s ++ map GD ds) n d
| den_finite n d s ds fs :
    sign_of n s -> numeral ds -> fs <> [] -> Forall digit fs ->
    dval (ds ++ fs) * Zpos d = Z.abs n * 10 ^ Z.of_nat (List.length fs) ->
    denotes (s ++ map GD ds ++ GDot :: map GD fs) n d
| den_repeating n d s ds fs rs u :
    sign_of n s -> numeral ds -> Forall digit fs -> rs <> [] -> Forall digit rs ->
    (forall k, truncates (ds ++ fs ++ times k rs) (List.length fs + k * List.length rs) (Z.abs n) d) ->
    shows_fraction u n d ->
    denotes (s ++ map GD ds ++ GDot :: map GD fs ++ map GO rs ++ GSpace :: GOpen :: u ++ [GClose]) n d
| den_cut n d s ds fs u :
    sign_of n s -> numeral ds -> fs <> [] -> Forall digit fs -> truncates (ds ++ fs) (List.length fs) (Z.abs n) d ->
    shows_fraction u n d ->
    denotes (s ++ map GD ds ++ GDot :: map GD fs ++ GDots :: GSpace :: GOpen :: u ++ [GClose]) n d.
