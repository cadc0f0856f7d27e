(** Model of src/intrinsic/distributions.rs: built-in distributions.
    u128 arithmetic that overflows is modelled as a panic (debug builds; release
    builds wrap around silently, which is worse).  num::integer::binomial is
    modelled by its exact result, panicking iff that exceeds u128. *)
From Coq Require Import Bool List String ZArith NArith QArith.
From Verif.Model Require Import Syntax Builder.
Import ListNotations.
Local Open Scope N_scope.

Definition u128_bound : N := 2 ^ 128.
Definition u128 (n : N) : res N := if n <? u128_bound then Ok n else Panic "arithmetic overflow".
Definition usub (a b : N) : res N := if b <=? a then Ok (a - b) else Panic "subtraction overflow".
(** [x as u32] *)
Definition as_u32 (n : N) : N := n mod 2 ^ 32.

Fixpoint mapM {A B} (f : A -> res B) (l : list A) : res (list B) :=
  match l with
  | [] => Ok []
  | a :: l' => let? b := f a in let? bs := mapM f l' in Ok (b :: bs)
  end.

(** [a..=b] *)
Definition range_incl (a b : N) : list N :=
  if a <=? b then map (fun i => a + N.of_nat i) (seq 0 (S (N.to_nat (b - a)))) else [].

(** Pascal's triangle: num::integer::binomial *)
Fixpoint choose_nat (n k : nat) : N :=
  match n, k with
  | _, O => 1
  | O, S _ => 0
  | S n', S k' => choose_nat n' k' + choose_nat n' k
  end.
Definition choose (n k : N) : N := choose_nat (N.to_nat n) (N.to_nat k).

(** distributions.rs 210-212 *)
Definition dist := list (expr * expr).

(** 215-223.  Ratio::new panics on a zero denominator. *)
Definition ratio (a b : N) : Q := Z.of_N a # Z.to_pos (Z.of_N b).
Definition from_odds (l : list (N * expr)) : res dist :=
  let? total := fold_left (fun acc p => let? t := acc in u128 (t + fst p)) l (Ok 0) in
  mapM (fun p => if total =? 0 then Panic "denominator == 0"
                 else Ok (b_frac (ratio (fst p) total), snd p)) l.

(** 226-230 *)
Definition dist_ber (pa pb : N) : res dist := from_odds [(pa, b_bool true); (pb, b_bool false)].

(** 233-245 *)
Definition dist_flip (p : expr) : res dist :=
  let pb := EBin TUReal OSub (b_cast TUReal (b_uint 1)) p in
  Ok [(b_cast TEUReal p, b_bool true); (b_cast TEUReal pb, b_bool false)].

(** 248-251 *)
Definition dist_unif (a b : N) : res dist := from_odds (map (fun v => (1, b_uint v)) (range_incl a b)).

(** 254-262, the exponent of pb is as written in the source *)
Definition dist_binom (n pa pb : N) : res dist :=
  let? l := mapM (fun k =>
      let? c := u128 (choose n k) in
      let? x := u128 (pa ^ as_u32 k) in
      let? cx := u128 (c * x) in
      let? d := usub pb pa in
      let? y := u128 (pb ^ as_u32 d) in
      let? o := u128 (cx * y) in
      Ok (o, b_uint k)) (range_incl 0 n) in
  from_odds l.

(** 265-274 *)
Definition dist_hyper (population successes draws : N) : res dist :=
  let? ds := u128 (draws + successes) in
  let lo := ds - population in
  let hi := N.min draws successes in
  let? l := mapM (fun k =>
      let? c := u128 (choose successes k) in
      let? f := usub population successes in
      let? r := usub draws k in
      let? c' := u128 (choose f r) in
      let? o := u128 (c * c') in
      Ok (o, b_uint k)) (range_incl lo hi) in
  from_odds l.

(** 280-293 *)
Definition dist_expectation (d : dist) (x : ident) (post : expr) : res expr :=
  match map (fun pv => EBin (ty_of (fst pv)) OMul (fst pv) (b_subst post [(x, snd pv)])) d with
  | [] => Panic "called Option::unwrap() on a None value"
  | t :: ts => Ok (fold_left (fun a b => EBin (ty_of a) OAdd a b) ts t)
  end.

(** 177-184 *)
Definition lit_u128 (e : expr) : res N :=
  match e with
  | ELit _ (LUInt n) => if n <? u128_bound then Ok n else Panic "try_into unwrap"
  | _ => Panic "unreachable"
  end.

(** 115-175: the closures stored in the intrinsics *)
Definition apply_dist (name : string) (args : list expr) : res dist :=
  (if String.eqb name "ber" then
     match args with [a; b] => let? x := lit_u128 a in let? y := lit_u128 b in dist_ber x y | _ => Panic "unreachable" end
   else if String.eqb name "flip" then
     match args with [p] => dist_flip p | _ => Panic "unreachable" end
   else if String.eqb name "unif" then
     match args with [a; b] => let? x := lit_u128 a in let? y := lit_u128 b in dist_unif x y | _ => Panic "unreachable" end
   else if String.eqb name "binom" then
     match args with
     | [a; b; c] => let? x := lit_u128 a in let? y := lit_u128 b in let? z := lit_u128 c in dist_binom x y z
     | _ => Panic "unreachable" end
   else if String.eqb name "hyper" then
     match args with
     | [a; b; c] => let? x := lit_u128 a in let? y := lit_u128 b in let? z := lit_u128 c in dist_hyper x y z
     | _ => Panic "unreachable" end
   else Panic "no such distribution")%string.

Definition is_dist (name : string) : bool :=
  existsb (String.eqb name) ["ber"; "flip"; "unif"; "binom"; "hyper"]%string.

(** 98-106: DistributionProc::vcgen *)
Definition dist_vcgen (name : string) (args : list expr) (lhses : list ident) (post : expr) : res expr :=
  match lhses with
  | [x] => let? d := apply_dist name args in dist_expectation d x post
  | _ => Panic "unexpected number of lhses"
  end.
