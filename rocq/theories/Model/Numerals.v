(** Model of how numbers are read and shown: decimal literals (src/front/parser/parser_util.rs), values from the solver
    (z3rro/src/model.rs, z3rro/src/util.rs, z3rro/src/eureal/pair.rs) and the decimal notation of rationals (z3rro/src/util.rs).
    A text is a list of glyphs; a digit with the combining overline is one glyph. *)
From Coq Require Import Bool List String Arith ZArith NArith.
From Verif.Model Require Import Syntax.
Import ListNotations.
Local Open Scope list_scope.
Local Open Scope Z_scope.

Inductive glyph := GD (d : Z) | GO (d : Z) | GMinus | GDot | GDots | GSpace | GOpen | GClose | GSlash | GOther (n : nat).
Definition glyph_eqb (a b : glyph) : bool :=
  match a, b with
  | GD x, GD y | GO x, GO y => Z.eqb x y
  | GOther n, GOther m => Nat.eqb n m
  | GMinus, GMinus | GDot, GDot | GDots, GDots | GSpace, GSpace | GOpen, GOpen | GClose, GClose | GSlash, GSlash => true
  | _, _ => false
  end.
Definition text := list glyph.

(** Display for BigUint: the digits, without leading zeros *)
Fixpoint digits_go (fuel : nat) (n : Z) (acc : list Z) : list Z :=
  match fuel with
  | O => acc
  | S k => if n <? 10 then n :: acc else digits_go k (n / 10) (n mod 10 :: acc)
  end.
Definition digits (n : Z) : list Z := digits_go (S (N.size_nat (Z.to_N n))) n [].
(** Display for BigInt *)
Definition show_int (z : Z) : text := (if z <? 0 then [GMinus] else []) ++ map GD (digits (Z.abs z)).
(** Display for Ratio: without the denominator 1 *)
Definition show_ratio (n : Z) (d : positive) : text :=
  if Pos.eqb d 1 then show_int n else show_int n ++ GSlash :: show_int (Zpos d).

(** FromStr for BigInt: an optional sign and digits.  Simplified: "+" and "_" inside numbers, which neither the grammar nor the
    solver produces, are refused. *)
Fixpoint read_digits (acc : Z) (t : text) : option Z :=
  match t with
  | [] => Some acc
  | GD d :: t' => read_digits (10 * acc + d) t'
  | _ => None
  end.
Definition read_nat (t : text) : option Z := match t with [] => None | _ => read_digits 0 t end.
Definition read_int (t : text) : option Z :=
  match t with GMinus :: t' => option_map Z.opp (read_nat t') | _ => read_nat t end.

(** ** src/front/parser/parser_util.rs 19-31 (parse_decimal); the length of a text fits into 32 bits.  The quotient is not
    reduced (new_raw). *)
Fixpoint split_dot (t : text) : option (text * text) :=
  match t with
  | [] => None
  | GDot :: t' => Some ([], t')
  | g :: t' => option_map (fun p => (g :: fst p, snd p)) (split_dot t')
  end.
Definition parse_decimal (t : text) : option (Z * positive) :=
  match split_dot t with
  | Some (integer, comma) =>
      match read_int (integer ++ comma) with
      | Some n => Some (n, Z.to_pos (10 ^ Z.of_nat (List.length comma)))
      | None => None
      end
  | None => None
  end.

(** ** z3rro/src/util.rs 178-180, 188-242 (Display for PrettyRational).  [k]: how many digits are still allowed; [seen]: the map from remainders to
    positions. *)
Definition find_rem (r : Z) (seen : list (Z * nat)) : option nat :=
  option_map snd (find (fun p => Z.eqb (fst p) r) seen).
Fixpoint expand (k : nat) (d : Z) (rem : Z) (frac : list Z) (seen : list (Z * nat)) : Z * list Z * list (Z * nat) * bool :=
  if (rem =? 0) || match find_rem rem seen with Some _ => true | None => false end then (rem, frac, seen, false) else
  match k with
  | O => (rem, frac, seen, true)
  | S k' => expand k' d ((rem * 10) mod d) (frac ++ [(rem * 10) / d]) ((rem, List.length frac) :: seen)
  end.
Definition pretty (limit : nat) (n : Z) (den : positive) : text :=
  let d := Zpos den in
  let a := Z.abs n in
  let sign := if n <? 0 then [GMinus] else [] in
  let whole := map GD (digits (a / d)) in
  match expand limit d (a mod d) [] [] with
  | (rem, frac, seen, approx) =>
      match frac with
      | [] => sign ++ whole
      | _ =>
          sign ++ whole ++ GDot ::
          (if (rem =? 0) || approx then map GD frac ++ (if approx then [GDots] else [])
           else match find_rem rem seen with
                | Some i => map GD (firstn i frac) ++ map GO (skipn i frac)
                | None => []                                  (* indexing a map with a missing key panics; shown not to happen *)
                end) ++
          (if negb (rem =? 0) || approx then GSpace :: GOpen :: show_ratio n den ++ [GClose] else [])
      end
  end.
Definition decimal_limit : nat := 5.

(** ** z3rro/src/util.rs 161-169 (parse_big_int), of the text for an integer in SMT-LIB *)
Definition smt_int (z : Z) : text :=
  if z <? 0 then GOpen :: GMinus :: GSpace :: map GD (digits (Z.abs z)) ++ [GClose] else map GD (digits z).
Fixpoint strip_prefix (p t : text) : option text :=
  match p, t with
  | [], _ => Some t
  | g :: p', g' :: t' => if glyph_eqb g g' then strip_prefix p' t' else None
  | _, [] => None
  end.
Definition strip_suffix (s t : text) : option text := option_map (@rev _) (strip_prefix (rev s) (rev t)).
Definition parse_big_int (t : text) : option Z :=
  match read_int t with
  | Some z => Some z
  | None =>
      match strip_prefix [GOpen; GMinus; GSpace] t with
      | Some t1 => match strip_suffix [GClose] t1 with Some t2 => option_map Z.opp (read_int t2) | None => None end
      | None => None
      end
  end.

(** ** z3rro/src/model.rs.  What the solver returns for a term: a numeral, or a term that it did not reduce, by its text. *)
Inductive zvalue := ZNum (n : Z) (d : positive) | ZTerm (t : text).
Definition fits (z : Z) : bool := (- 2 ^ 63 <=? z) && (z <? 2 ^ 63).
(** z3::ast::Real::as_real, Int::as_i64 *)
Definition as_real (v : zvalue) : option (Z * positive) :=
  match v with ZNum n d => if fits n && fits (Zpos d) then Some (n, d) else None | ZTerm _ => None end.
Definition as_i64 (v : zvalue) : option Z :=
  match v with ZNum n 1 => if fits n then Some n else None | _ => None end.
(** The text of a real numeral in SMT-LIB.  [inner]: where the sign is written. *)
Definition smt_nat (n : Z) : text := map GD (digits n) ++ [GDot; GD 0].
Definition neg (t : text) : text := GOpen :: GMinus :: GSpace :: t ++ [GClose].
Definition smt_real (inner : bool) (n : Z) (d : positive) : text :=
  if Pos.eqb d 1 then if n <? 0 then neg (smt_nat (- n)) else smt_nat n
  else
    let quotient a := GOpen :: GSlash :: GSpace :: a ++ GSpace :: smt_nat (Zpos d) ++ [GClose] in
    if n <? 0 then if inner then quotient (neg (smt_nat (- n))) else neg (quotient (smt_nat (- n))) else quotient (smt_nat n).
Definition ztext (inner : bool) (v : zvalue) : text := match v with ZNum n d => smt_real inner n d | ZTerm t => t end.

Definition starts_with (p t : text) : bool := match strip_prefix p t with Some _ => true | None => false end.
Definition ends_with (s t : text) : bool := starts_with (rev s) (rev t).
(** str::split_ascii_whitespace *)
Fixpoint words_go (cur : text) (t : text) : list text :=
  match t with
  | [] => match cur with [] => [] | _ => [rev cur] end
  | GSpace :: t' => match cur with [] => words_go [] t' | _ => rev cur :: words_go [] t' end
  | g :: t' => words_go (g :: cur) t'
  end.
Definition words (t : text) : list text := words_go [] t.
(** str::replace with the empty text; the patterns are ".0" and ".0)" *)
Fixpoint remove2 (t : text) : text :=
  match t with
  | GDot :: ((GD 0 :: t') as t1) => remove2 t'
  | g :: t1 => g :: remove2 t1
  | [] => []
  end.
Fixpoint remove3 (t : text) : text :=
  match t with
  | GDot :: ((GD 0 :: ((GClose :: t') as t2)) as t1) => remove3 t'
  | g :: t1 => g :: remove3 t1
  | [] => []
  end.
(** z3rro/src/model.rs 217-255 (SmtEval for Real); the quotient is not reduced here.  BigRational::new panics for the denominator 0. *)
Definition eval_real (inner : bool) (v : zvalue) : res (Z * positive) :=
  match as_real v with
  | Some q => Ok q
  | None =>
      let t := ztext inner v in
      if negb (starts_with [GOpen; GSlash; GSpace] t) || negb (ends_with [GDot; GD 0; GClose] t) then Err "ParseError"%string else
      match words t with
      | first :: second :: third :: _ =>
          if negb (starts_with [GOpen; GSlash] first && Nat.eqb (List.length first) 2) then Err "ParseError"%string else
          match read_int (remove2 second) with
          | None => Err "ParseError"%string
          | Some n =>
              match read_int (remove3 third) with
              | None => Err "ParseError"%string
              | Some d => if d =? 0 then Panic "denominator == 0"%string else Ok (if d <? 0 then - n else n, Z.to_pos (Z.abs d))
              end
          end
      | _ => Err "ParseError"%string
      end
  end.
(** z3rro/src/model.rs 184-196 (SmtEval for Int) *)
Definition eval_int (v : zvalue) : res Z := match as_i64 v with Some z => Ok z | None => Err "ParseError"%string end.
(** z3rro/src/model.rs 172-182 (SmtEval for Bool); [None]: the solver left the term unreduced *)
Definition eval_bool (v : option bool) : res bool := Ok (match v with Some b => b | None => true end).
(** z3rro/src/eureal/pair.rs 142-157 (SmtEval for EUReal); [None]: infinity *)
Definition eval_eureal (inner : bool) (is_infinite : option bool) (number : zvalue) : res (option (Z * positive)) :=
  let? i := eval_bool is_infinite in
  let? r := eval_real inner number in
  Ok (if i then None else Some r).
