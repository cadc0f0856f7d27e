(** Encodings of annotated loops: src/proof_rules/{util,induction,unroll,omega}.rs.
    Spans and the texts of messages are left out. *)
From Coq Require Import Bool List String NArith QArith.
From Verif.Model Require Import Syntax Builder AstUtil Lits.
Import ListNotations.

(** src/ast/stmt.rs, Direction::toggle *)
Definition toggle_dir (d : direction) : direction := match d with Down => Up | Up => Down end.

(** slicing/mod.rs 35-61: annotation with a message *)
Definition wrap_error (s : stmt) : stmt := SAnn "error_msg" [] s.
Definition wrap_success (s : stmt) : stmt := SAnn "success_msg" [] s.

(** util.rs 67-82, for the loop [while c body] *)
Definition encode_iter (c : expr) (body next : list stmt) : stmt := SIf c (body ++ next) [].

(** util.rs 26-45 *)
Fixpoint encode_extend (c : expr) (body : list stmt) (k : nat) (inv : expr) (d : direction) (next : list stmt) : list stmt :=
  match k with
  | O => next
  | S k' => [SAssert d inv; encode_iter c body (encode_extend c body k' inv d next)]
  end.

(** util.rs 53-64 *)
Fixpoint encode_unroll (c : expr) (body : list stmt) (k : nat) (next : list stmt) : list stmt :=
  match k with O => next | S k' => [encode_iter c body (encode_unroll c body k' next)] end.

(** util.rs 91-94, induction.rs 311-314 and 341-344: top_lit / bot_lit of the specification type EUReal (expr.rs 589-615) *)
Definition extreme_lit (d : direction) : expr :=
  match d with Up => b_inf | Down => ECast TEUReal (b_uint 0) end.

(** util.rs 85-101; also induction.rs 337-351 (iteration_terminator) *)
Definition hey_const (e : expr) (d : direction) : list stmt := [SAssert d e; SAssume d (extreme_lit d)].

(** induction.rs 298-324 *)
Definition park_terminator (e : expr) (d : direction) : list stmt :=
  [wrap_error (SAssert d e); wrap_success (SAssume d (extreme_lit d))].

(** induction.rs 271-293 *)
Definition encode_loop_spec (inv : expr) (vars : list ident) (d : direction) : list stmt :=
  [wrap_error (SAssert d inv); SHavoc d vars; SValidate d; wrap_success (SAssume d inv)].

(** induction.rs 217-268; [k] is positive *)
Definition transform_k_induction (c : expr) (body : list stmt) (d : direction) (k : nat) (inv : expr) : list stmt :=
  let havoc_vars := mmod (mvc_stmt (SWhile c body) mvc0) in
  let terminator := if Nat.eqb k 1 then park_terminator inv d else hey_const inv d in
  encode_loop_spec inv havoc_vars d ++
  [encode_iter c body (encode_extend c body (k - 1) inv (toggle_dir d) terminator)].

(** util.rs 306-313 (lit_u128): a panic unless it is a literal that fits *)
Definition lit_u128 (e : expr) : res N :=
  match e with
  | ELit _ (LUInt n) => if N.ltb n (2 ^ 128) then Ok n else Panic "does not fit into u128"
  | _ => Panic "unreachable"
  end.

(** induction.rs 113-120 *)
Definition invariant_transform (args : list expr) (c : expr) (body : list stmt) (d : direction) : res (list stmt) :=
  match args with
  | [inv] => Ok (transform_k_induction c body d 1 inv)
  | _ => Panic "unreachable"
  end.

(** induction.rs 191-211 *)
Definition k_induction_transform (args : list expr) (c : expr) (body : list stmt) (d : direction) : res (list stmt) :=
  match args with
  | [k; inv] =>
      let? n := lit_u128 k in
      if N.eqb n 0 then Err "k must be greater than 0." else Ok (transform_k_induction c body d (N.to_nat n) inv)
  | _ => Panic "unreachable"
  end.

(** unroll.rs 120-157 *)
Definition unroll_transform (args : list expr) (c : expr) (body : list stmt) (d : direction) : res (list stmt) :=
  match args with
  | [k; t] => let? n := lit_u128 k in Ok (encode_unroll c body (N.to_nat n) (hey_const t d))
  | _ => Panic "unreachable"
  end.

(** omega.rs 127-235.  Resolving binds the first argument to a fresh UInt variable. *)
Definition omega_transform (args : list expr) (c : expr) (body : list stmt) (d : direction) : res (list stmt) :=
  match args with
  | [EVar n; inv] =>
      let next_inv := b_subst inv [(n, EBin TUInt OAdd (EVar n) (b_uint 1))] in
      let null_inv := b_subst inv [(n, b_uint 0)] in
      let iter := encode_iter c body (hey_const inv d) in
      let null_iter := encode_iter c body (hey_const (b_cast TEUReal (b_uint 0)) d) in
      let cond1 := [SValidate d; SAssume d null_inv; null_iter] in
      let cond2 := [SHavoc d [n]; SValidate d; SAssume d next_inv; iter] in
      Ok [SHavoc (toggle_dir d) [n]; SAssert d inv;
          match d with Down => SDemonic cond1 cond2 | Up => SAngelic cond1 cond2 end]
  | _ => Panic "unreachable"
  end.

(** proof_rules/mod.rs 70-74 *)
Inductive fp_kind := LFP | GFP.

(** calculus/soundness_checker.rs, ApproximationKind: under- and over-approximation flags *)
Record approx := mkapprox { a_under : bool; a_over : bool }.
Definition EXACT := mkapprox true true.
Definition UNDER := mkapprox true false.
Definition OVER := mkapprox false true.
Definition UNKNOWN := mkapprox false false.
Definition a_and (a b : approx) : approx := mkapprox (a_under a && a_under b) (a_over a && a_over b).

(** induction.rs 87-98, 165-176 *)
Definition induction_approx (k : fp_kind) (inner : approx) : approx :=
  a_and (match k with LFP => OVER | GFP => UNDER end) inner.
(** unroll.rs 85-96, omega.rs 103-114 *)
Definition unroll_approx (k : fp_kind) (inner : approx) : approx :=
  a_and (match k with LFP => UNDER | GFP => OVER end) inner.

(** induction.rs 100-109, 178-187 *)
Definition induction_default (d : direction) : fp_kind := match d with Up => LFP | Down => GFP end.
(** omega.rs 116-125 *)
Definition omega_default (d : direction) : fp_kind := match d with Up => GFP | Down => LFP end.

(** unroll.rs 98-118 *)
Definition unroll_default (d : direction) (t : expr) : fp_kind :=
  if is_bot_lit t then LFP else if is_top_lit t || is_one_lit t then GFP
  else match d with Up => GFP | Down => LFP end.
