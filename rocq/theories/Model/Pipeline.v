(** From a quantitative verification condition to the question asked of the solver: src/driver/quant_proof.rs,
    src/driver/core_verify.rs, src/opt/mod.rs. *)
From Coq Require Import Bool List String.
From Verif.Model Require Import Syntax Builder TyCtx AstUtil VcGen Subst Unfolder Qelim Boolify Relational.
Import ListNotations.

(** opt/mod.rs 32-49.  For a parenthesised operand, [walk_expr] is called on the operand, so only the operand's
    children are visited ([skip]). *)
Fixpoint remove_parens_at (skip : bool) (e : expr) {struct e} : expr :=
  let rec := remove_parens_at false in
  match e with
  | EVar _ | ELit _ _ => e
  | ECall t f args => ECall t f (map rec args)
  | EIte t c a b => EIte t (rec c) (rec a) (rec b)
  | EBin t op a b => EBin t op (rec a) (rec b)
  | EUn t OParens a => if skip then EUn t OParens (rec a) else remove_parens_at true a
  | EUn t op a => EUn t op (rec a)
  | ECast t a => ECast t (rec a)
  | EQuant op xs a => EQuant op xs (rec a)
  | ESubst x b a => ESubst x (rec b) (rec a)
  end.
Definition remove_parens (e : expr) : expr := remove_parens_at false e.

(** The optimization options (driver/commands/options.rs); the e-graph simplification has no effect (160-164 of
    quant_proof.rs discards its result). *)
Record opt_options := mkopt { strict : bool; no_qelim : bool; no_boolify : bool; opt_rel : bool }.
Definition default_options : opt_options := mkopt false false false false.

(** core_verify.rs 188-201: top_lit_in_lattice at EUReal *)
Definition terminal (d : direction) : expr := match d with Down => b_inf | Up => EUn TEUReal ONon b_inf end.

(** quant_proof.rs 27-72.  [orc]: the solver used by the unfolder; [qs]: spans of quantifiers. *)
Definition lower (o : opt_options) (orc : oracle) (qs : expr -> nat) (d : direction) (T : tyctx) (e : expr) : res expr :=
  let? (e1, T1) :=
    if strict o then apply_subst qs T e
    else let? (e1, (T1, _)) := unfold_expr orc qs T e in Ok (e1, T1) in
  let? (e2, T2) :=
    if no_qelim o then Ok (e1, T1)
    else let? (e2, T2) := qelim qs d T1 e1 in apply_subst qs T2 e2 in
  let? q := into_bool_vc d e2 in
  let q1 := if negb (no_boolify o) || opt_rel o then remove_parens q else q in
  let? q2 := if no_boolify o then Ok q1 else boolify q1 in
  Ok (if opt_rel o then relational q2 else q2).

(** core_verify.rs 160-186 followed by lower: the question for a procedure body *)
Definition question (o : opt_options) (orc : oracle) (qs : expr -> nat) (C : tcx) (d : direction) (T : tyctx) (b : list stmt) : res expr :=
  let? e := vcgen_block C b (terminal d) in lower o orc qs d T e.
