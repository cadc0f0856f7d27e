(** Model of src/front/parser/grammar.lalrpop and src/front/parser/precedence_update/: the expression grammars before and
    after version 4.0, and the comparison of their results.
    Simplifications: the text is a list of tokens in which identifiers are resolved (an identifier before a bracket is a
    function name) and variables of quantifiers carry their types; triggers and string literals are left out.  The two
    files differ in the rules for expressions only, so a file is the list of its expressions (mod.rs 186-305 collects all
    of them).  LALRPOP expands a precedence annotation into one nonterminal per level: "left" keeps the level for the
    first occurrence and takes the next tighter one for the others, "right" keeps it for the last, "none" for none. *)
From Coq Require Import Bool List String Arith ZArith NArith QArith.
From Verif.Model Require Import Syntax Tycheck.
Import ListNotations.
Local Open Scope string_scope.
Local Open Scope nat_scope.
Local Open Scope list_scope.

Inductive tok :=
| KId (x : ident) | KFun (f : string) | KLit (l : lit) | KLet | KIte
| KPre (op : unop)                                  (* ! ~ ? *)
| KLpar | KRpar | KLbr | KRbr | KComma | KDot
| KBin (op : binop) | KQuant (op : quantop)
| KVar (x : ident).                                 (* name ":" type *)

Inductive assoc := ALeft | ARight | ANone.
Record levels := mklevels { loosest : nat; level_of : binop -> nat; assoc_of : nat -> assoc }.

(** grammar.lalrpop 99-151 *)
Definition new_levels : levels := mklevels 8
  (fun op => match op with
   | OMul | ODiv | OMod => 1
   | OAdd | OSub => 2
   | OInf | OSup => 3
   | OLt | OLe | OGe | OGt => 4
   | OEq | ONe => 5
   | OAnd => 6
   | OOr => 7
   | OImpl | OCoImpl | OCompare | OCoCompare => 8
   end)
  (fun k => match k with 4 | 5 => ANone | 8 => ARight | _ => ALeft end).
(** precedence_update/grammar_old.lalrpop 101-153: Factor, Summand, Lattice, Compare, And, Or *)
Definition old_levels : levels := mklevels 6
  (fun op => match op with
   | OMul | ODiv | OMod => 1
   | OAdd | OSub => 2
   | OInf | OSup | OImpl | OCoImpl | OCompare | OCoCompare => 3
   | OEq | OLt | OLe | ONe | OGe | OGt => 4
   | OAnd => 5
   | OOr => 6
   end)
  (fun k => match k with 6 => ALeft | _ => ARight end).

(** QuantVar, CommaPlus: grammar.lalrpop 21-26, 170-173 *)
Inductive qvars : list tok -> list qvar -> Prop :=
| qv_one x : qvars [KVar x] [QFresh x]
| qv_more x t xs : qvars t xs -> qvars (KVar x :: KComma :: t) (QFresh x :: xs).

Section Grammar.
Variable G : levels.
(** ExprKindAtomic 84-95, ExprKindOp 97-163, Comma 11-19; grammar_old.lalrpop 68-177 *)
Inductive atom : list tok -> rexpr -> Prop :=
| at_let x t1 v t2 a : gexpr t1 v -> gexpr t2 a -> atom (KLet :: KLpar :: KId x :: KComma :: t1 ++ KComma :: t2 ++ [KRpar]) (RSubst None x v a)
| at_ite t1 c t2 a t3 b : gexpr t1 c -> gexpr t2 a -> gexpr t3 b ->
    atom (KIte :: KLpar :: t1 ++ KComma :: t2 ++ KComma :: t3 ++ [KRpar]) (RIte None c a b)
| at_not t a : atom t a -> atom (KPre ONot :: t) (RUn None ONot a)
| at_non t a : atom t a -> atom (KPre ONon :: t) (RUn None ONon a)
| at_embed t a : atom t a -> atom (KPre OEmbed :: t) (RUn None OEmbed a)
| at_call f t args : gargs t args -> atom (KFun f :: KLpar :: t ++ [KRpar]) (RCall None f args)
| at_iverson t a : gexpr t a -> atom (KLbr :: t ++ [KRbr]) (RUn None OIverson a)
| at_parens t a : gexpr t a -> atom (KLpar :: t ++ [KRpar]) (RUn None OParens a)
| at_lit l : atom [KLit l] (RLit None l)
| at_var x : atom [KId x] (RVar None x)
with glevel : nat -> list tok -> rexpr -> Prop :=
| lv_atom t e : atom t e -> glevel 0 t e
| lv_up k t e : k < loosest G -> glevel k t e -> glevel (S k) t e
| lv_left op tl l tr r : assoc_of G (level_of G op) = ALeft -> glevel (level_of G op) tl l -> glevel (pred (level_of G op)) tr r ->
    glevel (level_of G op) (tl ++ KBin op :: tr) (RBin None op l r)
| lv_right op tl l tr r : assoc_of G (level_of G op) = ARight -> glevel (pred (level_of G op)) tl l -> glevel (level_of G op) tr r ->
    glevel (level_of G op) (tl ++ KBin op :: tr) (RBin None op l r)
| lv_none op tl l tr r : assoc_of G (level_of G op) = ANone -> glevel (pred (level_of G op)) tl l -> glevel (pred (level_of G op)) tr r ->
    glevel (level_of G op) (tl ++ KBin op :: tr) (RBin None op l r)
with gexpr : list tok -> rexpr -> Prop :=
| ge_ops t e : glevel (loosest G) t e -> gexpr t e
| ge_quant op tv xs t e : qvars tv xs -> gexpr t e -> gexpr (KQuant op :: tv ++ KDot :: t) (RQuant None op xs e)
with gargs : list tok -> list rexpr -> Prop :=
| ga_none : gargs [] []
| ga_last t e : gexpr t e -> gargs t [e]
| ga_more t e ts es : gexpr t e -> gargs ts es -> gargs (t ++ KComma :: ts) (e :: es).
End Grammar.

(** A parser that LALRPOP generates from a grammar returns the tree that the grammar gives, or an error. *)
Definition generated (G : levels) (p : list tok -> res rexpr) : Prop :=
  forall t, (forall e, p t = Ok e <-> gexpr G t e) /\ (forall w, p t <> Panic w).

(** precedence_update/mod.rs 396-487: the pieces of a fingerprint.  Each constructor stands for the text it is named after;
    closing brackets of different kinds are one piece. *)
Inductive ftok :=
| PVar (n : string) | PCall (n : string) | PIte | PAssoc (op : binop) | PBin (op : binop) | PUn (op : unop) | PCast
| PQuant (op : quantop) | PShadow (n : string) | PFresh (n : string) | PBody | PSubst (n : string) | PLit (l : lit)
| PSemi | PComma | PClose.

(** 499-509 *)
Definition is_assoc (op : binop) : bool := match op with OAdd | OMul | OAnd | OOr | OInf | OSup => true | _ => false end.
Definition binop_eqb (a b : binop) : bool :=
  match a, b with
  | OAdd, OAdd | OSub, OSub | OMul, OMul | ODiv, ODiv | OMod, OMod | OAnd, OAnd | OOr, OOr | OEq, OEq | OLt, OLt | OLe, OLe
  | ONe, ONe | OGe, OGe | OGt, OGt | OInf, OInf | OSup, OSup | OImpl, OImpl | OCoImpl, OCoImpl | OCompare, OCompare
  | OCoCompare, OCoCompare => true
  | _, _ => false
  end.
(** 489-497 *)
Fixpoint collect (op : binop) (e : rexpr) : list rexpr :=
  match e with
  | RBin _ op' a b => if binop_eqb op' op then (collect op a ++ collect op b) else [e]
  | _ => [e]
  end.
Definition fp_qvar (v : qvar) : ftok := match v with QShadow x => PShadow (iname x) | QFresh x => PFresh (iname x) end.
(** 396-487.  [fpx (Some op) e] is what the loop over the terms of a chain of [op] (424-433) writes for those terms of the chain
    that are in [e] (see [fp_chain] in Proofs/Fingerprints.v); [fpx None] is write_expr_fingerprint. *)
Definition in_chain (c : option binop) (t : list ftok) : list ftok := match c with Some _ => t ++ [PSemi] | None => t end.
Fixpoint fpx (c : option binop) (e : rexpr) {struct e} : list ftok :=
  match e with
  | RVar _ x => in_chain c [PVar (iname x)]
  | RCall _ f args =>
      in_chain c (PCall f :: (fix go l := match l with [] => [] | a :: l' => fpx None a ++ PSemi :: go l' end) args ++ [PClose])
  | RIte _ g a b => in_chain c (PIte :: fpx None g ++ PComma :: fpx None a ++ PComma :: fpx None b ++ [PClose])
  | RBin _ op a b =>
      if is_assoc op then
        if match c with Some op' => binop_eqb op op' | None => false end
        then fpx (Some op) a ++ fpx (Some op) b
        else in_chain c (PAssoc op :: (fpx (Some op) a ++ fpx (Some op) b) ++ [PClose])
      else in_chain c (PBin op :: fpx None a ++ PComma :: fpx None b ++ [PClose])
  | RUn _ op a => in_chain c (PUn op :: fpx None a ++ [PClose])
  | RCast _ a => in_chain c (PCast :: fpx None a ++ [PClose])
  | RQuant _ op xs a => in_chain c (PQuant op :: map fp_qvar xs ++ PBody :: fpx None a)
  | RSubst _ x v a => in_chain c (PSubst (iname x) :: fpx None v ++ PComma :: fpx None a ++ [PClose])
  | RLit _ l => in_chain c [PLit l]
  end.
Definition fp : rexpr -> list ftok := fpx None.

Definition lit_dec (a b : lit) : {a = b} + {a <> b}.
Proof. decide equality; [apply N.eq_dec | decide equality; [apply Pos.eq_dec | apply Z.eq_dec] | apply Bool.bool_dec]. Defined.
Definition ftok_dec (a b : ftok) : {a = b} + {a <> b}.
Proof. decide equality; try apply string_dec; try apply lit_dec; decide equality. Defined.
Definition same_fp (a b : rexpr) : bool := if list_eq_dec ftok_dec (fp a) (fp b) then true else false.

(** 511-517 *)
Fixpoint same_names (xs ys : list qvar) : bool :=
  match xs, ys with
  | [], [] => true
  | x :: xs', y :: ys' => String.eqb (iname (qname x)) (iname (qname y)) && same_names xs' ys'
  | _, _ => false
  end.
Definition unop_eqb (a b : unop) : bool :=
  match a, b with ONot, ONot | ONon, ONon | OEmbed, OEmbed | OIverson, OIverson | OParens, OParens => true | _, _ => false end.
Definition quantop_eqb (a b : quantop) : bool :=
  match a, b with QInf, QInf | QSup, QSup | QForall, QForall | QExists, QExists => true | _, _ => false end.
Definition or_else {A} (a b : option A) : option A := match a with Some _ => a | None => b end.
Fixpoint all_same (xs ys : list rexpr) : bool :=
  match xs, ys with [], [] => true | x :: xs', y :: ys' => same_fp x y && all_same xs' ys' | _, _ => false end.

(** 307-394 (check_expr_mismatch): the pair to report, if there is one *)
Fixpoint check (e e' : rexpr) {struct e} : option (rexpr * rexpr) :=
  if same_fp e e' then None else
  let mismatch := Some (e, e') in
  match e, e' with
  | RBin _ op _ _, RBin _ op' _ _ =>
      if negb (binop_eqb op op') then mismatch else
      if is_assoc op then if all_same (collect op e) (collect op' e') then None else mismatch
      else mismatch
  | RUn _ op a, RUn _ op' a' => if unop_eqb op op' then or_else (check a a') mismatch else mismatch
  | RIte _ c a b, RIte _ c' a' b' => or_else (check c c') (or_else (check a a') (or_else (check b b') mismatch))
  | RCast _ a, RCast _ a' => or_else (check a a') mismatch
  | RQuant _ op xs a, RQuant _ op' xs' a' =>
      if quantop_eqb op op' && same_names xs xs' then or_else (check a a') mismatch else mismatch
  | RSubst _ x v a, RSubst _ x' v' a' =>
      if ident_eqb x x' then or_else (check v v') (or_else (check a a') mismatch) else mismatch
  | RCall _ f args, RCall _ f' args' =>
      if String.eqb f f' && Nat.eqb (List.length args) (List.length args')
      then (fix go l l' := match l, l' with a :: r, a' :: r' => or_else (check a a') (go r r') | _, _ => mismatch end) args args'
      else mismatch
  | _, _ => mismatch
  end.

(** 163-184 (first_expr_mismatch) *)
Fixpoint first_diff (es es' : list rexpr) : option (rexpr * rexpr) :=
  match es, es' with
  | e :: r, e' :: r' => if same_fp e e' then first_diff r r' else or_else (check e e') (Some (e, e'))
  | _, _ => None
  end.
Definition first_mismatch (es es' : list rexpr) : res (option (rexpr * rexpr)) :=
  match first_diff es es' with
  | Some m => Ok (Some m)
  | None => if Nat.eqb (List.length es) (List.length es') then Ok None else Panic "assertion failed: new_exprs.len() == old_exprs.len()"
  end.

(** parser/mod.rs 25-31, 204-222 (parse_by_mode) and precedence_update/mod.rs 77-113: if the old parser fails, nothing is compared *)
Inductive pmode := MNew | MOld | MBoth.
Fixpoint parse_all (p : list tok -> res rexpr) (src : list (list tok)) : res (list rexpr) :=
  match src with [] => Ok [] | t :: src' => let? e := p t in let? es := parse_all p src' in Ok (e :: es) end.
Definition parse_by_mode (m : pmode) (new old : list tok -> res rexpr) (src : list (list tok)) : res (list rexpr) :=
  match m with
  | MNew => parse_all new src
  | MOld => parse_all old src
  | MBoth =>
      let? es := parse_all new src in
      match parse_all old src with
      | Ok es' => let? m := first_mismatch es es' in match m with Some _ => Err "ChangedPrecedence" | None => Ok es end
      | _ => Ok es
      end
  end.
