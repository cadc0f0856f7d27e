(** Recognising literals: src/ast/util.rs, src/ast/expr.rs, src/opt/constfold.rs; and the
    generic child visitor of src/ast/visit.rs. *)
From Coq Require Import Bool List String NArith QArith.
From Verif.Model Require Import Syntax.
Import ListNotations.

(** src/ast/expr.rs 385-400 *)
Definition lit_is_top (l : lit) : bool := match l with LInf => true | LBool b => b | _ => false end.
Definition lit_is_bot (l : lit) : bool :=
  match l with LUInt n => N.eqb n 0 | LFrac q => Qeq_bool q 0 | LBool b => negb b | LInf => false end.
(** src/ast/util.rs 121-140 *)
Definition is_top_lit (e : expr) : bool := match e with ELit _ l => lit_is_top l | _ => false end.
Definition is_bot_lit (e : expr) : bool :=
  match e with ELit _ l => lit_is_bot l | ECast _ (ELit _ l) => lit_is_bot l | _ => false end.
(** opt/constfold.rs 144-150 *)
Fixpoint deref_cast (e : expr) : expr := match e with ECast _ a => deref_cast a | _ => e end.
(** 152-162 *)
Definition is_zero_lit (e : expr) : bool :=
  match deref_cast e with ELit _ (LUInt n) => N.eqb n 0 | ELit _ (LFrac q) => Qeq_bool q 0 | _ => false end.
(** opt/constfold.rs 144-186 (extract_const_number, is_one_lit): the value of a literal under casts *)
Fixpoint const_number (e : expr) : option (option Q) :=
  match e with
  | ECast _ a => const_number a
  | ELit _ (LUInt n) => Some (Some (inject_Z (Z.of_N n)))
  | ELit _ (LFrac q) => Some (Some q)
  | ELit _ LInf => Some None
  | _ => None
  end.
Definition is_one_lit (e : expr) : bool :=
  match const_number e with Some (Some q) => Qeq_bool q 1 | _ => false end.

(** ast/ty.rs 50-52 *)
Definition lattice (t : ty) : bool := match t with TBool | TEUReal => true | _ => false end.

Fixpoint mapr {A B} (f : A -> res B) (l : list A) : res (list B) :=
  match l with [] => Ok [] | a :: l' => let? a' := f a in let? r := mapr f l' in Ok (a' :: r) end.
(** walk_expr, ast/visit.rs 173-213 *)
Definition walk_expr (f : expr -> res expr) (e : expr) : res expr :=
  match e with
  | EVar _ | ELit _ _ => Ok e
  | ECall t g args => let? args' := mapr f args in Ok (ECall t g args')
  | EIte t c a b => let? c' := f c in let? a' := f a in let? b' := f b in Ok (EIte t c' a' b')
  | EBin t op a b => let? a' := f a in let? b' := f b in Ok (EBin t op a' b')
  | EUn t op a => let? a' := f a in Ok (EUn t op a')
  | ECast t a => let? a' := f a in Ok (ECast t a')
  | EQuant op xs a => let? a' := f a in Ok (EQuant op xs a')
  | ESubst x b a => let? b' := f b in let? a' := f a in Ok (ESubst x b' a')
  end.
