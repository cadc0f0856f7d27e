(** Constant folding: src/opt/constfold.rs.  Used by the verification-condition explanations
    (src/vc/explain.rs 175). *)
From Coq Require Import Bool List String NArith ZArith QArith Qround Qminmax.
From Verif.Model Require Import Syntax Builder Lits.
Import ListNotations.

(** z3rro/src/eureal/concrete.rs 21-109: [None] is Infinity *)
Definition c_add (a b : option Q) : option Q :=
  match a, b with Some x, Some y => Some (x + y) | _, _ => None end.
(** the outer option is the Option returned by [Sub] *)
Definition c_sub (a b : option Q) : option (option Q) :=
  match a, b with
  | None, None => None
  | None, _ => Some None
  | _, None => None
  | Some x, Some y => if Qle_bool y x then Some (Some (x - y)) else Some (Some 0)
  end.
Definition c_zero (a : option Q) : bool := match a with Some x => Qeq_bool x 0 | None => false end.
Definition c_mul (a b : option Q) : option Q :=
  if c_zero a then Some 0 else if c_zero b then Some 0
  else match a, b with Some x, Some y => Some (x * y) | _, _ => None end.
(** derived Ord: Real < Infinity *)
Definition c_le (a b : option Q) : bool :=
  match a, b with Some x, Some y => Qle_bool x y | _, None => true | None, Some _ => false end.
Definition c_min (a b : option Q) : option Q := if c_le a b then a else b.
Definition c_max (a b : option Q) : option Q := if c_le a b then b else a.

Definition u128_max : N := 2 ^ 128 - 1.

(** 188-241; [Ok None] is the code's None *)
Definition const_binop (t : ty) (op : binop) (a b : expr) : res (option expr) :=
  match const_number a, const_number b with
  | Some x, Some y =>
      let num ty := match ty with TEUReal | TUReal | TUInt => true | _ => false end in
      if negb (num (ty_of a)) || negb (num (ty_of b)) then Ok None else
      let r := match op with
               | OAdd => Some (c_add x y) | OSub => c_sub x y | OMul => Some (c_mul x y)
               | OAnd | OInf => Some (c_min x y) | OOr | OSup => Some (c_max x y)
               | _ => None
               end in
      match r with
      | None => Ok None
      | Some r =>
          match t, r with
          | TEUReal, Some q => Ok (Some (b_frac q))
          | TEUReal, None => Ok (Some b_inf)
          | TUReal, Some q => Ok (Some (ELit TUReal (LFrac q)))
          | TUReal, None => Panic "unreachable"
          | TUInt, Some q =>
              let u := Z.to_N (Qfloor q) in
              if N.leb u u128_max then Ok (Some (b_uint u)) else Panic "called Result::unwrap() on an Err value"
          | TUInt, None => Panic "unreachable"
          | _, _ => Ok None
          end
      end
  | _, _ => Ok None
  end.

(** 29-82 *)
Definition fold_bin (t : ty) (op : binop) (a b : expr) : res expr :=
  let e := EBin t op a b in
  match op with
  | OAdd | OSub => if is_zero_lit a then Ok b else if is_zero_lit b then Ok a else Ok e
  | OMul =>
      if is_zero_lit a || is_zero_lit b then b_zero t
      else if is_one_lit a then Ok b else if is_one_lit b then Ok a else Ok e
  | ODiv => if is_zero_lit a then b_zero t else if is_one_lit b then Ok a else Ok e
  | OAnd | OInf =>
      if is_bot_lit a || is_bot_lit b then b_bot t
      else if is_top_lit a then Ok b else if is_top_lit b then Ok a else Ok e
  | OOr | OSup =>
      if is_top_lit a || is_top_lit b then b_top t
      else if is_bot_lit a then Ok b else if is_bot_lit b then Ok a else Ok e
  | _ => Ok e
  end.
(** 83-117 *)
Definition fold_un (t : ty) (op : unop) (a : expr) : res expr :=
  let e := EUn t op a in
  match op with
  | ONot => if is_zero_lit a then b_top t else Ok e
  | ONon => if is_top_lit a then b_bot t else Ok e
  | OEmbed => if is_bot_lit a then b_zero t else if is_top_lit a then b_top t else Ok e
  | OIverson => if is_zero_lit a then b_zero t else if is_one_lit a then b_one t else Ok e
  | OParens => Ok a
  end.

Definition lit_eqb (l m : lit) : bool :=
  match l, m with
  | LUInt a, LUInt b => N.eqb a b | LFrac a, LFrac b => Qeq_bool a b | LInf, LInf => true
  | LBool a, LBool b => Bool.eqb a b | _, _ => false
  end.

(** 27-141, after the children have been folded; [t] is the type of the expression *)
Definition fold_node (e : expr) : res expr :=
  let t := ty_of e in
  let? e1 := match e with EBin _ op a b => fold_bin t op a b | EUn _ op a => fold_un t op a | _ => Ok e end in
  match e1 with
  | EBin _ op a b => let? o := const_binop t op a b in Ok (match o with Some c => c | None => e1 end)
  | EIte _ _ a b =>
      match deref_cast a, deref_cast b with
      | ELit _ l, ELit _ m => if lit_eqb l m then Ok a else Ok e1
      | _, _ => Ok e1
      end
  | _ => Ok e1
  end.

(** 24-26 with walk_expr *)
Fixpoint constfold (e : expr) : res expr :=
  let? e1 :=
    match e with
    | EVar _ | ELit _ _ => Ok e
    | ECall t g args =>
        let? args' := fold_right (fun a r => let? a' := constfold a in let? r' := r in Ok (a' :: r')) (Ok []) args in
        Ok (ECall t g args')
    | EIte t c a b => let? c' := constfold c in let? a' := constfold a in let? b' := constfold b in Ok (EIte t c' a' b')
    | EBin t op a b => let? a' := constfold a in let? b' := constfold b in Ok (EBin t op a' b')
    | EUn t op a => let? a' := constfold a in Ok (EUn t op a')
    | ECast t a => let? a' := constfold a in Ok (ECast t a')
    | EQuant op xs a => let? a' := constfold a in Ok (EQuant op xs a')
    | ESubst x b a => let? b' := constfold b in let? a' := constfold a in Ok (ESubst x b' a')
    end in
  fold_node e1.
