(** Model of ExprBuilder, src/ast/expr.rs 443-660. *)
From Coq Require Import Bool List String ZArith QArith.
From Verif.Model Require Import Syntax.
Import ListNotations.

(** expr.rs 509-523: no cast node when the operand already has the type *)
Definition b_cast (t : ty) (e : expr) : expr := if ty_eqb (ty_of e) t then e else ECast t e.

(** expr.rs 525-540: all quantified variables are Shadow variables *)
Definition b_quant (op : quantop) (xs : list ident) (e : expr) : expr := EQuant op (map QShadow xs) e.

(** expr.rs 542-552: a fold, so the LAST pair ends up outermost *)
Definition b_subst (e : expr) (l : list (ident * expr)) : expr :=
  fold_left (fun acc p => ESubst (fst p) (snd p) acc) l e.

(** expr.rs 554-561 *)
Definition b_subst_by (e : expr) (xs : list ident) (f : ident -> expr) : expr :=
  b_subst e (map (fun x => (x, f x)) xs).

(** expr.rs 572-587 *)
Definition b_bool (b : bool) : expr := ELit TBool (LBool b).
Definition b_uint (n : N) : expr := ELit TUInt (LUInt n).
(** expr.rs 643-659 *)
Definition b_inf : expr := ELit TEUReal LInf.
Definition b_frac (q : Q) : expr := ELit TEUReal (LFrac q).

(** expr.rs 589-596 *)
Definition b_top (t : ty) : res expr :=
  match t with TBool => Ok (b_bool true) | TEUReal => Ok b_inf | _ => Panic "has no top element" end.

(** expr.rs 598-615 *)
Definition b_bot (t : ty) : res expr :=
  match t with
  | TBool => Ok (b_bool false)
  | TUInt => Ok (b_uint 0)
  | TUReal => Ok (ECast TUReal (b_uint 0))
  | TEUReal => Ok (ECast TEUReal (b_uint 0))
  | _ => Panic "has no bottom element"
  end.

(** expr.rs 617-625 *)
Definition b_zero (t : ty) : res expr :=
  match t with
  | TBool | TUInt | TUReal | TEUReal => b_bot t
  | TInt => Ok (b_cast TInt (b_uint 0))
  | TReal => Ok (b_cast TReal (b_frac 0))
  end.

(** expr.rs 627-641 *)
Definition b_one (t : ty) : res expr :=
  match t with
  | TBool => Ok (b_bool true)
  | TUInt => Ok (b_uint 1)
  | TUReal => Ok (b_cast TUReal (b_uint 1))
  | TEUReal => Ok (b_cast TEUReal (b_uint 1))
  | TInt => Ok (b_cast TInt (b_uint 1))
  | TReal => Ok (b_cast TReal (ELit TReal (LFrac 1)))
  end.
