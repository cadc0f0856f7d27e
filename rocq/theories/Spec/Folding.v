(** Conditions under which constant folding is claimed to preserve values. *)
From Coq Require Import ZArith NArith Reals List.
From Verif.Model Require Import Syntax.
From Verif.Spec Require Import Eur Sem.

(** The expression is not constantly zero. *)
Definition is_zero_value (v : val) : Prop :=
  v = VInt 0 \/ v = VUInt 0 \/ v = VReal 0 \/ v = VUReal (nnr_of 0) \/ v = VEur ebot.
Definition nonzero (e : expr) : Prop :=
  exists I s, interp_ok I /\ env_ok s /\ ~ is_zero_value (eval I e s).

Definition bin_foldable (t : ty) (op : binop) (a : expr) : Prop :=
  match op with
  | OSub | ODiv => nonzero a
  | OMul => t <> TReal
  | OInf | OSup => t <> TInt /\ t <> TReal
  | _ => True
  end.

Fixpoint foldable (e : expr) : Prop :=
  match e with
  | EVar _ | ELit _ _ => True
  | ECall _ _ args => fold_right (fun a P => foldable a /\ P) True args
  | EIte _ c a b => foldable c /\ foldable a /\ foldable b
  | EBin t op a b => foldable a /\ foldable b /\ bin_foldable t op a
  | EUn _ _ a | ECast _ a | EQuant _ _ a => foldable a
  | ESubst _ b a => foldable b /\ foldable a
  end.

(** Whenever an arithmetic node over UInt is constant, its value is below 2^128 (some state and interpretation
    gives it such a value). *)
Definition below_u128 (e : expr) : Prop :=
  exists I s, interp_ok I /\ env_ok s /\ forall n, eval I e s = VUInt n -> (n < 2 ^ 128)%N.
Fixpoint fits (e : expr) : Prop :=
  match e with
  | EVar _ | ELit _ _ => True
  | ECall _ _ args => fold_right (fun a P => fits a /\ P) True args
  | EIte _ c a b => fits c /\ fits a /\ fits b
  | EBin t _ a b => fits a /\ fits b /\ (t = TUInt -> below_u128 e)
  | EUn _ _ a | ECast _ a | EQuant _ _ a => fits a
  | ESubst _ b a => fits b /\ fits a
  end.

(** Comparisons are between values whose least element is 0, or at least not with a literal on the left. *)
Definition nonneg_ty (t : ty) : bool := match t with TUInt | TUReal | TEUReal => true | _ => false end.
Definition literal (e : expr) : bool := match e with ELit _ _ | ECast _ (ELit _ _) => true | _ => false end.
Fixpoint comparable (e : expr) : Prop :=
  match e with
  | EVar _ | ELit _ _ => True
  | ECall _ _ args => fold_right (fun a P => comparable a /\ P) True args
  | EIte _ c a b => comparable c /\ comparable a /\ comparable b
  | EBin t op a b => comparable a /\ comparable b /\
      match op with
      | OLe | OGe => nonneg_ty (ty_of a) = true
      | OEq => literal a = true -> nonneg_ty (ty_of a) = true
      | _ => True
      end
  | EUn _ _ a | ECast _ a | EQuant _ _ a => comparable a
  | ESubst _ b a => comparable b /\ comparable a
  end.
