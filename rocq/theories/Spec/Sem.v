(** Meaning of HeyLo expressions: values, states and evaluation.  This is
    specification; it follows website/docs/heyvl/expressions.md,
    website/docs/stdlib/{booleans,numbers}.md and the doc comments in
    src/ast/expr.rs.  Whether the SMT translation (src/smt/translate_exprs.rs)
    agrees with it is a property (C41), not a definition. *)
From Coq Require Import Bool List String ZArith NArith QArith Reals Qreals ClassicalEpsilon.
From Verif.Model Require Import Syntax.
From Verif.Spec Require Import Eur.
Import ListNotations.

Inductive val :=
| VBool (b : bool) | VInt (z : Z) | VUInt (n : N) | VReal (r : R) | VUReal (x : nnr) | VEur (e : eur)
| VErr. (* no meaning: ill-typed operation *)

Definition tag (v : val) : option ty :=
  match v with
  | VBool _ => Some TBool | VInt _ => Some TInt | VUInt _ => Some TUInt
  | VReal _ => Some TReal | VUReal _ => Some TUReal | VEur _ => Some TEUReal | VErr => None
  end.
Definition has_ty (v : val) (t : ty) : Prop := tag v = Some t.

(** States assign a value to every identifier. *)
Definition env := ident -> val.
Definition env_ok (s : env) : Prop := forall x, has_ty (s x) (ity x).
Definition upd (s : env) (x : ident) (v : val) : env := fun y => if ident_eqb x y then v else s y.

(** [s'] differs from [s] at most in [xs] and gives [xs] values of their types. *)
Definition havocked (xs : list ident) (s s' : env) : Prop :=
  (forall x, ~ In x xs -> s' x = s x) /\ (forall x, In x xs -> has_ty (s' x) (ity x)).

(** Interpretation of what the language leaves open: user-declared functions,
    division by zero and remainder by zero.  Each is some total function into the
    result type. *)
Record interp := {
  ifun  : string -> ty -> list val -> val;
  idiv0 : R -> R;
  iudiv0 : nnr -> nnr;
  imod0 : Z -> Z;
  iumod0 : N -> N
}.
Definition interp_ok (I : interp) : Prop := forall f t vs, has_ty (ifun I f t vs) t.

Definition dec (P : Prop) : bool := if excluded_middle_informative P then true else false.

Definition n2r (n : N) : R := IZR (Z.of_N n).

(** Comparisons between values of the same type.  (Comparisons of Booleans cannot be written by users, but
    src/opt/boolify.rs makes some.) *)
Definition vle (a b : val) : option bool :=
  match a, b with
  | VBool x, VBool y => Some (implb x y)
  | VInt x, VInt y => Some (Z.leb x y)
  | VUInt x, VUInt y => Some (N.leb x y)
  | VReal x, VReal y => Some (dec (x <= y)%R)
  | VUReal x, VUReal y => Some (dec (nval x <= nval y)%R)
  | VEur x, VEur y => Some (eleb x y)
  | _, _ => None
  end.

Definition veq (a b : val) : option bool :=
  match tag a, tag b with
  | Some t, Some t' => if ty_eqb t t' then Some (dec (a = b)) else None
  | _, _ => None
  end.

Definition obool (o : option bool) : val := match o with Some b => VBool b | None => VErr end.

(** The truth-value embedding used by the Heyting operators on [0,oo]. *)
Definition etruth (b : bool) : eur := if b then etop else ebot.

Definition eval_bin (I : interp) (t : ty) (op : binop) (v w : val) : val :=
  match t, op, v, w with
  | TBool, OAnd, VBool a, VBool b => VBool (a && b)
  | TBool, OOr, VBool a, VBool b => VBool (a || b)
  | TBool, OInf, VBool a, VBool b => VBool (a && b)
  | TBool, OSup, VBool a, VBool b => VBool (a || b)
  | TBool, OImpl, VBool a, VBool b => VBool (implb a b)
  | TBool, OEq, _, _ => obool (veq v w)
  | TBool, ONe, _, _ => obool (option_map negb (veq v w))
  | TBool, OLe, _, _ => obool (vle v w)
  | TBool, OGe, _, _ => obool (vle w v)
  | TBool, OLt, _, _ => obool (option_map negb (vle w v))
  | TBool, OGt, _, _ => obool (option_map negb (vle v w))
  | TInt, OAdd, VInt a, VInt b => VInt (a + b)
  | TInt, OSub, VInt a, VInt b => VInt (a - b)
  | TInt, OMul, VInt a, VInt b => VInt (a * b)
  | TInt, OMod, VInt a, VInt b => VInt (if Z.eqb b 0 then imod0 I a else Z.modulo a (Z.abs b))
  | TInt, OInf, VInt a, VInt b => VInt (Z.min a b)
  | TInt, OSup, VInt a, VInt b => VInt (Z.max a b)
  | TUInt, OAdd, VUInt a, VUInt b => VUInt (a + b)
  | TUInt, OSub, VUInt a, VUInt b => VUInt (a - b)   (* truncated at 0 *)
  | TUInt, OMul, VUInt a, VUInt b => VUInt (a * b)
  | TUInt, OMod, VUInt a, VUInt b => VUInt (if N.eqb b 0 then iumod0 I a else N.modulo a b)
  | TUInt, OInf, VUInt a, VUInt b => VUInt (N.min a b)
  | TUInt, OSup, VUInt a, VUInt b => VUInt (N.max a b)
  | TReal, OAdd, VReal a, VReal b => VReal (a + b)
  | TReal, OSub, VReal a, VReal b => VReal (a - b)
  | TReal, OMul, VReal a, VReal b => VReal (a * b)
  | TReal, ODiv, VReal a, VReal b => VReal (if dec (b = 0)%R then idiv0 I a else (a / b)%R)
  | TReal, OInf, VReal a, VReal b => VReal (Rmin a b)
  | TReal, OSup, VReal a, VReal b => VReal (Rmax a b)
  | TUReal, OAdd, VUReal a, VUReal b => VUReal (nnr_of (nval a + nval b))
  | TUReal, OSub, VUReal a, VUReal b => VUReal (nnr_of (nval a - nval b))  (* truncated at 0 *)
  | TUReal, OMul, VUReal a, VUReal b => VUReal (nnr_of (nval a * nval b))
  | TUReal, ODiv, VUReal a, VUReal b => VUReal (if dec (nval b = 0)%R then iudiv0 I a else nnr_of (nval a / nval b))
  | TUReal, OInf, VUReal a, VUReal b => VUReal (nnr_of (Rmin (nval a) (nval b)))
  | TUReal, OSup, VUReal a, VUReal b => VUReal (nnr_of (Rmax (nval a) (nval b)))
  | TEUReal, OAdd, VEur a, VEur b => VEur (eadd a b)
  | TEUReal, OSub, VEur a, VEur b => VEur (emonus a b)
  | TEUReal, OMul, VEur a, VEur b => VEur (emul a b)
  | TEUReal, OInf, VEur a, VEur b => VEur (emin a b)
  | TEUReal, OSup, VEur a, VEur b => VEur (emax a b)
  | TEUReal, OImpl, VEur a, VEur b => VEur (if eleb a b then etop else b)
  | TEUReal, OCoImpl, VEur a, VEur b => VEur (if eleb b a then ebot else b)
  | TEUReal, OCompare, VEur a, VEur b => VEur (if eleb a b then etop else ebot)
  | TEUReal, OCoCompare, VEur a, VEur b => VEur (if eleb b a then ebot else etop)
  | _, _, _, _ => VErr
  end.

Definition eval_un (t : ty) (op : unop) (v : val) : val :=
  match t, op, v with
  | TBool, ONot, VBool a => VBool (negb a)
  | TBool, ONon, VBool a => VBool (negb a)
  | TEUReal, ONot, VEur a => VEur (if eleb a ebot then etop else ebot)
  | TEUReal, ONon, VEur a => VEur (if eleb etop a then ebot else etop)
  | TEUReal, OEmbed, VBool b => VEur (etruth b)
  | TEUReal, OIverson, VBool b => VEur (if b then eone else ebot)
  | _, OParens, v => if dec (has_ty v t) then v else VErr
  | _, _, _ => VErr
  end.

(** Implicit conversions along the subtype order (numbers.md, "Type conversion"). *)
Definition eval_cast (t : ty) (v : val) : val :=
  match t, v with
  | TInt, VUInt n => VInt (Z.of_N n)
  | TReal, VUInt n => VReal (n2r n)
  | TReal, VInt z => VReal (IZR z)
  | TReal, VUReal x => VReal (nval x)
  | TUReal, VUInt n => VUReal (nnr_of (n2r n))
  | TEUReal, VUInt n => VEur (fin (n2r n))
  | TEUReal, VUReal x => VEur (Fin x)
  | _, _ => VErr
  end.

Definition eval_lit (t : ty) (l : lit) : val :=
  match t, l with
  | TBool, LBool b => VBool b
  | TUInt, LUInt n => VUInt n
  | TUReal, LFrac q => VUReal (nnr_of (Q2R q))
  | TEUReal, LFrac q => VEur (fin (Q2R q))
  | TEUReal, LInf => VEur etop
  | _, _ => VErr
  end.

Fixpoint eval (I : interp) (e : expr) (s : env) {struct e} : val :=
  match e with
  | EVar x => s x
  | ECall t f args => ifun I f t (map (fun a => eval I a s) args)
  | EIte t c a b =>
      match eval I c s with
      | VBool true => eval I a s
      | VBool false => eval I b s
      | _ => VErr
      end
  | EBin t op a b => eval_bin I t op (eval I a s) (eval I b s)
  | EUn t op a => eval_un t op (eval I a s)
  | ECast t a => eval_cast t (eval I a s)
  | EQuant op xs e =>
      let reach v := exists s', havocked (map qname xs) s s' /\ eval I e s' = v in
      match op, ty_of e with
      | (QInf | QForall), TBool => VBool (dec (forall v, reach v -> v = VBool true))
      | (QSup | QExists), TBool => VBool (dec (reach (VBool true)))
      | QInf, TEUReal => VEur (einf (fun r => reach (VEur r)))
      | QSup, TEUReal => VEur (esup (fun r => reach (VEur r)))
      | _, _ => VErr
      end
  | ESubst x b e => eval I e (upd s x (eval I b s))
  | ELit t l => eval_lit t l
  end.

(** Well-typedness of the AST that the type checker hands to the later phases
    (src/front/tycheck.rs; the operations allowed per type are those that
    src/smt/translate_exprs.rs accepts without panicking, and comparisons of Booleans,
    on which it panics). *)
Definition bin_ok (t : ty) (op : binop) (ta tb : ty) : bool :=
  match t, op with
  | TBool, (OAnd | OOr | OInf | OSup | OImpl) => ty_eqb ta TBool && ty_eqb tb TBool
  | TBool, (OEq | ONe) => ty_eqb ta tb
  | TBool, (OLe | OLt | OGe | OGt) => ty_eqb ta tb
  | (TInt | TUInt), (OAdd | OSub | OMul | OMod | OInf | OSup) => ty_eqb ta t && ty_eqb tb t
  | (TReal | TUReal), (OAdd | OSub | OMul | ODiv | OInf | OSup) => ty_eqb ta t && ty_eqb tb t
  | TEUReal, (OAdd | OSub | OMul | OInf | OSup | OImpl | OCoImpl | OCompare | OCoCompare) =>
      ty_eqb ta t && ty_eqb tb t
  | _, _ => false
  end.

Definition un_ok (t : ty) (op : unop) (ta : ty) : bool :=
  match t, op with
  | TBool, (ONot | ONon) => ty_eqb ta TBool
  | TEUReal, (ONot | ONon) => ty_eqb ta TEUReal
  | TEUReal, (OEmbed | OIverson) => ty_eqb ta TBool
  | _, OParens => ty_eqb ta t
  | _, _ => false
  end.

Definition cast_ok (t ta : ty) : bool :=
  match t, ta with
  | TInt, TUInt | TReal, TUInt | TReal, TInt | TReal, TUReal | TUReal, TUInt
  | TEUReal, TUInt | TEUReal, TUReal => true
  | _, _ => false
  end.

Definition lit_ok (t : ty) (l : lit) : bool :=
  match t, l with
  | TBool, LBool _ | TUInt, LUInt _ | TEUReal, LInf => true
  | TUReal, LFrac q | TEUReal, LFrac q => Qle_bool 0 q
  | _, _ => false
  end.

Definition quant_ok (op : quantop) (t : ty) : bool :=
  match t, op with
  | TBool, _ => true
  | TEUReal, (QInf | QSup) => true
  | _, _ => false
  end.

Fixpoint wt (e : expr) : bool :=
  match e with
  | EVar _ => true
  | ECall _ _ args => forallb wt args
  | EIte t c a b => wt c && wt a && wt b && ty_eqb (ty_of c) TBool && ty_eqb (ty_of a) t && ty_eqb (ty_of b) t
  | EBin t op a b => wt a && wt b && bin_ok t op (ty_of a) (ty_of b)
  | EUn t op a => wt a && un_ok t op (ty_of a)
  | ECast t a => wt a && cast_ok t (ty_of a)
  | EQuant op _ e => wt e && quant_ok op (ty_of e)
  | ESubst x b e => wt b && wt e && ty_eqb (ty_of b) (ity x)
  | ELit t l => lit_ok t l
  end.

(** Free variables, as a property. *)
Fixpoint fv (x : ident) (e : expr) : Prop :=
  match e with
  | EVar y => x = y
  | ECall _ _ args => (fix go l := match l with [] => False | a :: l' => fv x a \/ go l' end) args
  | EIte _ c a b => fv x c \/ fv x a \/ fv x b
  | EBin _ _ a b => fv x a \/ fv x b
  | EUn _ _ a | ECast _ a => fv x a
  | EQuant _ xs e => fv x e /\ ~ In x (map qname xs)
  | ESubst y b e => fv x b \/ (fv x e /\ x <> y)
  | ELit _ _ => False
  end.
