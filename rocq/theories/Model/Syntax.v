(** HeyVL abstract syntax: model of src/ast/{ty,expr,stmt}.rs after resolving
    and type checking.  Simplifications: the types List, Tuple, Domain, String
    and the placeholder types are left out; spans are left out except for the
    part of a span that makes two identifiers different; triggers of
    quantifiers are left out (they do not change the meaning of a formula). *)
From Coq Require Import Bool List String ZArith QArith.
Import ListNotations.

(** src/ast/ty.rs 9-36 (TyKind), restricted to the numeric and Boolean types. *)
Inductive ty := TBool | TInt | TUInt | TReal | TUReal | TEUReal.

Definition ty_eqb (a b : ty) : bool :=
  match a, b with
  | TBool, TBool | TInt, TInt | TUInt, TUInt | TReal, TReal | TUReal, TUReal | TEUReal, TEUReal => true
  | _, _ => false
  end.

Lemma ty_eqb_spec a b : reflect (a = b) (ty_eqb a b).
Proof. destruct a, b; constructor; congruence. Defined.

(** src/ast/symbol.rs 47-52 (Ident: a name together with a span; both take part in
    equality).  Every identifier has exactly one declaration in the TyCtx
    (tyctx.rs 52-57), so the declared type is a function of the identifier and
    is carried here. *)
Record ident := mkid { iname : string; ispan : nat; ity : ty }.

Definition ident_eqb (x y : ident) : bool :=
  String.eqb (iname x) (iname y) && Nat.eqb (ispan x) (ispan y) && ty_eqb (ity x) (ity y).

Lemma ident_eqb_spec x y : reflect (x = y) (ident_eqb x y).
Proof.
  destruct x as [a b c], y as [a' b' c']. unfold ident_eqb; simpl.
  destruct (String.eqb_spec a a'); simpl; [|constructor; congruence].
  destruct (Nat.eqb_spec b b'); simpl; [|constructor; congruence].
  destruct (ty_eqb_spec c c'); constructor; congruence.
Defined.

Definition ident_dec (x y : ident) : {x = y} + {x <> y} :=
  match ident_eqb_spec x y with ReflectT _ e => left e | ReflectF _ n => right n end.

(** src/ast/expr.rs 146-188 *)
Inductive binop :=
| OAdd | OSub | OMul | ODiv | OMod | OAnd | OOr | OEq | OLt | OLe | ONe | OGe | OGt
| OInf | OSup | OImpl | OCoImpl | OCompare | OCoCompare.

(** src/ast/expr.rs 222-234 *)
Inductive unop := ONot | ONon | OEmbed | OIverson | OParens.

(** src/ast/expr.rs 254-264 *)
Inductive quantop := QInf | QSup | QForall | QExists.

(** src/ast/expr.rs 285-289 *)
Inductive qvar := QShadow (x : ident) | QFresh (x : ident).
Definition qname (v : qvar) : ident := match v with QShadow x | QFresh x => x end.

(** src/ast/expr.rs 370-382 (LitKind without Str) *)
Inductive lit := LUInt (n : N) | LFrac (q : Q) | LInf | LBool (b : bool).

(** src/ast/expr.rs 43-70 (ExprKind together with the ty field of ExprData).
    A variable has its declared type, a quantifier the type of its body
    (ExprBuilder::quant, expr.rs 560-580) and a substitution the type of its
    body (ExprBuilder::subst, 596-611).  Functions and procedures are referred
    to by name. *)
Inductive expr :=
| EVar   (x : ident)
| ECall  (t : ty) (f : string) (args : list expr)
| EIte   (t : ty) (c a b : expr)
| EBin   (t : ty) (op : binop) (a b : expr)
| EUn    (t : ty) (op : unop) (a : expr)
| ECast  (t : ty) (a : expr)
| EQuant (op : quantop) (xs : list qvar) (e : expr)
| ESubst (x : ident) (by_ e : expr)
| ELit   (t : ty) (l : lit).

Fixpoint ty_of (e : expr) : ty :=
  match e with
  | EVar x => ity x
  | ECall t _ _ | EIte t _ _ _ | EBin t _ _ _ | EUn t _ _ | ECast t _ | ELit t _ => t
  | EQuant _ _ e | ESubst _ _ e => ty_of e
  end.

(** src/ast/stmt.rs, Direction *)
Inductive direction := Down | Up.

(** src/ast/stmt.rs 28-66 (StmtKind).  A block is a list of statements. *)
Inductive stmt :=
| SSeq      (b : list stmt)
| SVar      (x : ident) (init : option expr)
| SAssign   (xs : list ident) (e : expr)
| SHavoc    (d : direction) (xs : list ident)
| SAssert   (d : direction) (e : expr)
| SAssume   (d : direction) (e : expr)
| SCompare  (d : direction) (e : expr)
| SNegate   (d : direction)
| SValidate (d : direction)
| STick     (e : expr)
| SWeigh    (e : expr)
| SDemonic  (b1 b2 : list stmt)
| SAngelic  (b1 b2 : list stmt)
| SAdditive (b1 b2 : list stmt)
| SIf       (c : expr) (b1 b2 : list stmt)
| SWhile    (c : expr) (b : list stmt)
| SAnn      (name : string) (args : list expr) (s : stmt)
| SLabel    (x : ident).

(** Induction principles that see through the nested lists. *)
Section ExprInd.
  Variable P : expr -> Prop.
  Hypothesis HVar : forall x, P (EVar x).
  Hypothesis HCall : forall t f args, Forall P args -> P (ECall t f args).
  Hypothesis HIte : forall t c a b, P c -> P a -> P b -> P (EIte t c a b).
  Hypothesis HBin : forall t op a b, P a -> P b -> P (EBin t op a b).
  Hypothesis HUn : forall t op a, P a -> P (EUn t op a).
  Hypothesis HCast : forall t a, P a -> P (ECast t a).
  Hypothesis HQuant : forall op xs e, P e -> P (EQuant op xs e).
  Hypothesis HSubst : forall x b e, P b -> P e -> P (ESubst x b e).
  Hypothesis HLit : forall t l, P (ELit t l).
  Fixpoint expr_rect' (e : expr) : P e :=
    match e with
    | EVar x => HVar x
    | ECall t f args => HCall t f args
        ((fix go l : Forall P l := match l with nil => Forall_nil P | e :: l' => Forall_cons e (expr_rect' e) (go l') end) args)
    | EIte t c a b => HIte t c a b (expr_rect' c) (expr_rect' a) (expr_rect' b)
    | EBin t op a b => HBin t op a b (expr_rect' a) (expr_rect' b)
    | EUn t op a => HUn t op a (expr_rect' a)
    | ECast t a => HCast t a (expr_rect' a)
    | EQuant op xs e => HQuant op xs e (expr_rect' e)
    | ESubst x b e => HSubst x b e (expr_rect' b) (expr_rect' e)
    | ELit t l => HLit t l
    end.
End ExprInd.

Section StmtInd.
  Variable P : stmt -> Prop.
  Hypothesis HSeq : forall b, Forall P b -> P (SSeq b).
  Hypothesis HVar : forall x i, P (SVar x i).
  Hypothesis HAssign : forall xs e, P (SAssign xs e).
  Hypothesis HHavoc : forall d xs, P (SHavoc d xs).
  Hypothesis HAssert : forall d e, P (SAssert d e).
  Hypothesis HAssume : forall d e, P (SAssume d e).
  Hypothesis HCompare : forall d e, P (SCompare d e).
  Hypothesis HNegate : forall d, P (SNegate d).
  Hypothesis HValidate : forall d, P (SValidate d).
  Hypothesis HTick : forall e, P (STick e).
  Hypothesis HWeigh : forall e, P (SWeigh e).
  Hypothesis HDemonic : forall a b, Forall P a -> Forall P b -> P (SDemonic a b).
  Hypothesis HAngelic : forall a b, Forall P a -> Forall P b -> P (SAngelic a b).
  Hypothesis HAdditive : forall a b, Forall P a -> Forall P b -> P (SAdditive a b).
  Hypothesis HIf : forall c a b, Forall P a -> Forall P b -> P (SIf c a b).
  Hypothesis HWhile : forall c b, Forall P b -> P (SWhile c b).
  Hypothesis HAnn : forall n args s, P s -> P (SAnn n args s).
  Hypothesis HLabel : forall x, P (SLabel x).
  Fixpoint stmt_rect' (s : stmt) : P s :=
    let go := fix go l : Forall P l :=
      match l with nil => Forall_nil P | s :: l' => Forall_cons s (stmt_rect' s) (go l') end in
    match s with
    | SSeq b => HSeq b (go b)
    | SVar x i => HVar x i
    | SAssign xs e => HAssign xs e
    | SHavoc d xs => HHavoc d xs
    | SAssert d e => HAssert d e
    | SAssume d e => HAssume d e
    | SCompare d e => HCompare d e
    | SNegate d => HNegate d
    | SValidate d => HValidate d
    | STick e => HTick e
    | SWeigh e => HWeigh e
    | SDemonic a b => HDemonic a b (go a) (go b)
    | SAngelic a b => HAngelic a b (go a) (go b)
    | SAdditive a b => HAdditive a b (go a) (go b)
    | SIf c a b => HIf c a b (go a) (go b)
    | SWhile c b => HWhile c b (go b)
    | SAnn n args s => HAnn n args s (stmt_rect' s)
    | SLabel x => HLabel x
    end.
End StmtInd.

(** Outcome of a Rust function: a value, a reported diagnostic (Result::Err) or
    a panic.  The string only documents the reason. *)
Inductive res (A : Type) := Ok (a : A) | Err (why : string) | Panic (why : string).
Arguments Ok {A}. Arguments Err {A}. Arguments Panic {A}.

Definition rbind {A B} (m : res A) (f : A -> res B) : res B :=
  match m with Ok a => f a | Err w => Err w | Panic w => Panic w end.
Notation "'let?' x := m 'in' f" := (rbind m (fun x => f)) (at level 200, x pattern, right associativity).
