(** When two programs are the same up to brackets, and which programs can be printed. *)
From Coq Require Import Bool List String.
From Verif.Model Require Import Syntax Tycheck Precedence Printing.
From Verif.Spec Require Import Reading.
Import ListNotations.
Local Open Scope list_scope.

(** An expression without its brackets and types *)
Fixpoint unbr (e : rexpr) : rexpr :=
  match e with
  | RUn _ OParens a => unbr a
  | RVar _ x => RVar None x
  | RCall _ f args => RCall None f (map unbr args)
  | RIte _ c a b => RIte None (unbr c) (unbr a) (unbr b)
  | RBin _ op a b => RBin None op (unbr a) (unbr b)
  | RUn _ op a => RUn None op (unbr a)
  | RCast _ a => RCast None (unbr a)
  | RQuant _ op xs a => RQuant None op xs (unbr a)
  | RSubst _ x v a => RSubst None x (unbr v) (unbr a)
  | RLit _ l => RLit None l
  end.
Fixpoint unbr_stmt (s : rstmt) : rstmt :=
  match s with
  | RSeq b => RSeq (map unbr_stmt b)
  | RVarDecl x init => RVarDecl x (option_map unbr init)
  | RAssign xs e => RAssign xs (unbr e)
  | RHavoc d xs => RHavoc d xs
  | RAssert d e => RAssert d (unbr e)
  | RAssume d e => RAssume d (unbr e)
  | RCompare d e => RCompare d (unbr e)
  | RNegate d => RNegate d
  | RValidate d => RValidate d
  | RTick e => RTick (unbr e)
  | RWeigh e => RWeigh (unbr e)
  | RDemonic b1 b2 => RDemonic (map unbr_stmt b1) (map unbr_stmt b2)
  | RAngelic b1 b2 => RAngelic (map unbr_stmt b1) (map unbr_stmt b2)
  | RAdditive b1 b2 => RAdditive (map unbr_stmt b1) (map unbr_stmt b2)
  | RIf c b1 b2 => RIf (unbr c) (map unbr_stmt b1) (map unbr_stmt b2)
  | RWhile c b => RWhile (unbr c) (map unbr_stmt b)
  | RAnn n args s => RAnn n (map unbr args) (unbr_stmt s)
  | RLabel x => RLabel x
  end.
Definition unbr_proc (p : rproc) : rproc :=
  mkrproc (rp_dir p) (rp_name p) (rp_ins p) (rp_outs p) (map (fun c => (fst c, unbr (snd c))) (rp_spec p)) (option_map (map unbr_stmt) (rp_body p)) (rp_calculus p).

(** What is printed faithfully: no decimal literals, no let, no conversions, no quantifier that is an operand, quantified
    variables with types. *)
Definition fresh (v : qvar) : bool := match v with QFresh _ => true | QShadow _ => false end.
Fixpoint printable (e : rexpr) : bool :=
  match e with
  | RVar _ _ => true
  | RCall _ _ args => forallb printable args
  | RIte _ c a b => printable c && printable a && printable b
  | RBin _ _ a b => negb (is_quant a) && negb (is_quant b) && printable a && printable b
  | RUn _ _ a => printable a
  | RCast _ _ | RSubst _ _ _ _ => false
  | RQuant _ _ xs a => negb (match xs with [] => true | _ => false end) && forallb fresh xs && printable a
  | RLit _ l => match l with LFrac _ => false | _ => true end
  end.
(** Statements: no calls without results. *)
Definition nonempty {A} (l : list A) : bool := match l with [] => false | _ => true end.
Fixpoint printable_stmt (s : rstmt) : bool :=
  match s with
  | RSeq b => forallb printable_stmt b
  | RVarDecl _ None | RNegate _ | RValidate _ | RLabel _ => true
  | RHavoc _ xs => nonempty xs
  | RAssign xs e => nonempty xs && printable e
  | RVarDecl _ (Some e) | RAssert _ e | RAssume _ e | RCompare _ e | RTick e | RWeigh e => printable e
  | RDemonic b1 b2 | RAngelic b1 b2 | RAdditive b1 b2 => forallb printable_stmt b1 && forallb printable_stmt b2
  | RIf c b1 b2 => printable c && forallb printable_stmt b1 && forallb printable_stmt b2
  | RWhile c b => printable c && forallb printable_stmt b
  | RAnn _ args s => forallb printable args && printable_stmt s
  end.
Definition printable_proc (p : rproc) : bool :=
  match rp_calculus p with Some _ => false | None => true end &&
  forallb (fun c => printable (snd c)) (rp_spec p) && match rp_body p with Some b => forallb printable_stmt b | None => true end.

(** The user's expressions and statements that are not printed faithfully *)
Fixpoint plain (e : rexpr) : bool :=
  match e with
  | RVar _ _ => true
  | RCall _ _ args => forallb plain args
  | RIte _ c a b => plain c && plain a && plain b
  | RBin _ _ a b => plain a && plain b
  | RUn _ _ a | RQuant _ _ _ a => plain a
  | RCast _ _ | RSubst _ _ _ _ => false
  | RLit _ l => match l with LFrac _ => false | _ => true end
  end.
Fixpoint plain_stmt (s : rstmt) : bool :=
  match s with
  | RSeq b => forallb plain_stmt b
  | RVarDecl _ None | RNegate _ | RValidate _ | RLabel _ | RHavoc _ _ => true
  | RAssign xs e => nonempty xs && plain e
  | RVarDecl _ (Some e) | RAssert _ e | RAssume _ e | RCompare _ e | RTick e | RWeigh e => plain e
  | RDemonic b1 b2 | RAngelic b1 b2 | RAdditive b1 b2 => forallb plain_stmt b1 && forallb plain_stmt b2
  | RIf c b1 b2 => plain c && forallb plain_stmt b1 && forallb plain_stmt b2
  | RWhile c b => plain c && forallb plain_stmt b
  | RAnn _ args s => forallb plain args && plain_stmt s
  end.
Definition plain_proc (p : rproc) : bool :=
  forallb (fun c => plain (snd c)) (rp_spec p) && match rp_body p with Some b => forallb plain_stmt b | None => true end.

(** A checked expression without its brackets; the types are kept. *)
Fixpoint strip (e : rexpr) : rexpr :=
  match e with
  | RUn _ OParens a => strip a
  | RVar o x => RVar o x
  | RCall o f args => RCall o f (map strip args)
  | RIte o c a b => RIte o (strip c) (strip a) (strip b)
  | RBin o op a b => RBin o op (strip a) (strip b)
  | RUn o op a => RUn o op (strip a)
  | RCast o a => RCast o (strip a)
  | RQuant o op xs a => RQuant o op xs (strip a)
  | RSubst o x v a => RSubst o x (strip v) (strip a)
  | RLit o l => RLit o l
  end.
(** The same type and the same tree up to brackets, or the same error *)
Definition agree (m m' : res rexpr) : Prop :=
  match m, m' with
  | Ok a, Ok b => rty a = rty b /\ strip a = strip b
  | Err w, Err w' => w = w'
  | Panic w, Panic w' => w = w'
  | _, _ => False
  end.
(** No types yet, as after parsing *)
Fixpoint untyped (e : rexpr) : bool :=
  match e with
  | RVar None _ | RLit None _ => true
  | RCall None _ args => forallb untyped args
  | RIte None c a b => untyped c && untyped a && untyped b
  | RBin None _ a b | RSubst None _ a b => untyped a && untyped b
  | RUn None _ a | RCast None a | RQuant None _ _ a => untyped a
  | _ => false
  end.
