(** Typing rules of HeyVL, and the language with explicit conversions that the later passes work on
    (website/docs/heyvl/{expressions,statements,procs}.md, website/docs/stdlib/{numbers,booleans}.md). *)
From Coq Require Import Bool List String ZArith NArith QArith Reals.
From Verif.Model Require Import Syntax Tycheck.
From Verif.Spec Require Import Eur Sem Exprs Wp.
Import ListNotations.

(** * Subtypes (numbers.md) *)

(** A value as a Boolean or as a number in the extended reals ([None]: infinity). *)
Inductive meaning := MBool (b : bool) | MNum (r : option R).
Definition meaning_of (v : val) : option meaning :=
  match v with
  | VBool b => Some (MBool b)
  | VInt z => Some (MNum (Some (IZR z)))
  | VUInt n => Some (MNum (Some (IZR (Z.of_N n))))
  | VReal r => Some (MNum (Some r))
  | VUReal x | VEur (Fin x) => Some (MNum (Some (nval x)))
  | VEur Inf => Some (MNum None)
  | VErr => None
  end.
(** Every value of type [t] is also one of type [u]. *)
Definition included (t u : ty) : Prop :=
  forall v, has_ty v t -> exists w, has_ty w u /\ meaning_of w = meaning_of v.
(** The larger one of two types. *)
Definition join (a b t : ty) : Prop := included a t /\ included b t /\ (t = a \/ t = b).

Definition numeric (t : ty) : Prop := t <> TBool.

(** * Typing rules *)
Section Rules.
Variable S : sigs.
(** In preconditions, outputs may not be used. *)
Variable pre : bool.
Definition lit_ty (l : lit) : ty := match l with LUInt _ => TUInt | LFrac _ => TUReal | LInf => TEUReal | LBool _ => TBool end.
Definition literal (e : rexpr) : Prop := exists o l, e = RLit o l.

(** [types imp e t]: [e] has type [t]; [imp]: it is the right-hand side of an assignment, where a procedure may be called. *)
Inductive types : bool -> rexpr -> xty -> Prop :=
| ty_var imp o x k : s_var S x = Some k -> (pre = true -> k <> KOutput) -> types imp (RVar o x) (One (ity x))
| ty_func imp o f args ins out : s_call S f = Some (CFunc ins out) ->
    Forall2 (fun p a => (snd p = true -> literal a) /\ exists t, types false a (One t) /\ included t (fst p)) ins args ->
    types imp (RCall o f args) (One out)
| ty_proc o f args ins outs : s_call S f = Some (CProc ins outs) ->
    Forall2 (fun p a => (snd p = true -> literal a) /\ exists t, types false a (One t) /\ included t (fst p)) ins args ->
    types true (RCall o f args) (Tup outs)
| ty_ite imp o c a b ta tb t : types false c (One TBool) -> types false a (One ta) -> types false b (One tb) -> join ta tb t ->
    types imp (RIte o c a b) (One t)
| ty_arith imp o op a b ta tb t : In op [OAdd; OSub; OMul; OInf; OSup] -> types false a (One ta) -> types false b (One tb) ->
    numeric ta -> numeric tb -> join ta tb t -> types imp (RBin o op a b) (One t)
| ty_udiv imp o a b ta tb : types false a (One ta) -> types false b (One tb) -> included ta TUReal -> included tb TUReal ->
    types imp (RBin o ODiv a b) (One TUReal)
| ty_div imp o a b ta tb : types false a (One ta) -> types false b (One tb) -> included ta TReal -> included tb TReal ->
    ~ (included ta TUReal /\ included tb TUReal) -> types imp (RBin o ODiv a b) (One TReal)
| ty_mod imp o a b ta tb t : types false a (One ta) -> types false b (One tb) -> In ta [TUInt; TInt] -> In tb [TUInt; TInt] ->
    join ta tb t -> types imp (RBin o OMod a b) (One t)
| ty_logic imp o op a b : In op [OAnd; OOr] -> types false a (One TBool) -> types false b (One TBool) ->
    types imp (RBin o op a b) (One TBool)
| ty_eq imp o op a b ta tb t : In op [OEq; ONe] -> types false a (One ta) -> types false b (One tb) -> join ta tb t ->
    types imp (RBin o op a b) (One TBool)
| ty_order imp o op a b ta tb t : In op [OLt; OLe; OGe; OGt] -> types false a (One ta) -> types false b (One tb) ->
    numeric ta -> numeric tb -> join ta tb t -> types imp (RBin o op a b) (One TBool)
| ty_heyting imp o op a b t : In op [OImpl; OCoImpl; OCompare; OCoCompare] -> In t [TBool; TEUReal] ->
    types false a (One t) -> types false b (One t) -> types imp (RBin o op a b) (One t)
| ty_neg imp o op a t : In op [ONot; ONon] -> In t [TBool; TEUReal] -> types false a (One t) -> types imp (RUn o op a) (One t)
| ty_embed imp o op a : In op [OEmbed; OIverson] -> types false a (One TBool) -> types imp (RUn o op a) (One TEUReal)
| ty_parens imp o a t : types false a (One t) -> types imp (RUn o OParens a) (One t)
| ty_quant imp o op xs a : In op [QInf; QSup] -> types false a (One TEUReal) -> types imp (RQuant o op xs a) (One TEUReal)
| ty_quantb imp o op xs a : In op [QForall; QExists] -> types false a (One TBool) -> types imp (RQuant o op xs a) (One TBool)
| ty_let imp o x v a t : types false v (One (ity x)) -> types false a (One t) -> types imp (RSubst o x v a) (One t)
| ty_lit imp o l : types imp (RLit o l) (One (lit_ty l)).
End Rules.

Section StmtRules.
Variable S : sigs.
Definition writable_var (x : ident) : Prop := s_var S x = Some KMut \/ s_var S x = Some KOutput.
(** [e] can be used where a value of type [u] is expected. *)
Definition fits_ty (pre imp : bool) (e : rexpr) (u : ty) : Prop := exists t, types S pre imp e (One t) /\ included t u.
(** The results of a procedure are not converted. *)
Definition assigns (xs : list ident) (e : rexpr) : Prop :=
  (exists x, xs = [x] /\ fits_ty false true e (ity x)) \/ types S false true e (Tup (map ity xs)).
Fixpoint types_stmt (s : rstmt) : Prop :=
  match s with
  | RSeq b => All types_stmt b
  | RVarDecl x (Some e) => assigns [x] e
  | RAssign xs e => assigns xs e /\ forall x, In x xs -> writable_var x
  | RHavoc _ xs => forall x, In x xs -> writable_var x
  | RAssert _ e | RAssume _ e | RCompare _ e | RTick e | RWeigh e => fits_ty false false e TEUReal
  | RDemonic a b | RAngelic a b | RAdditive a b => All types_stmt a /\ All types_stmt b
  | RIf c a b => types S false false c (One TBool) /\ All types_stmt a /\ All types_stmt b
  | RWhile c b => types S false false c (One TBool) /\ All types_stmt b
  | RAnn n args s =>
      types_stmt s /\
      match s_ann S n with
      | Some (Some ps) => Forall2 (fun p a => (snd p = true -> literal a) /\ fits_ty false false a (fst p)) ps args
      | _ => Forall (fun a => exists t, types S false false a (One t)) args
      end
  | RVarDecl _ None | RNegate _ | RValidate _ | RLabel _ => True
  end.
Definition types_block (b : list rstmt) : Prop := All types_stmt b.
End StmtRules.

(** * Before and after the check *)

(** What the parser makes: no types, no conversions, and decimals that are not negative. *)
Fixpoint parsed (e : rexpr) : bool :=
  match e with
  | RVar None _ => true
  | RCall None _ args => forallb parsed args
  | RIte None c a b => parsed c && parsed a && parsed b
  | RBin None _ a b => parsed a && parsed b
  | RUn None _ a | RQuant None _ _ a => parsed a
  | RSubst None _ v a => parsed v && parsed a
  | RLit None l => match l with LFrac q => Qle_bool 0 q | _ => true end
  | _ => false
  end.
Fixpoint sparsed (s : rstmt) : bool :=
  match s with
  | RSeq b => forallb sparsed b
  | RVarDecl _ None | RHavoc _ _ | RNegate _ | RValidate _ | RLabel _ => true
  | RVarDecl _ (Some e) | RAssign _ e | RAssert _ e | RAssume _ e | RCompare _ e | RTick e | RWeigh e => parsed e
  | RDemonic a b | RAngelic a b | RAdditive a b => forallb sparsed a && forallb sparsed b
  | RIf c a b => parsed c && forallb sparsed a && forallb sparsed b
  | RWhile c b => parsed c && forallb sparsed b
  | RAnn _ args s => forallb parsed args && sparsed s
  end.

(** Take away types and conversions. *)
Fixpoint strip (e : rexpr) : rexpr :=
  match e with
  | RVar _ x => RVar None x
  | RCall _ f args => RCall None f (map strip args)
  | RIte _ c a b => RIte None (strip c) (strip a) (strip b)
  | RBin _ op a b => RBin None op (strip a) (strip b)
  | RUn _ op a => RUn None op (strip a)
  | RCast _ a => strip a
  | RQuant _ op xs a => RQuant None op xs (strip a)
  | RSubst _ x v a => RSubst None x (strip v) (strip a)
  | RLit _ l => RLit None l
  end.
Fixpoint sstrip (s : rstmt) : rstmt :=
  match s with
  | RSeq b => RSeq (map sstrip b)
  | RVarDecl x i => RVarDecl x (option_map strip i)
  | RAssign xs e => RAssign xs (strip e)
  | RAssert d e => RAssert d (strip e)
  | RAssume d e => RAssume d (strip e)
  | RCompare d e => RCompare d (strip e)
  | RTick e => RTick (strip e)
  | RWeigh e => RWeigh (strip e)
  | RDemonic a b => RDemonic (map sstrip a) (map sstrip b)
  | RAngelic a b => RAngelic (map sstrip a) (map sstrip b)
  | RAdditive a b => RAdditive (map sstrip a) (map sstrip b)
  | RIf c a b => RIf (strip c) (map sstrip a) (map sstrip b)
  | RWhile c b => RWhile (strip c) (map sstrip b)
  | RAnn n args s => RAnn n (map strip args) (sstrip s)
  | RHavoc _ _ | RNegate _ | RValidate _ | RLabel _ => s
  end.

(** Parameters that must be literals (of distributions) have type UInt. *)
Definition literals_uint (S : sigs) : Prop :=
  forall f c, s_call S f = Some c -> match c with CProc ins _ | CFunc ins _ => forall p, In p ins -> snd p = true -> fst p = TUInt | COther => True end.

(** * The language with explicit conversions *)

Definition strict_bin (t : ty) (op : binop) (ta tb : ty) : bool :=
  match op with
  | OAdd | OSub | OMul | OInf | OSup => ty_eqb ta t && ty_eqb tb t && negb (ty_eqb t TBool)
  | ODiv => ty_eqb ta t && ty_eqb tb t && (ty_eqb t TUReal || ty_eqb t TReal)
  | OMod => ty_eqb ta t && ty_eqb tb t && (ty_eqb t TUInt || ty_eqb t TInt)
  | OAnd | OOr => ty_eqb ta TBool && ty_eqb tb TBool && ty_eqb t TBool
  | OEq | ONe => ty_eqb ta tb && ty_eqb t TBool
  | OLt | OLe | OGe | OGt => ty_eqb ta tb && negb (ty_eqb ta TBool) && ty_eqb t TBool
  | OImpl | OCoImpl | OCompare | OCoCompare => ty_eqb ta t && ty_eqb tb t && (ty_eqb t TBool || ty_eqb t TEUReal)
  end.
Section Strict.
Variables (S : sigs) (pre : bool).
Definition readable (x : ident) : bool :=
  match s_var S x with Some KOutput => negb pre | Some _ => true | None => false end.
(** Every node has exactly the types it needs, without looking through conversions. *)
Fixpoint strict (e : expr) : bool :=
  match e with
  | EVar x => readable x
  | ECall t f args =>
      forallb strict args &&
      match s_call S f with Some (CFunc ins out) => ty_eqb out t && tys_eqb (map ty_of args) (map fst ins) | _ => false end
  | EIte t c a b => strict c && strict a && strict b && ty_eqb (ty_of c) TBool && ty_eqb (ty_of a) t && ty_eqb (ty_of b) t
  | EBin t op a b => strict a && strict b && strict_bin t op (ty_of a) (ty_of b)
  | EUn t op a => strict a && un_ok t op (ty_of a)
  | ECast t a => strict a && cast_ok t (ty_of a)
  | EQuant (QInf | QSup) _ a => strict a && ty_eqb (ty_of a) TEUReal
  | EQuant (QForall | QExists) _ a => strict a && ty_eqb (ty_of a) TBool
  | ESubst x v a => strict v && strict a && ty_eqb (ty_of v) (ity x)
  | ELit t l => ty_eqb (lit_ty l) t && match l with LFrac q => Qle_bool 0 q | _ => true end
  end.
(** A call of a procedure with inputs [ins]; literals where they are needed, before conversions. *)
Fixpoint lit_under (e : expr) : bool := match e with ELit _ _ => true | ECast _ a => lit_under a | _ => false end.
Definition strict_args (ins : list param) (args : list expr) : Prop :=
  Forall2 (fun p a => strict a = true /\ ty_of a = fst p /\ (snd p = true -> lit_under a = true)) ins args.
End Strict.

Section StrictStmts.
Variable S : sigs.
Definition strict_assign (xs : list ident) (e : expr) : Prop :=
  let plain := exists x, xs = [x] /\ strict S false e = true /\ ty_of e = ity x in
  match e with
  | ECall _ f args =>
      match s_call S f with
      | Some (CProc ins outs) => strict_args S false ins args /\ map ity xs = outs
      | _ => plain
      end
  | _ => plain
  end.
Definition strict_exp (e : expr) : Prop := strict S false e = true /\ ty_of e = TEUReal.
Definition strict_guard (e : expr) : Prop := strict S false e = true /\ ty_of e = TBool.
Fixpoint strict_stmt (s : stmt) : Prop :=
  match s with
  | SSeq b => All strict_stmt b
  | SVar x (Some e) => strict_assign [x] e
  | SAssign xs e => strict_assign xs e /\ forall x, In x xs -> writable_var S x
  | SHavoc _ xs => forall x, In x xs -> writable_var S x
  | SAssert _ e | SAssume _ e | SCompare _ e | STick e | SWeigh e => strict_exp e
  | SDemonic a b | SAngelic a b | SAdditive a b => All strict_stmt a /\ All strict_stmt b
  | SIf c a b => strict_guard c /\ All strict_stmt a /\ All strict_stmt b
  | SWhile c b => strict_guard c /\ All strict_stmt b
  | SAnn n args s =>
      strict_stmt s /\
      match s_ann S n with Some (Some ps) => strict_args S false ps args | _ => forall a, In a args -> strict S false a = true end
  | SVar _ None | SNegate _ | SValidate _ | SLabel _ => True
  end.
End StrictStmts.

(** The operators of the Heyting algebra that the later passes do not know at type Bool. *)
Definition bool_heyting (e : expr) : bool :=
  match e with EBin TBool (OCoImpl | OCompare | OCoCompare) _ _ => true | _ => false end.

(** Quantifiers over variables that are not declared, and [let]: not for the translation to SMT. *)
Definition free_quant (isvar : ident -> bool) (e : expr) : bool :=
  match e with EQuant _ xs _ => negb (forallb (fun x => isvar (qname x)) xs) | _ => false end.
Definition is_let (e : expr) : bool := match e with ESubst _ _ _ => true | _ => false end.

(** The expressions of a statement that are not inside of a contained statement. *)
Definition own_exprs (st : stmt) : list expr :=
  match st with
  | SVar _ (Some e) | SAssign _ e | SAssert _ e | SAssume _ e | SCompare _ e | STick e | SWeigh e | SIf e _ _ | SWhile e _ => [e]
  | _ => []
  end.
Definition no_bool_heyting (st : stmt) : Prop := forall e, In e (own_exprs st) -> some bool_heyting e = false.
(** Procedures that are called are distributions, with parameters in the documented range. *)
Definition calls_distributions (S : sigs) (isd : string -> bool) (st : stmt) : Prop :=
  match st with
  | SVar x (Some (ECall _ f args)) | SAssign [x] (ECall _ f args) =>
      match s_call S f with Some (CProc _ _) => isd f = true /\ dist_in_range f args (ity x) | _ => True end
  | SAssign _ (ECall _ f _) => match s_call S f with Some (CProc _ _) => False | _ => True end
  | _ => True
  end.
(** No statement writes an input. *)
Definition writes_only (P : ident -> Prop) (st : stmt) : Prop :=
  match st with SAssign xs _ | SHavoc _ xs => forall x, In x xs -> P x | _ => True end.

(** * Declarations *)
Section Decls.
Variable S : sigs.
(** Specifications ([true]: preconditions) are of type EUReal. *)
Definition types_proc (specs : list (bool * rexpr)) (body : option (list rstmt)) : Prop :=
  Forall (fun s => fits_ty S (fst s) false (snd s) TEUReal) specs /\
  match body with Some b => types_block S b | None => True end.
Definition types_func (out : ty) (body : option rexpr) : Prop :=
  match body with Some e => fits_ty S false false e out | None => True end.
Definition types_axiom (e : rexpr) : Prop := types S false false e (One TBool).
Definition parsed_proc (specs : list (bool * rexpr)) (body : option (list rstmt)) : bool :=
  forallb (fun s => parsed (snd s)) specs && match body with Some b => forallb sparsed b | None => true end.
End Decls.
