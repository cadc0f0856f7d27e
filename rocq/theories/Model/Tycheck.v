(** Model of src/front/tycheck.rs: the type checker.
    Before it runs no expression has a type; it fills in the type of every node and inserts casts.  Expressions therefore
    carry an optional type here.  Simplifications: types are those of Model/Syntax.v and tuples of them; the callable
    functions of lists and triggers of quantifiers are left out; every identifier carries its declared type.  The identifier
    of a [let] gets the type of its value during the check (583-590): here it carries that type from the start, and any
    other program is rejected. *)
From Coq Require Import Bool List String ZArith QArith.
From Verif.Model Require Import Syntax.
Import ListNotations.
Local Open Scope string_scope.

(** src/ast/ty.rs 9-36: a procedure returns a tuple. *)
Inductive xty := One (t : ty) | Tup (ts : list ty).
Fixpoint tys_eqb (a b : list ty) : bool :=
  match a, b with [], [] => true | x :: a', y :: b' => ty_eqb x y && tys_eqb a' b' | _, _ => false end.
Definition xty_eqb (a b : xty) : bool :=
  match a, b with One a, One b => ty_eqb a b | Tup a, Tup b => tys_eqb a b | _, _ => false end.

(** src/ast/ty.rs 111-136 (PartialOrd) *)
Definition ty_less (a b : ty) : bool :=
  match a, b with
  | TUInt, (TUReal | TEUReal | TInt | TReal) | TInt, TReal | TUReal, (TReal | TEUReal) => true
  | _, _ => false
  end.
Definition xty_cmp (a b : xty) : option comparison :=
  if xty_eqb a b then Some Eq else
  match a, b with
  | One a, One b => if ty_less a b then Some Lt else if ty_less b a then Some Gt else None
  | _, _ => None
  end.

(** src/ast/expr.rs 24-70 (ExprData with its optional type, ExprKind) *)
Inductive rexpr :=
| RVar   (o : option xty) (x : ident)
| RCall  (o : option xty) (f : string) (args : list rexpr)
| RIte   (o : option xty) (c a b : rexpr)
| RBin   (o : option xty) (op : binop) (a b : rexpr)
| RUn    (o : option xty) (op : unop) (a : rexpr)
| RCast  (o : option xty) (a : rexpr)
| RQuant (o : option xty) (op : quantop) (xs : list qvar) (e : rexpr)
| RSubst (o : option xty) (x : ident) (by_ e : rexpr)
| RLit   (o : option xty) (l : lit).
Definition rty (e : rexpr) : option xty :=
  match e with
  | RVar o _ | RCall o _ _ | RIte o _ _ _ | RBin o _ _ _ | RUn o _ _ | RCast o _ | RQuant o _ _ _ | RSubst o _ _ _ | RLit o _ => o
  end.

(** src/ast/decl.rs 266-295 *)
Inductive vkind := KInput | KOutput | KMut | KQuant | KSubst | KSlice.
Definition vkind_mutable (k : vkind) : bool := match k with KMut | KOutput => true | _ => false end.
(** src/ast/decl.rs 404-430 (Param): type, literal_only *)
Definition param : Type := ty * bool.
(** src/ast/decl.rs 18-30 (DeclKind), what can be called; distributions are procedures (is_proc, 142) *)
Inductive callee := CProc (ins : list param) (outs : list ty) | CFunc (ins : list param) (out : ty) | COther.
(** The declarations (tyctx.rs 52-57); [s_ann]: annotations, [None] for the calculus annotations. *)
Record sigs := mksigs {
  s_var : ident -> option vkind;
  s_call : string -> option callee;
  s_ann : string -> option (option (list param))
}.

(** 64: expr.ty.as_ref().unwrap() *)
Definition the_ty (e : rexpr) : res xty := match rty e with Some t => Ok t | None => Panic "unwrap on None" end.

(** 43-67 *)
Definition try_cast (target : xty) (e : rexpr) : res rexpr :=
  let? t := the_ty e in
  match xty_cmp target t with
  | Some Eq => Ok e
  | Some Gt => Ok (RCast (Some target) e)
  | _ => Err "CannotCast"
  end.

(** 108-128 *)
Definition try_unify (a b : rexpr) : res (rexpr * rexpr * xty) :=
  let? ta := the_ty a in
  let? tb := the_ty b in
  match xty_cmp ta tb with
  | Some Eq => Ok (a, b, ta)
  | Some Lt => Ok (RCast (Some tb) a, b, tb)
  | Some Gt => Ok (a, RCast (Some ta) b, ta)
  | None => Err "TypeMismatch"
  end.

(** 157-183 *)
Definition is_lit (e : rexpr) : bool := match e with RLit _ _ => true | _ => false end.
Fixpoint check_args (ps : list param) (args : list rexpr) : res (list rexpr) :=
  match ps, args with
  | (t, literal_only) :: ps', a :: args' =>
      if literal_only && negb (is_lit a) then Err "ExpectedKind" else
      let? a' := try_cast (One t) a in
      let? args'' := check_args ps' args' in
      Ok (a' :: args'')
  | _, _ => Ok args
  end.
Definition check_call (ps : list param) (args : list rexpr) : res (list rexpr) :=
  if Nat.eqb (List.length args) (List.length ps) then check_args ps args else Err "ArgumentCountMismatch".

(** 385-408 (op_ty_check) *)
Definition op_check (ok : ty -> bool) (e : rexpr) : res unit :=
  let? t := the_ty e in
  match t with One t => if ok t then Ok tt else Err "WrongOperandType" | Tup _ => Err "WrongOperandType" end.
Definition ops_check (ok : ty -> bool) (a b : rexpr) : res unit :=
  let? _ := op_check ok a in op_check ok b.
Definition is_num (t : ty) : bool := match t with TBool => false | _ => true end.
Definition is_whole (t : ty) : bool := match t with TUInt | TInt => true | _ => false end.
Definition is_bool (t : ty) : bool := ty_eqb t TBool.
Definition is_lat (t : ty) : bool := match t with TBool | TEUReal => true | _ => false end.
Definition is_eur (t : ty) : bool := ty_eqb t TEUReal.

Definition is_ok {A} (m : res A) : bool := match m with Ok _ => true | _ => false end.
Definition ok_or {A} (m : res A) (a : A) : res A := match m with Ok a' => Ok a' | Err _ => Ok a | Panic w => Panic w end.

(** 656-744 *)
Definition check_bin (op : binop) (a b : rexpr) : res (rexpr * rexpr * xty) :=
  match op with
  | OAdd | OMul | OSub | OInf | OSup =>
      let? _ := ops_check is_num a b in try_unify a b
  | ODiv =>
      let r1 := try_cast (One TUReal) a in
      let r2 := try_cast (One TUReal) b in
      let? a1 := ok_or r1 a in
      let? b1 := ok_or r2 b in
      if is_ok r1 && is_ok r2 then Ok (a1, b1, One TUReal) else
      let? a2 := try_cast (One TReal) a1 in
      let? b2 := try_cast (One TReal) b1 in
      Ok (a2, b2, One TReal)
  | OMod => let? _ := ops_check is_whole a b in try_unify a b
  | OAnd | OOr => let? _ := ops_check is_bool a b in Ok (a, b, One TBool)
  | OEq | ONe => let? (a', b', _) := try_unify a b in Ok (a', b', One TBool)
  | OLt | OLe | OGe | OGt =>
      let? _ := ops_check is_num a b in let? (a', b', _) := try_unify a b in Ok (a', b', One TBool)
  | OImpl | OCoImpl | OCompare | OCoCompare =>
      let? _ := ops_check is_lat a b in try_unify a b
  end.

(** 745-762; the type of specifications is EUReal (src/main.rs, TyCtx::new) *)
Definition check_un (op : unop) (a : rexpr) : res (rexpr * xty) :=
  match op with
  | ONot | ONon => let? _ := op_check is_lat a in let? t := the_ty a in Ok (a, t)
  | OEmbed | OIverson => let? a' := try_cast (One TBool) a in Ok (a', One TEUReal)
  | OParens => let? t := the_ty a in Ok (a, t)
  end.

(** src/tyctx.rs 150-158 *)
Definition lit_xty (l : lit) : xty :=
  One match l with LUInt _ => TUInt | LFrac _ => TUReal | LInf => TEUReal | LBool _ => TBool end.

(** 803-807: the type found now must be the one found before, if there is one *)
Definition finish (o : option xty) (t : xty) (mk : option xty -> rexpr) : res rexpr :=
  match o with
  | Some u => if xty_eqb u t then Ok (mk (Some t)) else Panic "assertion failed: types differ"
  | None => Ok (mk (Some t))
  end.

Section Visit.
Variable S : sigs.
(** 17-23: [pre]: checking_pre; [imp]: allow_impure_calls *)
Variable pre : bool.

(** 575-808 with visit.rs 173-213 *)
Fixpoint visit (imp : bool) (e : rexpr) {struct e} : res rexpr :=
  match e with
  | RVar o x =>
      match s_var S x with
      | None => Err "NotDeclared"
      | Some k =>
          if pre && match k with KOutput => true | _ => false end then Err "CannotRead" else
          finish o (One (ity x)) (fun o => RVar o x)
      end
  | RCall o f args =>
      let? args := (fix go l := match l with [] => Ok [] | a :: l' => let? a' := visit false a in let? l'' := go l' in Ok (a' :: l'') end) args in
      match s_call S f with
      | None => Err "NotDeclared"
      | Some (CProc ins outs) =>
          if negb imp then Err "CannotCallImpure" else
          let? args := check_call ins args in finish o (Tup outs) (fun o => RCall o f args)
      | Some (CFunc ins out) => let? args := check_call ins args in finish o (One out) (fun o => RCall o f args)
      | Some COther => Err "ExpectedKind"
      end
  | RIte o c a b =>
      let? c := visit false c in let? a := visit false a in let? b := visit false b in
      let? c := try_cast (One TBool) c in
      let? (a, b, t) := try_unify a b in
      finish o t (fun o => RIte o c a b)
  | RBin o op a b =>
      let? a := visit false a in let? b := visit false b in
      let? (a, b, t) := check_bin op a b in
      finish o t (fun o => RBin o op a b)
  | RUn o op a =>
      let? a := visit false a in
      let? (a, t) := check_un op a in
      finish o t (fun o => RUn o op a)
  | RCast o a =>
      let? a := visit false a in
      let? t := match o with Some t => Ok t | None => the_ty a end in
      finish o t (fun o => RCast o a)
  | RQuant o op xs a =>
      let? a := visit false a in
      let? t := the_ty a in
      let? _ := op_check (match op with QInf | QSup => is_eur | QForall | QExists => is_bool end) a in
      finish o t (fun o => RQuant o op xs a)
  | RSubst o x v a =>
      let? v := visit false v in
      let? tv := the_ty v in
      if negb (xty_eqb tv (One (ity x))) then Err "not the type that is set" else
      let? a := visit false a in
      let? t := the_ty a in
      finish o t (fun o => RSubst o x v a)
  | RLit o l => finish o (lit_xty l) (fun o => RLit o l)
  end.
Fixpoint visits (imp : bool) (l : list rexpr) : res (list rexpr) :=
  match l with [] => Ok [] | a :: l' => let? a' := visit imp a in let? l'' := visits imp l' in Ok (a' :: l'') end.
End Visit.

(** src/ast/stmt.rs 28-66 *)
Inductive rstmt :=
| RSeq      (b : list rstmt)
| RVarDecl  (x : ident) (init : option rexpr)
| RAssign   (xs : list ident) (e : rexpr)
| RHavoc    (d : direction) (xs : list ident)
| RAssert   (d : direction) (e : rexpr)
| RAssume   (d : direction) (e : rexpr)
| RCompare  (d : direction) (e : rexpr)
| RNegate   (d : direction)
| RValidate (d : direction)
| RTick     (e : rexpr)
| RWeigh    (e : rexpr)
| RDemonic  (b1 b2 : list rstmt)
| RAngelic  (b1 b2 : list rstmt)
| RAdditive (b1 b2 : list rstmt)
| RIf       (c : rexpr) (b1 b2 : list rstmt)
| RWhile    (c : rexpr) (b : list rstmt)
| RAnn      (name : string) (args : list rexpr) (s : rstmt)
| RLabel    (x : ident).

Section Stmts.
Variable S : sigs.

(** 416-437: the variable's own declaration is not looked up *)
Definition visit_var_decl (x : ident) (init : option rexpr) : res (option rexpr) :=
  match init with
  | None => Ok None
  | Some e =>
      let? e := visit S false true e in
      let? t := the_ty e in
      match t with
      | Tup [u] => if ty_eqb u (ity x) then Ok (Some e) else let? e := try_cast (One (ity x)) e in Ok (Some e)
      | _ => let? e := try_cast (One (ity x)) e in Ok (Some e)
      end
  end.

(** 69-103: of each left-hand side first the declaration, then mutability, then the type *)
Definition mutable_var (x : ident) : res unit :=
  match s_var S x with
  | None => Err "NotDeclared"
  | Some k => if vkind_mutable k then Ok tt else Err "CannotAssign"
  end.
Fixpoint assign_tuple (xs : list ident) (ts : list ty) : res unit :=
  match xs, ts with
  | x :: xs', t :: ts' =>
      let? _ := mutable_var x in
      if ty_eqb (ity x) t then assign_tuple xs' ts' else Err "TypeMismatch"
  | _, _ => Ok tt
  end.
Definition try_assign_tuple (xs : list ident) (ts : list ty) : res unit :=
  if Nat.eqb (List.length xs) (List.length ts) then assign_tuple xs ts else Err "UnpackMismatch".
(** 528-542 *)
Definition assign_one (xs : list ident) (e : rexpr) : res rexpr :=
  match xs with
  | [x] => let? _ := mutable_var x in try_cast (One (ity x)) e
  | _ => Err "UnpackMismatch"
  end.
(** 497-543 *)
Definition check_assign (xs : list ident) (e : rexpr) : res rexpr :=
  let? t := the_ty e in
  match t with
  | Tup ts =>
      match try_assign_tuple xs ts with
      | Ok _ => Ok e
      | Panic w => Panic w
      | Err w => if Nat.eqb (List.length xs) 1 then assign_one xs e else Err w
      end
  | One _ => assign_one xs e
  end.

Fixpoint check_havoc (xs : list ident) : res unit :=
  match xs with [] => Ok tt | x :: xs' => let? _ := mutable_var x in check_havoc xs' end.

(** 482-573 with visit.rs 224-291.  A declaration is visited twice: 486 and 492. *)
Fixpoint visit_stmt (s : rstmt) {struct s} : res rstmt :=
  let block := fix block (b : list rstmt) : res (list rstmt) :=
    match b with [] => Ok [] | s :: b' => let? s' := visit_stmt s in let? b'' := block b' in Ok (s' :: b'') end in
  let spec (mk : rexpr -> rstmt) e :=
    let? e := visit S false false e in let? e := try_cast (One TEUReal) e in Ok (mk e) in
  let two (mk : list rstmt -> list rstmt -> rstmt) b1 b2 :=
    let? b1 := block b1 in let? b2 := block b2 in Ok (mk b1 b2) in
  match s with
  | RSeq b => let? b := block b in Ok (RSeq b)
  | RVarDecl x init => let? i := visit_var_decl x init in let? i := visit_var_decl x i in Ok (RVarDecl x i)
  | RAssign xs e => let? e := visit S false true e in let? e := check_assign xs e in Ok (RAssign xs e)
  | RHavoc d xs => let? _ := check_havoc xs in Ok (RHavoc d xs)
  | RAssert d e => spec (RAssert d) e
  | RAssume d e => spec (RAssume d) e
  | RCompare d e => spec (RCompare d) e
  | RTick e => spec RTick e
  | RWeigh e => spec RWeigh e
  | RNegate d => Ok (RNegate d)
  | RValidate d => Ok (RValidate d)
  | RDemonic b1 b2 => two RDemonic b1 b2
  | RAngelic b1 b2 => two RAngelic b1 b2
  | RAdditive b1 b2 => two RAdditive b1 b2
  | RIf c b1 b2 =>
      let? c := visit S false false c in
      let? b1 := block b1 in let? b2 := block b2 in
      let? c := try_cast (One TBool) c in Ok (RIf c b1 b2)
  | RWhile c b =>
      let? c := visit S false false c in
      let? b := block b in
      let? c := try_cast (One TBool) c in Ok (RWhile c b)
  | RAnn n args s =>
      let? args := visits S false false args in
      let? s := visit_stmt s in
      match s_ann S n with
      | Some (Some ps) => let? args := check_call ps args in Ok (RAnn n args s)
      | _ => Ok (RAnn n args s)
      end
  | RLabel x => Ok (RLabel x)
  end.
Fixpoint visit_block (b : list rstmt) : res (list rstmt) :=
  match b with [] => Ok [] | s :: b' => let? s' := visit_stmt s in let? b'' := visit_block b' in Ok (s' :: b'') end.

(** 439-463: specifications ([true]: a pre), then the body *)
Fixpoint visit_specs (l : list (bool * rexpr)) : res (list (bool * rexpr)) :=
  match l with
  | [] => Ok []
  | (b, e) :: l' =>
      let? e := visit S b false e in
      let? e := try_cast (One TEUReal) e in
      let? l'' := visit_specs l' in Ok ((b, e) :: l'')
  end.
Definition visit_proc (specs : list (bool * rexpr)) (body : option (list rstmt)) : res (list (bool * rexpr) * option (list rstmt)) :=
  let? specs := visit_specs specs in
  match body with None => Ok (specs, None) | Some b => let? b := visit_block b in Ok (specs, Some b) end.
(** 465-473, 475-480 *)
Definition visit_func (out : ty) (body : option rexpr) : res (option rexpr) :=
  match body with
  | None => Ok None
  | Some e => let? e := visit S false false e in let? e := try_cast (One out) e in Ok (Some e)
  end.
Definition visit_axiom (e : rexpr) : res rexpr :=
  let? e := visit S false false e in try_cast (One TBool) e.
End Stmts.

(** The syntax that the other passes are modelled on.  A call of a procedure carries the type of its only output there, if it
    has exactly one; otherwise the type is not used. *)
Definition call_ty (o : option xty) : option ty :=
  match o with Some (One t) | Some (Tup [t]) => Some t | Some (Tup _) => Some TBool | None => None end.
Definition node_ty (o : option xty) : option ty := match o with Some (One t) => Some t | _ => None end.
Fixpoint tree (e : rexpr) {struct e} : option expr :=
  match e with
  | RVar _ x => Some (EVar x)
  | RCall o f args =>
      let l := (fix go l := match l with
                | [] => Some []
                | a :: l' => match tree a, go l' with Some a', Some l'' => Some (a' :: l'') | _, _ => None end
                end) args in
      match call_ty o, l with Some t, Some args' => Some (ECall t f args') | _, _ => None end
  | RIte o c a b =>
      match node_ty o, tree c, tree a, tree b with Some t, Some c', Some a', Some b' => Some (EIte t c' a' b') | _, _, _, _ => None end
  | RBin o op a b => match node_ty o, tree a, tree b with Some t, Some a', Some b' => Some (EBin t op a' b') | _, _, _ => None end
  | RUn o op a => match node_ty o, tree a with Some t, Some a' => Some (EUn t op a') | _, _ => None end
  | RCast o a => match node_ty o, tree a with Some t, Some a' => Some (ECast t a') | _, _ => None end
  | RQuant _ op xs a => match tree a with Some a' => Some (EQuant op xs a') | None => None end
  | RSubst _ x v a => match tree v, tree a with Some v', Some a' => Some (ESubst x v' a') | _, _ => None end
  | RLit o l => match node_ty o with Some t => Some (ELit t l) | None => None end
  end.
Fixpoint trees (l : list rexpr) : option (list expr) :=
  match l with
  | [] => Some []
  | a :: l' => match tree a, trees l' with Some a', Some l'' => Some (a' :: l'') | _, _ => None end
  end.
Fixpoint stree (s : rstmt) {struct s} : option stmt :=
  let block := fix block (b : list rstmt) : option (list stmt) :=
    match b with [] => Some [] | s :: b' => match stree s, block b' with Some s', Some b'' => Some (s' :: b'') | _, _ => None end end in
  let two (mk : list stmt -> list stmt -> stmt) b1 b2 := match block b1, block b2 with Some b1, Some b2 => Some (mk b1 b2) | _, _ => None end in
  match s with
  | RSeq b => match block b with Some b => Some (SSeq b) | None => None end
  | RVarDecl x None => Some (SVar x None)
  | RVarDecl x (Some e) => option_map (fun e => SVar x (Some e)) (tree e)
  | RAssign xs e => option_map (SAssign xs) (tree e)
  | RHavoc d xs => Some (SHavoc d xs)
  | RAssert d e => option_map (SAssert d) (tree e)
  | RAssume d e => option_map (SAssume d) (tree e)
  | RCompare d e => option_map (SCompare d) (tree e)
  | RNegate d => Some (SNegate d)
  | RValidate d => Some (SValidate d)
  | RTick e => option_map STick (tree e)
  | RWeigh e => option_map SWeigh (tree e)
  | RDemonic b1 b2 => two SDemonic b1 b2
  | RAngelic b1 b2 => two SAngelic b1 b2
  | RAdditive b1 b2 => two SAdditive b1 b2
  | RIf c b1 b2 => match tree c with Some c => two (SIf c) b1 b2 | None => None end
  | RWhile c b => match tree c, block b with Some c, Some b => Some (SWhile c b) | _, _ => None end
  | RAnn n args s => match trees args, stree s with Some l, Some s => Some (SAnn n l s) | _, _ => None end
  | RLabel x => Some (SLabel x)
  end.
Fixpoint btree (b : list rstmt) : option (list stmt) :=
  match b with [] => Some [] | s :: b' => match stree s, btree b' with Some s', Some b'' => Some (s' :: b'') | _, _ => None end end.
