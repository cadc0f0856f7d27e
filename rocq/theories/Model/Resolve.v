(** Model of src/front/resolve.rs: name resolution inside of a procedure or function body.
    Before resolution an identifier carries the span of its occurrence; resolution replaces it by the identifier of the
    declaration it refers to.  Not here but in ResolveDecls.v: names of functions and annotations (global in our syntax), types, domains;
    annotation arguments are resolved like expressions in the scope of the annotation. *)
From Coq Require Import Bool List String.
From Verif.Model Require Import Syntax TyCtx ScopeMap.
Import ListNotations.
Local Open Scope string_scope.

(** resolve.rs 18-21 *)
Record rstate := mkrs { rmap : smap string ident; rtcx : tyctx }.

(** 44-61.  [is_var]: labels are declared too.  Globals are recorded in another table, not modelled. *)
Definition rdeclare (x : ident) (is_var : bool) (r : rstate) : res rstate :=
  let? (m, prev) := sm_insert String.eqb (iname x) x (rmap r) in
  match prev with
  | Some y => if same_id y x then Ok (mkrs m (rtcx r)) else Err "AlreadyDefined"
  | None => let? T := declare (rtcx r) x is_var in Ok (mkrs m T)
  end.

(** 36-41: the scope is popped also if the closure fails; the failure is passed on. *)
Definition with_subscope {A} (f : rstate -> res (A * rstate)) (r : rstate) : res (A * rstate) :=
  let (m, parent) := sm_push (rmap r) in
  let? (a, r1) := f (mkrs m (rtcx r)) in
  let? m' := sm_pop (rmap r1) parent in
  Ok (a, mkrs m' (rtcx r1)).

(** 295-302 *)
Definition rident (x : ident) (r : rstate) : res ident :=
  match sm_get String.eqb (iname x) (rmap r) with Some y => Ok y | None => Err "NotFound" end.
Fixpoint ridents (xs : list ident) (r : rstate) : res (list ident) :=
  match xs with [] => Ok [] | x :: xs' => let? y := rident x r in let? ys := ridents xs' r in Ok (y :: ys) end.

(** visit.rs 193-203: quantified variables, one after the other *)
Fixpoint rqvars (xs : list qvar) (r : rstate) : res (list qvar * rstate) :=
  match xs with
  | [] => Ok ([], r)
  | QShadow x :: xs' => let? y := rident x r in let? (ys, r1) := rqvars xs' r in Ok (QShadow y :: ys, r1)
  | QFresh x :: xs' => let? r1 := rdeclare x true r in let? (ys, r2) := rqvars xs' r1 in Ok (QFresh x :: ys, r2)
  end.

(** 273-293 with visit.rs 173-213 *)
Fixpoint rexpr (e : expr) (r : rstate) {struct e} : res (expr * rstate) :=
  match e with
  | EVar x => let? y := rident x r in Ok (EVar y, r)
  | ELit t l => Ok (ELit t l, r)
  | ECall t f args =>
      let? (args', r1) := (fix go l r := match l with
                           | [] => Ok ([], r)
                           | a :: l' => let? (a', r1) := rexpr a r in let? (l'', r2) := go l' r1 in Ok (a' :: l'', r2)
                           end) args r in
      Ok (ECall t f args', r1)
  | EIte t c a b =>
      let? (c', r1) := rexpr c r in let? (a', r2) := rexpr a r1 in let? (b', r3) := rexpr b r2 in Ok (EIte t c' a' b', r3)
  | EBin t op a b => let? (a', r1) := rexpr a r in let? (b', r2) := rexpr b r1 in Ok (EBin t op a' b', r2)
  | EUn t op a => let? (a', r1) := rexpr a r in Ok (EUn t op a', r1)
  | ECast t a => let? (a', r1) := rexpr a r in Ok (ECast t a', r1)
  | EQuant op xs a =>
      with_subscope (fun r => let? (xs', r1) := rqvars xs r in let? (a', r2) := rexpr a r1 in Ok (EQuant op xs' a', r2)) r
  | ESubst x v a =>
      let? (v', r1) := rexpr v r in
      with_subscope (fun r => let? r2 := rdeclare x true r in let? (a', r3) := rexpr a r2 in Ok (ESubst x v' a', r3)) r1
  end.
Fixpoint rexprs (l : list expr) (r : rstate) : res (list expr * rstate) :=
  match l with
  | [] => Ok ([], r)
  | a :: l' => let? (a', r1) := rexpr a r in let? (l'', r2) := rexprs l' r1 in Ok (a' :: l'', r2)
  end.

(** 194-241 (a label is declared in the name space of variables, 238) with visit.rs 224-291, and visit_var_decl (107-118) *)
Fixpoint rstmt (s : stmt) (r : rstate) {struct s} : res (stmt * rstate) :=
  let block := fix block (b : list stmt) (r : rstate) {struct b} : res (list stmt * rstate) :=
    match b with
    | [] => Ok ([], r)
    | s :: b' => let? (s', r1) := rstmt s r in let? (b'', r2) := block b' r1 in Ok (s' :: b'', r2)
    end in
  let one (mk : expr -> stmt) e := let? (e', r1) := rexpr e r in Ok (mk e', r1) in
  let two (mk : list stmt -> list stmt -> stmt) b1 b2 r :=
    let? (b1', r1) := with_subscope (block b1) r in let? (b2', r2) := with_subscope (block b2) r1 in Ok (mk b1' b2', r2) in
  match s with
  | SSeq b => let? (b', r1) := with_subscope (block b) r in Ok (SSeq b', r1)
  | SVar x None => let? r1 := rdeclare x true r in Ok (SVar x None, r1)
  | SVar x (Some e) => let? (e', r1) := rexpr e r in let? r2 := rdeclare x true r1 in Ok (SVar x (Some e'), r2)
  | SAssign xs e => let? ys := ridents xs r in let? (e', r1) := rexpr e r in Ok (SAssign ys e', r1)
  | SHavoc d xs => let? ys := ridents xs r in Ok (SHavoc d ys, r)
  | SAssert d e => one (SAssert d) e
  | SAssume d e => one (SAssume d) e
  | SCompare d e => one (SCompare d) e
  | STick e => one STick e
  | SWeigh e => one SWeigh e
  | SNegate d => Ok (SNegate d, r)
  | SValidate d => Ok (SValidate d, r)
  | SDemonic b1 b2 => two SDemonic b1 b2 r
  | SAngelic b1 b2 => two SAngelic b1 b2 r
  | SAdditive b1 b2 => two SAdditive b1 b2 r
  | SIf c b1 b2 => let? (c', r1) := rexpr c r in two (SIf c') b1 b2 r1
  | SWhile c b => let? (c', r1) := rexpr c r in let? (b', r2) := with_subscope (block b) r1 in Ok (SWhile c' b', r2)
  | SAnn n args s' =>
      let? (args', r1) := rexprs args r in let? (s'', r2) := with_subscope (rstmt s') r1 in Ok (SAnn n args' s'', r2)
  | SLabel x => let? r1 := rdeclare x false r in Ok (SLabel x, r1)
  end.
Fixpoint rblock (b : list stmt) (r : rstate) : res (list stmt * rstate) :=
  match b with
  | [] => Ok ([], r)
  | s :: b' => let? (s', r1) := rstmt s r in let? (b'', r2) := rblock b' r1 in Ok (s' :: b'', r2)
  end.
