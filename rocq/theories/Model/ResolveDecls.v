(** Model of src/front/resolve.rs for whole modules: forward declaration of the source units, then resolution of each of
    them (src/driver/front.rs 163-172, 352-372), with all name spaces: procedures, domains and their functions and axioms,
    types, calculi and annotations.
    Bodies are given by what their traversal meets, in order: names, types, declarations, scopes and annotations
    ([item]); Model/Resolve.v models which of these each expression and statement contributes.  An identifier is a name
    with a span (ast/symbol.rs), here with a number for the span; all comparisons are of both. *)
From Coq Require Import Bool List String Arith.
From Verif.Model Require Import Syntax ScopeMap.
Import ListNotations.
Local Open Scope string_scope.

Definition gid := (string * nat)%type.
Definition gname (x : gid) : string := fst x.
Definition gid_eqb (x y : gid) : bool := String.eqb (fst x) (fst y) && Nat.eqb (snd x) (snd y).

(** ast/decl.rs 23-33.  [KCalculus], [KEncoding], [KSlicing]: the three kinds of annotations (intrinsic/annotations.rs). *)
Inductive dkind := KVar | KProc | KDomain | KFunc | KAxiom | KProcIntrin | KFuncIntrin | KLabel
                 | KCalculus | KEncoding | KSlicing.
Definition is_annotation (k : dkind) : bool :=
  match k with KCalculus | KEncoding | KSlicing => true | _ => false end.

(** ast/ty.rs: the types that the resolver tells apart *)
Inductive rty :=
| TUnresolved (x : gid)
| TList (t : rty)
| TSpec                          (** SpecTy *)
| TBuiltin (n : string)          (** a built-in type; [n]: its name *)
| TDomain (x : gid).

(** What the traversal of expressions and statements meets. *)
Inductive item :=
| IUse (x : gid)                                     (** visit_ident: a variable, an assigned variable, a called name *)
| IType (t : rty)                                    (** visit_ty *)
| IDecl (k : dkind) (x : gid)                        (** declare: a local variable, a quantified variable, a label *)
| IExpr (l : list item)                              (** an expression that is not just a variable *)
| IScope (l : list item)                             (** with_subscope *)
| IAnn (x : gid) (args : list item) (inner : list item).  (** an annotated statement *)

(** ast/decl.rs: procedures (calculus: the annotation in front of proc), functions, axioms, domains *)
Record rproc := mkproc { pname : gid; pins : list (gid * rty); pouts : list (gid * rty); pspec : list item;
                         pcalculus : option gid; pbody : option (list item) }.
Record rfunc := mkfunc { fname : gid; fins : list (gid * rty); fout : rty; fbody : option (list item) }.
Inductive ditem := DFunc (f : rfunc) | DAxiom (x : gid) (l : list item).
(** driver/front.rs: SourceUnit; the grammar has procedures and domains at the top (grammar.lalrpop 250-253) *)
Inductive unit := UProc (p : rproc) | UDomain (x : gid) (l : list ditem) | URaw (l : list item).

(** resolve.rs 18-21, with the two tables of tyctx.rs 22-30 that matter *)
Record rds := mkrds { dmap : smap string gid; dtcx : list (gid * dkind); dglobals : list gid }.

(** tyctx.rs 113-115 *)
Fixpoint tcx_get (T : list (gid * dkind)) (x : gid) : option dkind :=
  match T with [] => None | (y, k) :: T' => if gid_eqb x y then Some k else tcx_get T' x end.
(** tyctx.rs 52-57 *)
Definition tcx_declare (T : list (gid * dkind)) (x : gid) (k : dkind) : res (list (gid * dkind)) :=
  match tcx_get T x with Some _ => Panic "already has a previous declaration" | None => Ok (T ++ [(x, k)])%list end.

(** resolve.rs 24-32: the globals of the context are the imports *)
Definition resolver (imports : list (gid * dkind)) : rds :=
  let m := sm_from_iter String.eqb (map (fun d => (gname (fst d), fst d)) imports) in
  mkrds (fst (sm_push m)) imports (map fst imports).

(** 45-61 *)
Definition ddeclare (k : dkind) (x : gid) (r : rds) : res rds :=
  let? (m, prev) := sm_insert String.eqb (gname x) x (dmap r) in
  match prev with
  | Some y => if gid_eqb y x then Ok (mkrds m (dtcx r) (dglobals r)) else Err "AlreadyDefined"
  | None =>
      let g := if Nat.eqb (sm_depth m) 2 then (dglobals r ++ [x])%list else dglobals r in
      let? T := tcx_declare (dtcx r) x k in
      Ok (mkrds m T g)
  end.
(** 36-41 *)
Definition subscope {A} (f : rds -> res (A * rds)) (r : rds) : res (A * rds) :=
  let (m, parent) := sm_push (dmap r) in
  let? (a, r1) := f (mkrds m (dtcx r) (dglobals r)) in
  let? m' := sm_pop (dmap r1) parent in
  Ok (a, mkrds m' (dtcx r1) (dglobals r1)).
(** 63-65 *)
Definition assert_declared (x : gid) (r : rds) : res Datatypes.unit :=
  match sm_get String.eqb (gname x) (dmap r) with
  | Some y => if gid_eqb y x then Ok tt else Panic "assertion failed: left == right"
  | None => Panic "assertion failed: left == right"
  end.
(** 296-303 *)
Definition dident (x : gid) (r : rds) : res gid :=
  match sm_get String.eqb (gname x) (dmap r) with Some y => Ok y | None => Err "NotFound" end.
(** 307-319 *)
Definition builtin_ty (n : string) : option string :=
  if String.eqb n "Bool" then Some "Bool" else if String.eqb n "Int" then Some "Int"
  else if String.eqb n "Uint" then Some "UInt" else if String.eqb n "UInt" then Some "UInt"
  else if String.eqb n "Real" then Some "Real" else if String.eqb n "UReal" then Some "UReal"
  else if String.eqb n "Realplus" then Some "EUReal" else if String.eqb n "EUReal" then Some "EUReal" else None.
(** 246-271; the type of specifications is EUReal (driver/front.rs, init_tcx).  A type that is no domain is a panic (259). *)
Fixpoint dty (t : rty) (r : rds) : res rty :=
  match t with
  | TUnresolved x =>
      match builtin_ty (gname x) with
      | Some b => Ok (TBuiltin b)
      | None =>
          let? y := dident x r in
          match tcx_get (dtcx r) y with
          | Some KDomain => Ok (TDomain y)
          | Some _ => Panic "this is not a type!"
          | None => Ok (TUnresolved y)
          end
      end
  | TList t' => let? t'' := dty t' r in Ok (TList t'')
  | TSpec => Ok (TBuiltin "EUReal")
  | TBuiltin b => Ok (TBuiltin b)
  | TDomain x => Ok (TDomain x)
  end.

(** 224-230 with tyctx.rs 113-115: only annotations are looked at, in all scopes from the innermost *)
Definition find_annotation (n : string) (r : rds) : option (gid * dkind) :=
  sm_find_map String.eqb n
    (fun e => match e with
              | Value y => match tcx_get (dtcx r) y with
                           | Some k => if is_annotation k then Some (y, k) else None
                           | None => None
                           end
              | Deleted => None
              end) (dmap r).

(** What happens to each argument of an annotation: intrinsic/annotations.rs 231-242 (only encodings look at them),
    proof_rules/omega.rs 67-91, mciver_ast.rs 86-113 and ost.rs 83-94 with util.rs 269-275, 285-291; the other encodings
    visit the arguments as expressions. *)
Inductive job := JVisit | JDeclare | JKeep.
Definition arg_jobs (y : gid) (k : dkind) (n : nat) : res (list job) :=
  match k with
  | KEncoding =>
      if String.eqb (gname y) "omega_invariant" then Ok match n with O => [] | S n' => JDeclare :: repeat JVisit n' end
      else if String.eqb (gname y) "ast" then
        if Nat.eqb n 5 then Ok [JVisit; JVisit; JDeclare; JVisit; JVisit]
        else Panic "internal error: entered unreachable code"
      else if String.eqb (gname y) "ost" then
        if Nat.eqb n 4 then Ok (repeat JVisit n) else Panic "internal error: entered unreachable code"
      else Ok (repeat JVisit n)
  | _ => Ok (repeat JKeep n)
  end.

(** visit_stmts, visit_expr, visit_var_decl, visit_stmt: resolve.rs 109-119, 197-244, 273-294 *)
Fixpoint ditem_res (i : item) (r : rds) {struct i} : res (item * rds) :=
  let items := fix items (l : list item) (r : rds) {struct l} : res (list item * rds) :=
    match l with
    | [] => Ok ([], r)
    | i :: l' => let? (i', r1) := ditem_res i r in let? (l'', r2) := items l' r1 in Ok (i' :: l'', r2)
    end in
  let arguments := fix arguments (l : list item) (js : list job) (r : rds) {struct l} : res (list item * rds) :=
    match l, js with
    | a :: l', j :: js' =>
        let? (a', r1) :=
          match j, a with
          | JVisit, _ => ditem_res a r
          | JDeclare, IUse z => let? r1 := ddeclare KVar z r in Ok (IUse z, r1)
          | JDeclare, _ => Err "NotIdent"
          | JKeep, _ => Ok (a, r)
          end in
        let? (l'', r2) := arguments l' js' r1 in
        Ok (a' :: l'', r2)
    | _, _ => Ok ([], r)
    end in
  match i with
  | IUse x => let? y := dident x r in Ok (IUse y, r)
  | IType t => let? t' := dty t r in Ok (IType t', r)
  | IDecl k x => let? r1 := ddeclare k x r in Ok (IDecl k x, r1)
  | IExpr l => let? (l', r1) := items l r in Ok (IExpr l', r1)
  | IScope l => let? (l', r1) := subscope (items l) r in Ok (IScope l', r1)
  | IAnn x args inner =>
      match find_annotation (gname x) r with
      | None => Err "NotFound"
      | Some (y, k) =>
          let? jobs := arg_jobs y k (List.length args) in
          let? (args', r1) := arguments args jobs r in
          let? (inner', r2) := subscope (items inner) r1 in
          Ok (IAnn y args' inner', r2)
      end
  end.
Fixpoint darguments (l : list item) (js : list job) (r : rds) {struct l} : res (list item * rds) :=
  match l, js with
  | a :: l', j :: js' =>
      let? (a', r1) :=
        match j, a with
        | JVisit, _ => ditem_res a r
        | JDeclare, IUse z => let? r1 := ddeclare KVar z r in Ok (IUse z, r1)
        | JDeclare, _ => Err "NotIdent"
        | JKeep, _ => Ok (a, r)
        end in
      let? (l'', r2) := darguments l' js' r1 in
      Ok (a' :: l'', r2)
  | _, _ => Ok ([], r)
  end.
Fixpoint ditems (l : list item) (r : rds) {struct l} : res (list item * rds) :=
  match l with
  | [] => Ok ([], r)
  | i :: l' => let? (i', r1) := ditem_res i r in let? (l'', r2) := ditems l' r1 in Ok (i' :: l'', r2)
  end.

(** 125-134, 180-184 *)
Fixpoint dparams (ps : list (gid * rty)) (r : rds) : res (list (gid * rty) * rds) :=
  match ps with
  | [] => Ok ([], r)
  | (x, t) :: ps' =>
      let? t' := dty t r in
      let? r1 := ddeclare KVar x r in
      let? (ps'', r2) := dparams ps' r1 in
      Ok ((x, t') :: ps'', r2)
  end.
Definition dopt {A B} (f : A -> rds -> res (B * rds)) (o : option A) (r : rds) : res (option B * rds) :=
  match o with None => Ok (None, r) | Some a => let? (b, r1) := f a r in Ok (Some b, r1) end.

(** 121-153 *)
Definition dproc (p : rproc) (r : rds) : res (rproc * rds) :=
  let? _ := assert_declared (pname p) r in
  let? (p', r1) := subscope (fun r =>
    let? (ins, r1) := dparams (pins p) r in
    let? (outs, r2) := dparams (pouts p) r1 in
    let? (spec, r3) := ditems (pspec p) r2 in
    let? (calc, r4) := dopt (fun x r => let? y := dident x r in Ok (y, r)) (pcalculus p) r3 in
    let? (body, r5) := dopt ditems (pbody p) r4 in
    Ok (mkproc (pname p) ins outs spec calc body, r5)) r in
  let? r2 := ddeclare KProc (pname p) r1 in
  Ok (p', r2).
(** 176-195 *)
Definition dfunc (f : rfunc) (r : rds) : res (rfunc * rds) :=
  let? _ := assert_declared (fname f) r in
  let? (f', r1) := subscope (fun r =>
    let? (ins, r1) := dparams (fins f) r in
    let? out := dty (fout f) r1 in
    let? (body, r2) := dopt ditems (fbody f) r1 in
    Ok (mkfunc (fname f) ins out body, r2)) r in
  let? r2 := ddeclare KFunc (fname f) r1 in
  Ok (f', r2).
(** 159-169 *)
Definition ditem_decl (d : ditem) : dkind * gid :=
  match d with DFunc f => (KFunc, fname f) | DAxiom x _ => (KAxiom, x) end.
Fixpoint forward (l : list (dkind * gid)) (r : rds) : res rds :=
  match l with [] => Ok r | (k, x) :: l' => let? r1 := ddeclare k x r in forward l' r1 end.
(** visit.rs 130-143 *)
Fixpoint ddomain_items (l : list ditem) (r : rds) : res (list ditem * rds) :=
  match l with
  | [] => Ok ([], r)
  | DFunc f :: l' =>
      let? (f', r1) := dfunc f r in let? (l'', r2) := ddomain_items l' r1 in Ok (DFunc f' :: l'', r2)
  | DAxiom x e :: l' =>
      let? y := dident x r in
      let? (e', r1) := ditems e r in
      let? (l'', r2) := ddomain_items l' r1 in
      Ok (DAxiom y e' :: l'', r2)
  end.
(** driver/front.rs 365-372 with visit.rs 18-30; domains: resolve.rs 155-174 *)
Definition dunit (u : unit) (r : rds) : res (unit * rds) :=
  match u with
  | UProc p => let? (p', r1) := dproc p r in Ok (UProc p', r1)
  | UDomain x l =>
      let? _ := assert_declared x r in
      let? r1 := forward (map ditem_decl l) r in
      let? y := dident x r1 in
      let? (l', r2) := ddomain_items l r1 in
      Ok (UDomain y l', r2)
  | URaw l => let? (l', r1) := subscope (ditems l) r in Ok (URaw l', r1)
  end.
Fixpoint dunits (us : list unit) (r : rds) : res (list unit * rds) :=
  match us with
  | [] => Ok ([], r)
  | u :: us' => let? (u', r1) := dunit u r in let? (us'', r2) := dunits us' r1 in Ok (u' :: us'', r2)
  end.
(** driver/front.rs 354-361 *)
Definition unit_decl (u : unit) : list (dkind * gid) :=
  match u with UProc p => [(KProc, pname p)] | UDomain x _ => [(KDomain, x)] | URaw _ => [] end.
(** driver/front.rs 163-172 with 81-82 *)
Definition resolve_module (imports : list (gid * dkind)) (us : list unit) : res (list unit * rds) :=
  let? r := forward (flat_map unit_decl us) (resolver imports) in
  dunits us r.

(** proof_rules/mod.rs 402-425: the calculus of a procedure, after resolution *)
Definition proc_calculus (p : rproc) (T : list (gid * dkind)) : res (option gid) :=
  match pcalculus p with
  | None => Ok None
  | Some x => match tcx_get T x with
              | Some KCalculus => Ok (Some x)
              | Some _ => Ok None
              | None => Err "UnknownAnnotation"
              end
  end.
