(** Verification conditions with explanations: src/vc/explain.rs and the parts of src/vc/vcgen.rs that run only if
    [Vcgen::explanation] is set.  It is set by explain_decl_vc (--explain-vc) and by core_verify.rs 167-169
    (--explain-core-vc); in the latter case the resulting condition is the one that is verified (171-183).  Resource
    limits are not modelled, neither are shrink_to_block and to_strings (display). *)
From Coq Require Import Bool List String NArith.
From Verif.Model Require Import Syntax Builder TyCtx AstUtil Dist VcGen Subst Unfolder Constfold Negations ProofRules Procs.
Import ListNotations.

(** src/ast/diagnostic.rs 231-241; [svariant] numbers the span variants *)
Record span := mkspan { sfile : nat; sstart : nat; send : nat; svariant : nat }.
Definition span_eqb (a b : span) : bool :=
  Nat.eqb (sfile a) (sfile b) && Nat.eqb (sstart a) (sstart b) && Nat.eqb (send a) (send b) && Nat.eqb (svariant a) (svariant b).
Definition ospan_eqb (a b : option span) : bool :=
  match a, b with Some a, Some b => span_eqb a b | None, None => true | _, _ => false end.

(** Statements with their spans (src/ast/stmt.rs: Stmt = Spanned<StmtKind>, Block = Spanned<Vec<Stmt>>).  [XAtom] is
    for the kinds that contain no statement. *)
Inductive choice := CDemonic | CAngelic | CAdditive.
Inductive xstmt :=
| XAtom   (sp : span) (s : stmt)
| XSeq    (sp : span) (b : list xstmt)
| XChoice (sp : span) (c : choice) (sp1 : span) (b1 : list xstmt) (sp2 : span) (b2 : list xstmt)
| XIf     (sp : span) (c : expr) (sp1 : span) (b1 : list xstmt) (sp2 : span) (b2 : list xstmt)
| XWhile  (sp : span) (c : expr) (sp1 : span) (b : list xstmt)
| XAnn    (sp : span) (name : string) (args : list expr) (s : xstmt).

(** The statement without spans *)
Fixpoint erase (s : xstmt) : stmt :=
  match s with
  | XAtom _ s => s
  | XSeq _ b => SSeq (map erase b)
  | XChoice _ CDemonic _ a _ b => SDemonic (map erase a) (map erase b)
  | XChoice _ CAngelic _ a _ b => SAngelic (map erase a) (map erase b)
  | XChoice _ CAdditive _ a _ b => SAdditive (map erase a) (map erase b)
  | XIf _ c _ a _ b => SIf c (map erase a) (map erase b)
  | XWhile _ c _ b => SWhile c (map erase b)
  | XAnn _ n args s => SAnn n args (erase s)
  end.

(** 34-40 (ExprExplanation) *)
Record entry := mkentry { en_span : span; en_self : bool; en_block : option span; en_steps : list expr }.

(** 94-102 (VcExplanation) and the symbol table, which is changed by substitution; entries are kept newest first.
    [x_folds] lists the expressions given to the constant folder, newest first; the code does not keep them. *)
Record xstate := mkx { x_dir : direction; x_entries : list entry; x_block : option span; x_tcx : tyctx; x_folds : list expr }.
Definition set_dir d st := mkx d (x_entries st) (x_block st) (x_tcx st) (x_folds st).
Definition set_entries l st := mkx (x_dir st) l (x_block st) (x_tcx st) (x_folds st).
Definition set_block b st := mkx (x_dir st) (x_entries st) b (x_tcx st) (x_folds st).
Definition set_tcx T st := mkx (x_dir st) (x_entries st) (x_block st) T (x_folds st).
Definition add_fold e st := mkx (x_dir st) (x_entries st) (x_block st) (x_tcx st) (e :: x_folds st).

(** Computations that change the state; the state survives errors. *)
Definition X (A : Type) := xstate -> res A * xstate.
Definition xret {A} (a : A) : X A := fun st => (Ok a, st).
Definition xlift {A} (m : res A) : X A := fun st => (m, st).
Definition xbind {A B} (m : X A) (f : A -> X B) : X B := fun st =>
  match m st with (Ok a, st') => f a st' | (Err e, st') => (Err e, st') | (Panic e, st') => (Panic e, st') end.
(** [let _ = m]: errors are dropped, panics are not *)
Definition xignore {A} (m : X A) : X unit := fun st =>
  match m st with (Panic e, st') => (Panic e, st') | (_, st') => (Ok tt, st') end.
Notation "'let!' x := m 'in' f" := (xbind m (fun x => f)) (at level 200, x name, m at level 100, f at level 200).

(** 114-128 *)
Definition add_expr (sp : span) (e : expr) (self : bool) : X unit := fun st =>
  let new := (Ok tt, set_entries (mkentry sp self (x_block st) [e] :: x_entries st) st) in
  match x_entries st with
  | last :: rest =>
      if span_eqb (en_span last) sp then
        if ospan_eqb (en_block last) (x_block st)
        then (Ok tt, set_entries (mkentry sp (en_self last) (en_block last) (en_steps last ++ [e]) :: rest) st)
        else (Panic "assertion `left == right` failed", st)
      else new
  | [] => new
  end.

(** 339-355 *)
Definition fold_spec (p : proc) (l : list expr) : expr :=
  match l with
  | [] => match pdir p with Down => b_inf | Up => ECast TEUReal (b_uint 0) end
  | e :: l' => fold_left (EBin TEUReal (match pdir p with Down => OInf | Up => OSup end)) l' e
  end.

(** 322-335.  Rust's zip stops at the shorter list. *)
Definition explain_proc_call (p : proc) (args : list expr) : expr :=
  b_subst (fold_spec p (requires p)) (combine (pins p) args).

Section Explain.
(** [C]: kinds of declarations; [procs]: the procedures; [orc n]: the solver used by the [n]-th simplification; [qs]:
    spans of quantifiers *)
Variable C : tcx.
Variable procs : string -> option proc.
Variable orc : nat -> oracle.
Variable qs : expr -> nat.

(** 146-180.  The unfolder and the folder only fail if resource limits are reached. *)
Definition explain_subst (sp : span) (e : expr) : X expr :=
  let! _ := add_expr sp e false in
  fun st => match apply_subst qs (x_tcx st) e with
  | Ok (e1, T1) =>
      (let! _ := add_expr sp e1 false in
       fun st => match unfold_expr (orc (List.length (x_folds st))) qs (x_tcx st) e1 with
       | Ok (e2, (T2, _)) => (constfold e2, add_fold e2 (set_tcx T2 st))
       | Err m => (Err m, st) | Panic m => (Panic m, st)
       end) (set_tcx T1 st)
  | Err m => (Err m, st) | Panic m => (Panic m, st)
  end.

(** vcgen.rs 211-245 *)
Definition xassign (sp : span) (rhs : expr) (lhses : list ident) (post : expr) : X expr :=
  match rhs with
  | ECall _ f args =>
      match C f, procs f with
      | Some DProc, Some p => explain_subst sp (explain_proc_call p args)
      | _, _ => let! e := xlift (generate_assign C rhs lhses post) in explain_subst sp e
      end
  | _ => let! e := xlift (generate_assign C rhs lhses post) in explain_subst sp e
  end.

(** vcgen.rs 128-150: the arms that return early *)
Definition returns_early (d : direction) (post : expr) : bool :=
  match d, post with Down, EBin _ OImpl _ _ | Up, EBin _ OCoImpl _ _ => true | _, _ => false end.

(** vcgen.rs 66-209 for statements without nested statements *)
Definition xatom (sp : span) (s : stmt) (post : expr) : X expr :=
  let done (m : X expr) := let! e := m in let! _ := add_expr sp e false in xret e in
  match s with
  | SVar x (Some e) => done (xassign sp e [x] post)
  | SAssign xs e => done (xassign sp e xs post)
  | SNegate d => done (fun st => match negation_backwards (x_dir st) s with
                                 | Ok d' => (vcgen C s post, set_dir d' st)
                                 | Err m | Panic m => (Err "this statement is not supported in vc generation", st)
                                 end)
  | SValidate d => if returns_early d post then xlift (vcgen C s post) else done (xlift (vcgen C s post))
  | SSeq _ | SDemonic _ _ | SAngelic _ _ | SAdditive _ _ | SIf _ _ _ | SWhile _ _ | SAnn _ _ _ =>
      xlift (Panic "not a statement without nested statements")
  | _ => done (xlift (vcgen C s post))
  end.

(** vcgen.rs 42-57.  [end_span.end - 1] overflows for a dummy span. *)
Definition in_block (sp : span) (post : expr) (m : X expr) : X expr := fun st =>
  let prev := x_block st in
  if Nat.eqb (send sp) 0 then (Panic "attempt to subtract with overflow", set_block (Some sp) st) else
  let (r, st') := (let! _ := add_expr (mkspan (sfile sp) (send sp - 1) (send sp) (svariant sp)) post true in m)
                    (set_block (Some sp) st) in
  (r, match r with Panic _ => st' | _ => set_block prev st' end).

(** explain.rs 301-320 *)
Definition vcgen_unroll (d : direction) (c : expr) (body : list stmt) (post : expr) (k : nat) (t : expr) : res expr :=
  vcgen_block C (encode_unroll c body k (hey_const t d)) post.

(** vcgen.rs 59-209, explain.rs 182-213 and 246-295 *)
Fixpoint xgen (s : xstmt) (post : expr) {struct s} : X expr :=
  let stmts := fix stmts (b : list xstmt) (post : expr) {struct b} : X expr :=
    match b with [] => xret post | s :: b' => let! p := stmts b' post in xgen s p end in
  let block sp b post := in_block sp post (stmts b post) in
  let done sp (m : X expr) := let! e := m in let! _ := add_expr sp e false in xret e in
  match s with
  | XAtom sp s => xatom sp s post
  | XSeq sp b => done sp (stmts b post)
  | XChoice sp c sp1 b1 sp2 b2 =>
      done sp (let! p1 := block sp1 b1 post in let! p2 := block sp2 b2 post in
               xret (EBin TEUReal (match c with CDemonic => OInf | CAngelic => OSup | CAdditive => OAdd end) p1 p2))
  | XIf sp c sp1 b1 sp2 b2 =>
      done sp (let! p1 := block sp1 b1 post in let! p2 := block sp2 b2 post in xret (EIte TEUReal c p1 p2))
  | XWhile _ _ _ _ => xlift (Err "while loops must have a proof rule annotation")
  | XAnn sp a args s' =>
      match C a with
      | Some DSlicingAnn => xgen s' post
      | _ =>
          done sp
            match s' with
            | XWhile _ c spb b =>
                match C a with
                | None => xlift (Panic "called `Option::unwrap()` on a `None` value")
                | Some _ =>
                    if String.eqb a "invariant" then
                      match args with
                      | inv :: _ => let! _ := xignore (block spb b inv) in xret inv
                      | [] => xlift (Panic "index out of bounds")
                      end
                    else if String.eqb a "unroll" then
                      match args with
                      | ke :: t :: _ =>
                          let! k := xlift (lit_u128 ke) in
                          fun st =>
                            let d := x_dir st in
                            (let! _ := match N.to_nat k with
                                       | O => xret tt
                                       | S k' => let! prev := xlift (vcgen_unroll d c (map erase b) post k' t) in
                                                 xignore (block spb b prev)
                                       end in
                             let! e := xlift (vcgen_unroll d c (map erase b) post (N.to_nat k) t) in
                             explain_subst sp e) st
                      | _ => xlift (Panic "index out of bounds")
                      end
                    else xlift (Err "this statement is not supported in vc generation")
                end
            | _ => xlift (Err "this statement is not supported in vc generation")
            end
      end
  end.
Fixpoint xgen_stmts (b : list xstmt) (post : expr) : X expr :=
  match b with [] => xret post | s :: b' => let! p := xgen_stmts b' post in xgen s p end.
Definition xgen_block (sp : span) (b : list xstmt) (post : expr) : X expr := in_block sp post (xgen_stmts b post).

(** 233-244 *)
Definition explain_raw_vc (T : tyctx) (sp : span) (b : list xstmt) (post : expr) (d : direction) : res expr * xstate :=
  xgen_block sp b post (mkx d [] None T []).
(** 218-230, for a procedure with body [b] *)
Definition explain_decl_vc (T : tyctx) (p : proc) (sp : span) (b : list xstmt) : res expr * xstate :=
  explain_raw_vc T sp b (fold_spec p (ensures p)) (pdir p).
End Explain.
