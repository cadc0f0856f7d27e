(** Making statements switchable: src/slicing/transform.rs and the selection builder of src/slicing/selection.rs. *)
From Coq Require Import Bool List String NArith QArith.
From Verif.Model Require Import Syntax Builder VcGen Negations TyCtx Subsets.
Import ListNotations.
Local Open Scope list_scope.

(** selection.rs 19-79 *)
Inductive effect := Concordant | Discordant | Ambiguous.

(** Spans of statements are not modelled.  [SliceStmt::statement] is the place of the statement in the program instead:
    the way to it from the root, last step first; statement [i] of a block at [p] is at [i :: p], the blocks of a
    statement at [p] are at [0 :: p] and [1 :: p], the statement under an annotation at [p] is at [0 :: p]. *)
Definition place := list nat.
(** transform.rs 53-60 *)
Record slice_stmt := mkslice { sl_ident : ident; sl_sel : selection; sl_at : place }.

(** transform.rs 36-43 and 78-83: symbol table, direction and what was made so far.  (The stack of the selection builder is
    a parameter of the functions below: every push is undone by a pop.  Messages are not modelled.) *)
Record slicer := mkslicer { s_tcx : tyctx; s_dir : direction; s_stmts : list slice_stmt; s_constr : list expr }.

(** selection.rs 136-147: what the user selected *)
Record filter := mkfilter { f_sel : selection; f_ticks : bool; f_sampling : bool }.

(** selection.rs 309-330 *)
Definition make_selection (anns : selection) (e : effect) : selection :=
  mksel (match e with Concordant => true | _ => false end) (match e with Discordant => true | _ => false end)
        (in_verify anns) (in_error anns).
(** 292-296 *)
Definition should_slice (F : filter) (anns : selection) (e : effect) : bool := enables (f_sel F) (make_selection anns e).
(** 268-290; [default()] at 255-260.  The assertions on the number of arguments are the type checker's. *)
Definition no_anns : selection := mksel false false false false.
Definition push_annotation (name : string) (anns : selection) : selection :=
  if (name =? "slice_verify")%string then mksel (concordant anns) (discordant anns) true (in_error anns)
  else if (name =? "slice_error")%string then mksel (concordant anns) (discordant anns) (in_verify anns) true
  else anns.

(** transform.rs 98-114 *)
Definition reductive_effect (d : direction) : effect := match d with Down => Discordant | Up => Concordant end.
Definition extensive_effect (d : direction) : effect := match d with Down => Concordant | Up => Discordant end.

(** expr.rs 405-414 (as_eureal), compared with one *)
Definition lit_ge_one (l : lit) : option (bool * bool) :=
  match l with
  | LUInt n => Some (N.leb 1 n, N.leb n 1)
  | LFrac q => Some (Qle_bool 1 q, Qle_bool q 1)
  | LInf => Some (true, false)
  | LBool _ => None
  end.
(** transform.rs 296-305 *)
Definition weigh_effect (d : direction) (e : expr) : effect :=
  match e with
  | ELit _ l => match lit_ge_one l with
                | Some (true, _) => extensive_effect d
                | Some (_, true) => reductive_effect d
                | _ => Ambiguous
                end
  | _ => Ambiguous
  end.

(** 452-466: whether a declaration is a procedure (decl.rs 142-144); an unknown name is an [unwrap] of [None]. *)
Definition is_pure_expr (C : tcx) (e : expr) : res bool :=
  match e with
  | ECall _ f _ => match C f with
                   | None => Panic "called Option::unwrap() on a None value"
                   | Some DProc | Some DProcIntrin => Ok false
                   | Some _ => Ok true
                   end
  | _ => Ok true
  end.

Section Visitor.
Variable C : tcx.
Variable F : filter.
(** The span (variant Slicing) of the statement or branch at a place. *)
Variable span_at : place -> nat.

(** 118-146 *)
Definition add_slice_stmt (anns : selection) (S : slicer) (p : place) (e : effect) : res (expr * slicer) :=
  let? (y, T1) := fresh_ident (s_tcx S) (mkid "slice_toggle" 0 TBool) (span_at p) in
  let? T2 := declare T1 y true in
  Ok (EVar y, mkslicer T2 (s_dir S) (s_stmts S ++ [mkslice y (make_selection anns e) p]) (s_constr S)).

(** 153-164 *)
Definition mk_top_toggle (e : expr) (d : direction) (t : expr) : res expr :=
  let? u := match d with Down => b_top (ty_of e) | Up => b_bot (ty_of e) end in
  Ok (EIte (ty_of e) t e u).

(** 318-341 and 377-400: the statement that closes a branch whose toggle is off; spec_ty is EUReal (tyctx.rs 40-49) *)
Definition branch_guard (lattice_stmt : direction -> expr -> stmt) (d : direction) (t : expr) : res stmt :=
  let? top := b_top TEUReal in
  let? bot := b_bot TEUReal in
  Ok (lattice_stmt d (match d with Down => EIte TEUReal t top bot | Up => EIte TEUReal t bot top end)).
Definition demonic_guard (d : direction) (t : expr) : res stmt :=
  branch_guard (fun d e => match d with Down => SAssume Down e | Up => SAssert Up e end) d t.
Definition angelic_guard (d : direction) (t : expr) : res stmt :=
  branch_guard (fun d e => match d with Down => SAssert Down e | Up => SAssume Up e end) d t.

(** 309-366, 367-424: both choices differ only in effect and guard *)
Definition slice_choice (anns : selection) (S : slicer) (p : place) (e : effect) (guard : direction -> expr -> res stmt)
    (a b : list stmt) : res (list stmt * list stmt * slicer) :=
  let? (t1, S1) := add_slice_stmt anns S (0%nat :: p) e in
  let? (t2, S2) := add_slice_stmt anns S1 (1%nat :: p) e in
  let S3 := mkslicer (s_tcx S2) (s_dir S2) (s_stmts S2) (s_constr S2 ++ [EBin TBool OOr t1 t2]) in
  let? g1 := guard (s_dir S) t1 in
  let? g2 := guard (s_dir S) t2 in
  Ok (g1 :: a, g2 :: b, S3).

(** 239-449: the second half of visit_stmt.  The Boolean tells that no DirectionError occurred. *)
Definition transform (anns : selection) (p : place) (st : stmt) (S : slicer) : res (stmt * slicer * bool) :=
  let done st S := Ok (st, S, true) in
  match st with
  | SAssign [x] rhs =>
      if should_slice F anns Ambiguous then
        let? pure := is_pure_expr C rhs in
        if pure then
          let? (t, S1) := add_slice_stmt anns S p Ambiguous in
          done (SAssign [x] (EIte (ty_of rhs) t rhs (EVar x))) S1
        else if f_sampling F then
          let? (t, S1) := add_slice_stmt anns S p Ambiguous in
          done (SIf t [st] []) S1
        else done st S
      else done st S
  | SAssume d e =>
      let eff := if dir_eqb (s_dir S) d then Concordant else Discordant in
      if should_slice F anns eff then
        let? (t, S1) := add_slice_stmt anns S p eff in
        let? e' := mk_top_toggle e d t in
        done (SAssume d e') S1
      else done st S
  | SAssert d e =>
      let eff := if dir_eqb (s_dir S) d then Discordant else Concordant in
      if should_slice F anns eff then
        let? (t, S1) := add_slice_stmt anns S p eff in
        let? e' := mk_top_toggle e d t in
        done (SAssert d e') S1
      else done st S
  | STick e =>
      let eff := extensive_effect (s_dir S) in
      if f_ticks F && should_slice F anns eff then
        let? (t, S1) := add_slice_stmt anns S p eff in
        let? e' := mk_top_toggle e Up t in
        done (STick e') S1
      else done st S
  | SWeigh e =>
      let eff := weigh_effect (s_dir S) e in
      if f_ticks F && should_slice F anns eff then
        let? (t, S1) := add_slice_stmt anns S p eff in
        let? one := b_one (ty_of e) in
        done (SWeigh (EIte (ty_of e) t e one)) S1
      else done st S
  | SDemonic a b =>
      let eff := reductive_effect (s_dir S) in
      if should_slice F anns eff then
        let? (ab, S1) := slice_choice anns S p eff demonic_guard a b in
        done (SDemonic (fst ab) (snd ab)) S1
      else done st S
  | SAngelic a b =>
      let eff := extensive_effect (s_dir S) in
      if should_slice F anns eff then
        let? (ab, S1) := slice_choice anns S p eff angelic_guard a b in
        done (SAngelic (fst ab) (snd ab)) S1
      else done st S
  | SNegate _ =>
      match negation_forwards (s_dir S) st with
      | Ok d => done st (mkslicer (s_tcx S) d (s_stmts S) (s_constr S))
      | _ => Ok (st, S, false)
      end
  | _ => done st S
  end.

(** 214-449, visit.rs 224-291.  Expressions are not changed by the visitor.  On an error the rest is left as it is. *)
Fixpoint slice_visit (anns : selection) (p : place) (st : stmt) (S : slicer) {struct st} : res (stmt * slicer * bool) :=
  let block := fix block (q : place) (i : nat) (b : list stmt) (S : slicer) {struct b} : res (list stmt * slicer * bool) :=
    match b with
    | [] => Ok ([], S, true)
    | s :: b' =>
        let? (r, ok) := slice_visit anns (i :: q) s S in
        if ok then
          let? (r', ok') := block q (Datatypes.S i) b' (snd r) in
          Ok (fst r :: fst r', snd r', ok')
        else Ok (fst r :: b', snd r, false)
    end in
  let one mk a :=
    let? (r, ok) := block (0%nat :: p) 0%nat a S in
    let st' := mk (fst r) in
    if ok then transform anns p st' (snd r) else Ok (st', snd r, false) in
  let two mk a b :=
    let? (r1, ok1) := block (0%nat :: p) 0%nat a S in
    if ok1 then
      let? (r2, ok2) := block (1%nat :: p) 0%nat b (snd r1) in
      let st' := mk (fst r1) (fst r2) in
      if ok2 then transform anns p st' (snd r2) else Ok (st', snd r2, false)
    else Ok (mk (fst r1) b, snd r1, false) in
  match st with
  | SAnn name args s =>
      match C name with
      | None => Panic "called Option::unwrap() on a None value"
      | Some DSlicingAnn => slice_visit (push_annotation name anns) (0%nat :: p) s S
      | Some _ =>
          let? (r, ok) := slice_visit anns (0%nat :: p) s S in
          Ok (SAnn name args (fst r), snd r, ok)
      end
  | SSeq b => one SSeq b
  | SWhile c b => one (SWhile c) b
  | SDemonic a b => two SDemonic a b
  | SAngelic a b => two SAngelic a b
  | SAdditive a b => two SAdditive a b
  | SIf c a b => two (SIf c) a b
  | _ => transform anns p st S
  end.
Fixpoint slice_block (anns : selection) (q : place) (i : nat) (b : list stmt) (S : slicer) : res (list stmt * slicer * bool) :=
  match b with
  | [] => Ok ([], S, true)
  | s :: b' =>
      let? (r, ok) := slice_visit anns (i :: q) s S in
      if ok then
        let? (r', ok') := slice_block anns q (Datatypes.S i) b' (snd r) in
        Ok (fst r :: fst r', snd r', ok')
      else Ok (fst r :: b', snd r, false)
  end.

(** core_verify.rs 129-150: a DirectionError is reported as an advice, and the block as it is now is used.  The sorting of
    the slice statements by span in [finish] (166-170) is left out. *)
Definition prepare_slicing (T : tyctx) (d : direction) (b : list stmt) : res (list stmt * slicer) :=
  let? (r, _) := slice_block no_anns [] 0%nat b (mkslicer T d [] []) in Ok r.
End Visitor.

(** core_verify.rs 136-144 *)
Definition slice_filter (no_slice_error slice_verify slice_ticks slice_sampling : bool) : filter :=
  mkfilter (mksel slice_verify (negb no_slice_error) slice_verify (negb no_slice_error)) slice_ticks slice_sampling.
