(** Procedures: src/ast/decl.rs 318-365, src/procs/proc_verify.rs, src/procs/spec_call.rs. *)
From Coq Require Import Bool List String.
From Verif.Model Require Import Syntax TyCtx AstUtil.
Import ListNotations.
Local Open Scope string_scope.

(** decl.rs 426-432 *)
Inductive pspec := Requires (e : expr) | Ensures (e : expr).
(** decl.rs 318-331, without span, calculus annotation and the types of parameters (they are part of [ident]). *)
Record proc := mkproc { pdir : direction; pname : string; pins : list ident; pouts : list ident;
                        pspecs : list pspec; pbody : option (list stmt) }.
(** 345-357 *)
Definition requires (p : proc) : list expr := flat_map (fun c => match c with Requires e => [e] | _ => [] end) (pspecs p).
Definition ensures (p : proc) : list expr := flat_map (fun c => match c with Ensures e => [e] | _ => [] end) (pspecs p).

(** slicing/mod.rs 36-61: the message (a string literal) is not modelled. *)
Definition wrap_with_error_message (s : stmt) : stmt := SAnn "error_msg" [] s.
Definition wrap_with_success_message (s : stmt) : stmt := SAnn "success_msg" [] s.

(** proc_verify.rs 28-66 *)
Definition encode_proc_verify (p : proc) : option (direction * list stmt) :=
  match pbody p with
  | None => None
  | Some body => Some (pdir p, map (fun e => wrap_with_success_message (SAssume (pdir p) e)) (requires p) ++ body ++
                               map (fun e => wrap_with_error_message (SAssert (pdir p) e)) (ensures p))
  end%list.

(** proc_verify.rs 74-87: a verification unit is a direction and a block. *)
Definition to_direction_lower_bounds (u : direction * list stmt) : direction * list stmt :=
  match fst u with
  | Up => (Down, SNegate Down :: snd u ++ [SNegate Up])%list
  | Down => u
  end.

(** * spec_call.rs *)

(** 271-279: the last pair ends up outermost. *)
Definition subst_all (e : expr) (ps : list (ident * expr)) : expr :=
  fold_left (fun acc p => ESubst (fst p) (snd p) acc) ps e.

(** 259-269 *)
Definition ident_to_expr (T : tyctx) (x : ident) : res expr :=
  match get T x with
  | Some true => Ok (EVar x)
  | Some false => Panic "not yet implemented"
  | None => Panic "called Option::unwrap() on a None value"
  end.
Fixpoint idents_to_exprs (T : tyctx) (xs : list ident) : res (list expr) :=
  match xs with [] => Ok [] | x :: xs' => let? e := ident_to_expr T x in let? es := idents_to_exprs T xs' in Ok (e :: es) end.

Section SpecCall.
(** [procs]: the declared procedures; a call of another name is not a procedure call.
    [variant]: the span variant SpecCall (a parameter's span is the span of its name here). *)
Variable procs : string -> option proc.
Variable variant : nat -> nat.

Definition temp (x : ident) : ident := mkid ("old_" ++ iname x) (variant (ispan x)) (ity x).

(** 224-257 *)
Definition assign_to_temp (T : tyctx) (x : ident) (value : expr) : res (stmt * expr * tyctx) :=
  let t := temp x in
  match get T t with
  | Some _ => let? e := ident_to_expr T t in Ok (SAssign [t] value, e, T)
  | None => let? T1 := declare T t true in let? e := ident_to_expr T1 t in Ok (SVar t (Some value), e, T1)
  end.

(** 160-184.  Rust's zip stops at the shorter list. *)
Fixpoint stable_inputs (T : tyctx) (vars : list ident) (ins : list ident) (args : list expr)
  : res (list stmt * list (ident * expr) * tyctx) :=
  match ins, args with
  | x :: ins', a :: args' =>
      if mem x vars then
        let? (p, T1) := assign_to_temp T x a in
        let? (q, T2) := stable_inputs T1 vars ins' args' in
        Ok (fst p :: fst q, (x, snd p) :: snd q, T2)
      else
        let? (q, T2) := stable_inputs T vars ins' args' in
        Ok (fst q, (x, a) :: snd q, T2)
  | _, _ => Ok ([], [], T)
  end.

(** 131-218 *)
Definition encode_assign (T : tyctx) (lhses : list ident) (rhs : expr) : res (option (list stmt * tyctx)) :=
  match rhs with
  | ECall _ f args =>
      match procs f with
      | Some p =>
          let d := pdir p in
          let asserts := map (fun e => wrap_with_error_message (SAssert d (subst_all e (combine (pins p) args)))) (requires p) in
          let? vars := collect_all (ensures p) [] in
          let? (q, T1) := stable_inputs T vars (pins p) args in
          let? lhs_exprs := idents_to_exprs T1 lhses in
          let substs := snd q ++ combine (pouts p) lhs_exprs in
          let compares := map (fun e => wrap_with_success_message (SCompare d (subst_all e substs))) (ensures p) in
          Ok (Some (asserts ++ fst q ++ SHavoc d lhses :: compares, T1))
      | None => Ok None
      end
  | _ => Ok None
  end%list.

(** 73-93: only the expression itself is looked at. *)
Definition sc_expr (d : direction) (e : expr) : res unit :=
  match e with
  | ECall _ f _ => match procs f with
                   | Some p => if match d, pdir p with Up, Up | Down, Down => true | _, _ => false end then Ok tt
                               else Err "ProcDirectionMismatch"
                   | None => Ok tt
                   end
  | _ => Ok tt
  end.
Fixpoint sc_exprs (d : direction) (l : list expr) : res unit :=
  match l with [] => Ok tt | e :: l' => let? _ := sc_expr d e in sc_exprs d l' end.

(** 95-127 with visit.rs 224-291 *)
Fixpoint sc_stmt (d : direction) (s : stmt) (T : tyctx) {struct s} : res (stmt * tyctx) :=
  let block := fix block (b : list stmt) (T : tyctx) {struct b} : res (list stmt * tyctx) :=
    match b with
    | [] => Ok ([], T)
    | s :: b' => let? (s', T1) := sc_stmt d s T in let? (b'', T2) := block b' T1 in Ok (s' :: b'', T2)
    end in
  let two (mk : list stmt -> list stmt -> stmt) b1 b2 :=
    let? (b1', T1) := block b1 T in let? (b2', T2) := block b2 T1 in Ok (mk b1' b2', T2) in
  match s with
  | SVar x (Some e) =>
      let? o := encode_assign T [x] e in
      match o with
      | Some (b, T1) => Ok (SSeq (SVar x None :: b), T1)
      | None => let? _ := sc_expr d e in Ok (s, T)
      end
  | SVar x None => Ok (s, T)
  | SAssign xs e =>
      let? _ := sc_expr d e in
      let? o := encode_assign T xs e in
      match o with Some (b, T1) => Ok (SSeq b, T1) | None => let? _ := sc_expr d e in Ok (s, T) end
  | SSeq b => let? (b', T1) := block b T in Ok (SSeq b', T1)
  | SHavoc _ _ | SNegate _ | SValidate _ | SLabel _ => Ok (s, T)
  | SAssert _ e | SAssume _ e | SCompare _ e | STick e | SWeigh e => let? _ := sc_expr d e in Ok (s, T)
  | SDemonic b1 b2 => two SDemonic b1 b2
  | SAngelic b1 b2 => two SAngelic b1 b2
  | SAdditive b1 b2 => two SAdditive b1 b2
  | SIf c b1 b2 => let? _ := sc_expr d c in two (SIf c) b1 b2
  | SWhile c b => let? _ := sc_expr d c in let? (b', T1) := block b T in Ok (SWhile c b', T1)
  | SAnn n args s' => let? _ := sc_exprs d args in let? (s'', T1) := sc_stmt d s' T in Ok (SAnn n args s'', T1)
  end.
Fixpoint sc_block (d : direction) (b : list stmt) (T : tyctx) : res (list stmt * tyctx) :=
  match b with
  | [] => Ok ([], T)
  | s :: b' => let? (s', T1) := sc_stmt d s T in let? (b'', T2) := sc_block d b' T1 in Ok (s' :: b'', T2)
  end.
End SpecCall.
