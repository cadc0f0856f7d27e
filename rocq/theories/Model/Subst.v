(** Strict elimination of substitutions: src/vc/subst.rs. *)
From Coq Require Import Bool List String.
From Verif.Model Require Import Syntax TyCtx AstUtil.
Import ListNotations.

(** subst.rs 25-29.  HashMap as an association list, most recent first. *)
Record frame := mkframe { substs : list (ident * expr); free_vars : list ident }.
Definition empty_frame : frame := mkframe [] [].

Fixpoint lookup (l : list (ident * expr)) (x : ident) : option expr :=
  match l with [] => None | (y, e) :: l' => if ident_eqb y x then Some e else lookup l' x end.
Definition remove_key (l : list (ident * expr)) (x : ident) : list (ident * expr) :=
  filter (fun p => negb (ident_eqb (fst p) x)) l.

(** subst.rs 51-57; the stack push/pop around it is the recursion's own stack. *)
Definition push_subst (fr : frame) (x : ident) (e : expr) : res frame :=
  let? vs := free_variables e in
  Ok (mkframe ((x, e) :: remove_key (substs fr) x) (fold_right insert (free_vars fr) vs)).

(** subst.rs 65-93, one round per quantified variable. *)
Fixpoint push_quant (span : nat) (T : tyctx) (fr : frame) (xs : list qvar) : res (list qvar * frame * tyctx) :=
  match xs with
  | [] => Ok ([], fr, T)
  | v :: xs' =>
      let x := qname v in
      let s1 := remove_key (substs fr) x in
      if mem x (free_vars fr) then
        let? (y, T1) := clone_var T x span in
        let? (vs, fr', T') := push_quant span T1 (mkframe ((x, EVar y) :: s1) (free_vars fr)) xs' in
        Ok (QShadow y :: vs, fr', T')
      else
        let? (vs, fr', T') := push_quant span T (mkframe s1 (free_vars fr)) xs' in
        Ok (v :: vs, fr', T')
  end.

(** subst.rs 109-136.  Resource limits are not modelled.  The source span of a
    quantifier is not in our AST: [qspan] is an arbitrary function giving it.
    Trigger annotations of quantifiers are not in the AST. *)
Fixpoint visit (qspan : expr -> nat) (T : tyctx) (fr : frame) (e : expr) {struct e} : res (expr * tyctx) :=
  match e with
  | EVar x => match lookup (substs fr) x with Some r => Ok (r, T) | None => Ok (e, T) end
  | EQuant op xs b =>
      let? (xs', fr', T1) := push_quant (qspan e) T fr xs in
      let? (b', T2) := visit qspan T1 fr' b in
      Ok (EQuant op xs' b', T2)
  | ESubst x by_ b =>
      let? (by', T1) := visit qspan T fr by_ in
      let? fr' := push_subst fr x by' in
      let? (b', T2) := visit qspan T1 fr' b in
      Ok (b', T2)
  | ECall t f args =>
      let? (args', T') :=
        (fix go T l := match l with
                       | [] => Ok ([], T)
                       | a :: l' => let? (a', T1) := visit qspan T fr a in
                                    let? (r, T2) := go T1 l' in Ok (a' :: r, T2)
                       end) T args in
      Ok (ECall t f args', T')
  | EIte t c a b =>
      let? (c', T1) := visit qspan T fr c in
      let? (a', T2) := visit qspan T1 fr a in
      let? (b', T3) := visit qspan T2 fr b in Ok (EIte t c' a' b', T3)
  | EBin t op a b =>
      let? (a', T1) := visit qspan T fr a in
      let? (b', T2) := visit qspan T1 fr b in Ok (EBin t op a' b', T2)
  | EUn t op a => let? (a', T1) := visit qspan T fr a in Ok (EUn t op a', T1)
  | ECast t a => let? (a', T1) := visit qspan T fr a in Ok (ECast t a', T1)
  | ELit _ _ => Ok (e, T)
  end.

Fixpoint visit_all (qspan : expr -> nat) (T : tyctx) (fr : frame) (l : list expr) : res (list expr * tyctx) :=
  match l with
  | [] => Ok ([], T)
  | a :: l' => let? (a', T1) := visit qspan T fr a in
               let? (r, T2) := visit_all qspan T1 fr l' in Ok (a' :: r, T2)
  end.

(** subst.rs 145-148 *)
Definition apply_subst (qspan : expr -> nat) (T : tyctx) (e : expr) : res (expr * tyctx) :=
  visit qspan T empty_frame e.
