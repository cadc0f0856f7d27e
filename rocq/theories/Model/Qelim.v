(** Quantifier elimination: src/opt/qelim.rs.  [span] is the span given to the cloned variables
    (the quantifier's span with the variant Qelim, 126; spans of quantifiers are not in our AST,
    so [qspan] is an arbitrary function giving it). *)
From Coq Require Import Bool List String.
From Verif.Model Require Import Syntax Builder Lits TyCtx.
Import ListNotations.

(** 145-171 *)
Fixpoint is_finite (e : expr) : bool :=
  match ty_of e with
  | TUInt | TUReal => true
  | _ =>
    match e with
    | EBin _ (OAdd | OMul | OSup) a b => is_finite a && is_finite b
    | EBin _ OInf a b => is_finite a || is_finite b
    | EBin _ OSub a _ => is_finite a
    | EUn _ OIverson _ => true
    | EUn _ OParens a => is_finite a
    | ECast _ a => is_finite a
    | ELit _ (LUInt _ | LFrac _) => true
    | _ => false
    end
  end.

(** 127-134: only the Shadow variables *)
Definition shadows (xs : list qvar) : list ident :=
  flat_map (fun v => match v with QShadow x => [x] | QFresh _ => [] end) xs.

(** 124-142 with ExprBuilder::subst_by (ast/expr.rs 540-561): one clone per variable, in order, the last substitution outermost *)
Fixpoint elim_quant (span : nat) (T : tyctx) (xs : list ident) (e : expr) : res (expr * tyctx) :=
  match xs with
  | [] => Ok (e, T)
  | x :: xs' =>
      let? (y, T1) := clone_var T x span in
      elim_quant span T1 xs' (ESubst x (EVar y) e)
  end.

Section Q.
Variable qspan : expr -> nat.

Fixpoint qelim_inf (T : tyctx) (e : expr) {struct e} : res (expr * tyctx) := (* 30-75 *)
  if negb (lattice (ty_of e)) then Ok (e, T) else
  match e with
  | EVar _ | ECall _ _ _ | ELit _ _ => Ok (e, T)
  | EIte t c a b =>
      let? (a', T1) := qelim_inf T a in
      let? (b', T2) := qelim_inf T1 b in Ok (EIte t c a' b', T2)
  | EBin t op a b =>
      match op with
      | OAdd | OAnd | OOr | OInf | OSup =>
          let? (a', T1) := qelim_inf T a in
          let? (b', T2) := qelim_inf T1 b in Ok (EBin t op a' b', T2)
      | OMul =>
          if is_finite a then let? (b', T1) := qelim_inf T b in Ok (EBin t op a b', T1)
          else if is_finite b then let? (a', T1) := qelim_inf T a in Ok (EBin t op a' b, T1)
          else Ok (e, T)
      | OImpl | OCompare =>
          let? (a', T1) := qelim_sup T a in
          let? (b', T2) := qelim_inf T1 b in Ok (EBin t op a' b', T2)
      | _ => Ok (e, T)
      end
  | EUn t op a =>
      match op with
      | ONot => let? (a', T1) := qelim_sup T a in Ok (EUn t op a', T1)
      | OParens => let? (a', T1) := qelim_inf T a in Ok (EUn t op a', T1)
      | _ => Ok (e, T)
      end
  | ECast t a => let? (a', T1) := qelim_inf T a in Ok (ECast t a', T1)
  | EQuant op xs a =>
      match op with
      | QInf | QForall =>
          let? (a', T1) := qelim_inf T a in elim_quant (qspan e) T1 (shadows xs) a'
      | _ => Ok (e, T)
      end
  | ESubst _ _ _ => Panic "cannot handle subst"
  end
with qelim_sup (T : tyctx) (e : expr) {struct e} : res (expr * tyctx) := (* 77-122 *)
  if negb (lattice (ty_of e)) then Ok (e, T) else
  match e with
  | EVar _ | ECall _ _ _ | ELit _ _ => Ok (e, T)
  | EIte t c a b =>
      let? (a', T1) := qelim_sup T a in
      let? (b', T2) := qelim_sup T1 b in Ok (EIte t c a' b', T2)
  | EBin t op a b =>
      match op with
      | OAdd | OAnd | OOr | OInf | OSup =>
          let? (a', T1) := qelim_sup T a in
          let? (b', T2) := qelim_sup T1 b in Ok (EBin t op a' b', T2)
      | OMul =>
          if is_finite a then let? (b', T1) := qelim_sup T b in Ok (EBin t op a b', T1)
          else if is_finite b then let? (a', T1) := qelim_sup T a in Ok (EBin t op a' b, T1)
          else Ok (e, T)
      | OCoImpl | OCoCompare =>
          let? (a', T1) := qelim_inf T a in
          let? (b', T2) := qelim_sup T1 b in Ok (EBin t op a' b', T2)
      | _ => Ok (e, T)
      end
  | EUn t op a =>
      match op with
      | ONon => let? (a', T1) := qelim_inf T a in Ok (EUn t op a', T1)
      | OParens => let? (a', T1) := qelim_sup T a in Ok (EUn t op a', T1)
      | _ => Ok (e, T)
      end
  | ECast t a => let? (a', T1) := qelim_sup T a in Ok (ECast t a', T1)
  | EQuant op xs a =>
      match op with
      | QSup | QExists =>
          let? (a', T1) := qelim_sup T a in elim_quant (qspan e) T1 (shadows xs) a'
      | _ => Ok (e, T)
      end
  | ESubst _ _ _ => Panic "cannot handle subst"
  end.

(** 23-28 *)
Definition qelim (d : direction) (T : tyctx) (e : expr) : res (expr * tyctx) :=
  match d with Down => qelim_inf T e | Up => qelim_sup T e end.
End Q.

(** driver/quant_proof.rs 139-157 (into_bool_vc): the question sent to the solver *)
Definition into_bool_vc (d : direction) (e : expr) : res expr :=
  let? top := b_top (ty_of e) in
  Ok (EBin TBool OEq top (match d with Down => e | Up => EUn (ty_of e) ONot e end)).
