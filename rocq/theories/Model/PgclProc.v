(** The procedure around a translated pGCL program: pgcl/pgcl2heyvl/pgcl2heyvl/direct_encode.py 71-138.
    Names and types only; declarations of parameters are left out. *)
From Coq Require Import Bool List String.
From Verif.Model Require Import Syntax Pgcl.
Import ListNotations.

(** direct_encode.py 681-682 *)
Definition init_var (x : ident) : ident := mkid (append "init_" (iname x)) (ispan x) (ity x).
(** direct_encode.py 685-689: [vars] are the variables of the program *)
Definition init_assign (vars : list ident) : list stmt := map (fun x => SAssign [x] (EVar (init_var x))) vars.
(** direct_encode.py 692-695 (pGCL has no quantifiers and no substitutions in expressions) *)
Fixpoint to_init (e : expr) : expr :=
  match e with
  | EVar x => EVar (init_var x)
  | ECall t f args => ECall t f (map to_init args)
  | EIte t c a b => EIte t (to_init c) (to_init a) (to_init b)
  | EBin t op a b => EBin t op (to_init a) (to_init b)
  | EUn t op a => EUn t op (to_init a)
  | ECast t a => ECast t (to_init a)
  | EQuant _ _ _ | ESubst _ _ _ | ELit _ _ => e
  end.

(** direct_encode.py 894-898 *)
Fixpoint has_choice (i : pinstr) : bool :=
  match i with
  | PSkip | PAsgn _ _ | PTick _ => false
  | PChoice _ _ _ => true
  | PWhile _ b => existsb has_choice b
  | PIf _ a b => existsb has_choice a || existsb has_choice b
  end.

(** direct_encode.py 98-132: the pre-expectation and the body.  [ert]: ticks are kept.  Ticks are removed after the
    annotations were made and before the body is translated. *)
Definition k_ind_proc (pc : ident) (d : direction) (ert : bool) (vars : list ident) (l : list pinstr) (pre : expr) (st : list annot) :
  option (expr * list stmt * list annot) :=
  let l' := if ert then l else map remove_ticks l in
  match directs false pc d l' st with
  | Some (b, st') => Some (to_init pre, (if existsb has_choice l then [SVar pc None] else []) ++ init_assign vars ++ b, st')
  | None => None
  end.

(** direct_encode.py 166-213: the same for bounded model checking *)
Definition bmc_proc (pc : ident) (d : direction) (ert : bool) (vars : list ident) (l : list pinstr) (pre : expr) (st : list annot) :
  option (expr * list stmt * list annot) :=
  let l' := if ert then l else map remove_ticks l in
  match directs true pc d l' st with
  | Some (b, st') => Some (to_init pre, (if existsb has_choice l then [SVar pc None] else []) ++ init_assign vars ++ b, st')
  | None => None
  end.
