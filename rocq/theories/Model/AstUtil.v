(** Variable collectors: src/ast/util.rs. *)
From Coq Require Import Bool List String.
From Verif.Model Require Import Syntax.
Import ListNotations.

(** IndexSet<Ident> as a duplicate-free list. *)
Definition mem (x : ident) (l : list ident) : bool := existsb (ident_eqb x) l.
Definition insert (x : ident) (l : list ident) : list ident := if mem x l then l else x :: l.
Definition remove_id (x : ident) (l : list ident) : list ident := filter (fun y => negb (ident_eqb x y)) l.

(** FreeVariableCollector::visit_expr, util.rs 33-66; [acc] is [self.variables].
    Other expressions: walk_expr, visit.rs 173-213.  A bound variable is removed
    afterwards unless it was already collected before the quantifier. *)
Fixpoint collect (e : expr) (acc : list ident) {struct e} : res (list ident) :=
  match e with
  | EVar x => Ok (insert x acc)
  | EQuant _ xs e =>
      let bound := filter (fun v => negb (mem v acc)) (map qname xs) in
      let? acc' := collect e acc in
      Ok (fold_left (fun a v => remove_id v a) bound acc')
  | ESubst _ _ _ => Panic "cannot find free variables in expressions with substitutions"
  | ECall _ _ args =>
      (fix go l acc := match l with [] => Ok acc | a :: l' => let? acc' := collect a acc in go l' acc' end) args acc
  | EIte _ c a b => let? x := collect c acc in let? y := collect a x in collect b y
  | EBin _ _ a b => let? x := collect a acc in collect b x
  | EUn _ _ a | ECast _ a => collect a acc
  | ELit _ _ => Ok acc
  end.
Fixpoint collect_all (es : list expr) (acc : list ident) : res (list ident) :=
  match es with [] => Ok acc | a :: l' => let? acc' := collect a acc in collect_all l' acc' end.

Definition free_variables (e : expr) : res (list ident) := collect e [].

(** ModifiedVariableCollector, util.rs 68-110 with walk_stmt (visit.rs 224-291) and
    walk_expr.  Insertion order of the index sets is not modelled. *)
Record mvc := mkmvc { mdecl : list ident; mmod : list ident; mused : list ident }.
Definition mvc0 : mvc := mkmvc [] [] [].

Fixpoint used_expr (e : expr) (a : list ident) {struct e} : list ident :=
  match e with
  | EVar x => insert x a
  | ELit _ _ => a
  | ECall _ _ args => fold_left (fun a e => used_expr e a) args a
  | EIte _ c x y => used_expr y (used_expr x (used_expr c a))
  | EBin _ _ x y => used_expr y (used_expr x a)
  | EUn _ _ x | ECast _ x | EQuant _ _ x => used_expr x a
  | ESubst _ b x => used_expr x (used_expr b a)
  end.
Definition mvc_expr (e : expr) (m : mvc) : mvc := mkmvc (mdecl m) (mmod m) (used_expr e (mused m)).

Fixpoint mvc_stmt (s : stmt) (m : mvc) {struct s} : mvc :=
  let block b m := fold_left (fun m s => mvc_stmt s m) b m in
  match s with
  | SSeq b => block b m
  | SVar x i =>
      let m1 := mkmvc (insert x (mdecl m)) (mmod m) (mused m) in
      match i with Some e => mvc_expr e m1 | None => m1 end
  | SAssign xs e => mvc_expr e (mkmvc (mdecl m) (fold_left (fun a x => insert x a) xs (mmod m)) (mused m))
  | SHavoc _ _ | SNegate _ | SValidate _ | SLabel _ => m
  | SAssert _ e | SAssume _ e | SCompare _ e | STick e | SWeigh e => mvc_expr e m
  | SDemonic a b | SAngelic a b | SAdditive a b => block b (block a m)
  | SIf c a b => block b (block a (mvc_expr c m))
  | SWhile c b => block b (mvc_expr c m)
  | SAnn _ args s' => mvc_stmt s' (fold_left (fun m e => mvc_expr e m) args m)
  end.
Definition mvc_block (b : list stmt) (m : mvc) : mvc := fold_left (fun m s => mvc_stmt s m) b m.
