(** Expressions in which no variable bound by a user-written ("Fresh") quantifier that acts on the whole value occurs
    anywhere outside of that quantifier. *)
From Coq Require Import Bool List String.
From Verif.Model Require Import Syntax.
Import ListNotations.

(** All identifiers, free or bound. *)
Fixpoint all_ids (e : expr) : list ident :=
  match e with
  | EVar x => [x]
  | ELit _ _ => []
  | ECall _ _ args => flat_map all_ids args
  | EIte _ c a b => all_ids c ++ all_ids a ++ all_ids b
  | EBin _ _ a b => all_ids a ++ all_ids b
  | EUn _ _ a | ECast _ a => all_ids a
  | EQuant _ xs a => map qname xs ++ all_ids a
  | ESubst x a b => x :: all_ids a ++ all_ids b
  end.

Definition fresh_names (xs : list qvar) : list ident :=
  flat_map (fun v => match v with QFresh x => [x] | QShadow _ => [] end) xs.

(** An infimum (Down) or supremum (Up) can be moved out of which operands of an operator, and as what. *)
Definition pull2 (d : direction) (op : binop) : option (direction * direction) :=
  match op, d with
  | (OAdd | OMul | OAnd | OOr | OInf | OSup), _ => Some (d, d)
  | (OImpl | OCompare), Down => Some (Up, Down)
  | (OCoImpl | OCoCompare), Up => Some (Down, Up)
  | _, _ => None
  end.
Definition pull1 (d : direction) (op : unop) : option direction :=
  match op, d with
  | OParens, _ => Some d
  | ONot, Down => Some Up
  | ONon, Up => Some Down
  | _, _ => None
  end.
Definition pullq (d : direction) (op : quantop) : bool :=
  match op, d with (QInf | QForall), Down | (QSup | QExists), Up => true | _, _ => false end.

(** Fresh variables of the infima (Down) or suprema (Up) that can be moved to the front; not those inside of the
    operands of comparisons, embeddings, calls or conditions. *)
Fixpoint elim_bound (d : direction) (e : expr) : list ident :=
  match e with
  | EIte _ _ a b => elim_bound d a ++ elim_bound d b
  | EBin _ op a b => match pull2 d op with Some (da, db) => elim_bound da a ++ elim_bound db b | None => [] end
  | EUn _ op a => match pull1 d op with Some d' => elim_bound d' a | None => [] end
  | EQuant op xs a => if pullq d op then fresh_names xs ++ elim_bound d a else []
  | _ => []
  end.

Definition disjoint (l m : list ident) : Prop := forall x, In x l -> ~ In x m.

Fixpoint linear (d : direction) (e : expr) : Prop :=
  match e with
  | EVar _ | ELit _ _ | ECall _ _ _ | ECast _ _ => True
  | EIte _ c a b => linear d a /\ linear d b /\
      disjoint (elim_bound d a) (all_ids c) /\ disjoint (elim_bound d a) (all_ids b) /\
      disjoint (elim_bound d b) (all_ids c) /\ disjoint (elim_bound d b) (all_ids a)
  | EBin _ op a b =>
      match pull2 d op with
      | Some (da, db) => linear da a /\ linear db b /\
          disjoint (elim_bound da a) (all_ids b) /\ disjoint (elim_bound db b) (all_ids a)
      | None => True
      end
  | EUn _ op a => match pull1 d op with Some d' => linear d' a | None => True end
  | EQuant op xs a => pullq d op = true -> linear d a /\ disjoint (elim_bound d a) (map qname xs)
  | ESubst _ _ _ => False
  end.

(** No user-written quantifier acts on the whole value, neither directly nor after substitution: quantifiers occur only
    inside of comparisons, embeddings, calls and conditions. *)
Fixpoint guarded (d : direction) (e : expr) : Prop :=
  match e with
  | EVar _ | ELit _ _ | ECall _ _ _ | ECast _ _ => True
  | EIte _ _ a b => guarded d a /\ guarded d b
  | EBin _ op a b => match pull2 d op with Some (da, db) => guarded da a /\ guarded db b | None => True end
  | EUn _ op a => match pull1 d op with Some d' => guarded d' a | None => True end
  | EQuant op xs a => pullq d op = true -> fresh_names xs = [] /\ guarded d a
  | ESubst _ b a => (guarded Down b /\ guarded Up b) /\ guarded d a
  end.

(** The expressions whose values flow into the verification condition of a statement. *)
Definition node_exprs (st : stmt) : list expr :=
  match st with
  | SVar _ (Some e) | SAssign _ e => e :: match e with ECall _ _ args => args | _ => [] end
  | SAssert _ e | SAssume _ e | SCompare _ e | STick e | SWeigh e => [e]
  | _ => []
  end.
Definition guarded_node (st : stmt) : Prop := forall e d, In e (node_exprs st) -> guarded d e.

(** The identifiers of a statement that are not inside of a contained statement. *)
Definition node_ids (st : stmt) : list ident :=
  match st with
  | SVar x i => x :: match i with Some e => all_ids e | None => [] end
  | SAssign xs e => xs ++ all_ids e
  | SHavoc _ xs => xs
  | SAssert _ e | SAssume _ e | SCompare _ e | STick e | SWeigh e => all_ids e
  | SIf c _ _ => all_ids c
  | _ => []
  end.
