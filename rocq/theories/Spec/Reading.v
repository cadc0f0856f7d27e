(** How expressions are read: which trees a text stands for, how operators group (website/docs/heyvl/expressions.md 62-76),
    and when two readings have the same meaning. *)
From Coq Require Import Bool List String Arith ZArith QArith.
From Verif.Model Require Import Syntax Tycheck Precedence.
Import ListNotations.
Local Open Scope list_scope.
Local Open Scope nat_scope.

Definition is_bin (e : rexpr) : bool := match e with RBin _ _ _ _ => true | _ => false end.
Definition is_quant (e : rexpr) : bool := match e with RQuant _ _ _ _ => true | _ => false end.
(** Neither an operator between operands nor a quantifier is outermost. *)
Definition simple (e : rexpr) : Prop := is_bin e = false /\ is_quant e = false.

(** [writes e t]: [t] is a text for [e] in which every bracket of the text is a node of [e]. *)
Inductive writes : rexpr -> list tok -> Prop :=
| wr_var x : writes (RVar None x) [KId x]
| wr_lit l : writes (RLit None l) [KLit l]
| wr_call f args t : writes_args args t -> writes (RCall None f args) (KFun f :: KLpar :: t ++ [KRpar])
| wr_ite c a b t1 t2 t3 : writes c t1 -> writes a t2 -> writes b t3 ->
    writes (RIte None c a b) (KIte :: KLpar :: t1 ++ KComma :: t2 ++ KComma :: t3 ++ [KRpar])
| wr_let x v a t1 t2 : writes v t1 -> writes a t2 -> writes (RSubst None x v a) (KLet :: KLpar :: KId x :: KComma :: t1 ++ KComma :: t2 ++ [KRpar])
| wr_parens a t : writes a t -> writes (RUn None OParens a) (KLpar :: t ++ [KRpar])
| wr_iverson a t : writes a t -> writes (RUn None OIverson a) (KLbr :: t ++ [KRbr])
| wr_prefix op a t : op = ONot \/ op = ONon \/ op = OEmbed -> simple a -> writes a t -> writes (RUn None op a) (KPre op :: t)
| wr_bin op a b t1 t2 : is_quant a = false -> is_quant b = false -> writes a t1 -> writes b t2 -> writes (RBin None op a b) (t1 ++ KBin op :: t2)
| wr_quant op xs a tv t : qvars tv xs -> writes a t -> writes (RQuant None op xs a) (KQuant op :: tv ++ KDot :: t)
with writes_args : list rexpr -> list tok -> Prop :=
| wra_none : writes_args [] []
| wra_last a t : writes a t -> writes_args [a] t
| wra_more a t l ts : writes a t -> writes_args l ts -> writes_args (a :: l) (t ++ KComma :: ts).

(** How operators group: the smaller the number, the tighter. *)
Inductive side := ToLeft | ToRight | Never.
Record binding := mkbinding { strength : binop -> nat; groups : binop -> side }.
(** website/docs/heyvl/expressions.md 66-75 *)
Definition documented : binding := mkbinding
  (fun op => match op with
   | OMul | ODiv | OMod => 1 | OAdd | OSub => 2 | OInf | OSup => 3 | OLt | OLe | OGe | OGt => 4 | OEq | ONe => 5
   | OAnd => 6 | OOr => 7 | OImpl | OCoImpl | OCompare | OCoCompare => 8
   end)
  (fun op => match op with
   | OLt | OLe | OGe | OGt | OEq | ONe => Never
   | OImpl | OCoImpl | OCompare | OCoCompare => ToRight
   | _ => ToLeft
   end).
(** Before version 4.0 (expressions.md 78-84 and the grammar of that time) *)
Definition before_4 : binding := mkbinding
  (fun op => match op with
   | OMul | ODiv | OMod => 1 | OAdd | OSub => 2
   | OInf | OSup | OImpl | OCoImpl | OCompare | OCoCompare => 3
   | OLt | OLe | OGe | OGt | OEq | ONe => 4 | OAnd => 5 | OOr => 6
   end)
  (fun op => match op with OOr => ToLeft | _ => ToRight end).

(** An operand of [op]: a tighter operator, or an equally tight one on the side to which they group. *)
Definition operand (B : binding) (s : side) (op : binop) (e : rexpr) : Prop :=
  match e with
  | RBin _ op' _ _ => strength B op' < strength B op \/ strength B op' = strength B op /\ groups B op = s
  | RQuant _ _ _ _ => False
  | _ => True
  end.
Definition kids (e : rexpr) : list rexpr :=
  match e with
  | RVar _ _ | RLit _ _ => []
  | RCall _ _ args => args
  | RIte _ c a b => [c; a; b]
  | RBin _ _ a b => [a; b]
  | RUn _ _ a | RCast _ a | RQuant _ _ _ a => [a]
  | RSubst _ _ v a => [v; a]
  end.
Definition node_ok (B : binding) (e : rexpr) : Prop :=
  match e with RBin _ op a b => operand B ToLeft op a /\ operand B ToRight op b | _ => True end.
Inductive grouped (B : binding) : rexpr -> Prop :=
| gr e : node_ok B e -> (forall a, In a (kids e) -> grouped B a) -> grouped B e.

(** The operators of an expression outside of brackets, in the order of the text, and the operands between them. *)
Fixpoint ops (e : rexpr) : list binop := match e with RBin _ op a b => ops a ++ op :: ops b | _ => [] end.
Fixpoint operands (e : rexpr) : list rexpr := match e with RBin _ _ a b => operands a ++ operands b | _ => [e] end.
Definition parts (e : rexpr) : list rexpr := if is_bin e then operands e else kids e.
(** Two equally tight operators that do not group, and no looser operator between them *)
Definition chained (B : binding) (l : list binop) : Prop :=
  exists u o1 v o2 w, l = u ++ o1 :: v ++ o2 :: w /\ strength B o1 = strength B o2 /\ groups B o1 = Never /\
    (forall o, In o v -> strength B o <= strength B o1).
Inductive unchained (B : binding) : rexpr -> Prop :=
| uch e : ~ chained B (ops e) -> (forall a, In a (parts e) -> unchained B a) -> unchained B e.

(** The operators whose grouping does not matter *)
Definition associative (op : binop) : Prop := In op [OAdd; OMul; OAnd; OOr; OInf; OSup].
(** Equal up to the grouping of such operators *)
Inductive same : rexpr -> rexpr -> Prop :=
| sm_refl e : same e e
| sm_sym e f : same e f -> same f e
| sm_trans e f g : same e f -> same f g -> same e g
| sm_assoc op a b c : associative op -> same (RBin None op (RBin None op a b) c) (RBin None op a (RBin None op b c))
| sm_bin op a b a' b' : same a a' -> same b b' -> same (RBin None op a b) (RBin None op a' b')
| sm_call f args args' : Forall2 same args args' -> same (RCall None f args) (RCall None f args')
| sm_ite c a b c' a' b' : same c c' -> same a a' -> same b b' -> same (RIte None c a b) (RIte None c' a' b')
| sm_un op a a' : same a a' -> same (RUn None op a) (RUn None op a')
| sm_quant op xs a a' : same a a' -> same (RQuant None op xs a) (RQuant None op xs a')
| sm_let x v a v' a' : same v v' -> same a a' -> same (RSubst None x v a) (RSubst None x v' a').

(** Number literals carry no sign. *)
Definition unsigned (k : tok) : bool := match k with KLit (LFrac q) => Qle_bool 0 q | _ => true end.
(** [m] occurs in [e]. *)
Inductive occurs_in : rexpr -> rexpr -> Prop :=
| oc_here e : occurs_in e e
| oc_in m a e : In a (kids e) -> occurs_in m a -> occurs_in m e.
(** No operator is an operand of another: every application of an operator has its own brackets. *)
Inductive bracketed : rexpr -> Prop :=
| br e : match e with RBin _ _ a b => is_bin a = false /\ is_quant a = false /\ is_bin b = false /\ is_quant b = false | _ => True end ->
    (forall a, In a (kids e) -> bracketed a) -> bracketed e.
