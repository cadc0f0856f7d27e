(** Lexical scoping, independent of how scopes are stored: an environment maps each visible name to its declaration and
    knows which names were declared in the innermost scope. *)
From Coq Require Import Bool List String.
From Verif.Model Require Import Syntax.
Import ListNotations.

Record scoping := mksc { visible : string -> option ident; here : string -> option ident }.
Definition bind (x : ident) (f : string -> option ident) : string -> option ident :=
  fun n => if String.eqb n (iname x) then Some x else f n.
(** Entering a scope: nothing is declared in it yet. *)
Definition enter (E : scoping) : scoping := mksc (visible E) (fun _ => None).
Definition declares (x : ident) (E : scoping) : scoping := mksc (bind x (visible E)) (bind x (here E)).
(** A name may be declared once per scope; identifiers are told apart by name and span. *)
Definition declarable (x : ident) (E : scoping) : Prop :=
  forall y, here E (iname x) = Some y -> iname y = iname x /\ ispan y = ispan x.

(** [lex E e e']: [e'] is [e] with every name replaced by the declaration it refers to. *)
Definition lex_id (E : scoping) (x y : ident) : Prop := visible E (iname x) = Some y.
Inductive lex_qvars : scoping -> list qvar -> list qvar -> scoping -> Prop :=
| lq_nil E : lex_qvars E [] [] E
| lq_shadow E x y xs ys E' : lex_id E x y -> lex_qvars E xs ys E' -> lex_qvars E (QShadow x :: xs) (QShadow y :: ys) E'
| lq_fresh E x xs ys E' : declarable x E -> lex_qvars (declares x E) xs ys E' -> lex_qvars E (QFresh x :: xs) (QFresh x :: ys) E'.
Inductive lex : scoping -> expr -> expr -> Prop :=
| lx_var E x y : lex_id E x y -> lex E (EVar x) (EVar y)
| lx_lit E t l : lex E (ELit t l) (ELit t l)
| lx_call E t f l l' : Forall2 (lex E) l l' -> lex E (ECall t f l) (ECall t f l')
| lx_ite E t c a b c' a' b' : lex E c c' -> lex E a a' -> lex E b b' -> lex E (EIte t c a b) (EIte t c' a' b')
| lx_bin E t op a b a' b' : lex E a a' -> lex E b b' -> lex E (EBin t op a b) (EBin t op a' b')
| lx_un E t op a a' : lex E a a' -> lex E (EUn t op a) (EUn t op a')
| lx_cast E t a a' : lex E a a' -> lex E (ECast t a) (ECast t a')
| lx_quant E E' op xs ys a a' : lex_qvars (enter E) xs ys E' -> lex E' a a' -> lex E (EQuant op xs a) (EQuant op ys a')
| lx_subst E x v v' a a' : lex E v v' -> lex (declares x (enter E)) a a' -> lex E (ESubst x v a) (ESubst x v' a').

(** Statements; [lexs E s s' E']: after [s] the scoping is [E'].  Labels share the name space of variables. *)
Inductive lexs : scoping -> stmt -> stmt -> scoping -> Prop :=
| ls_seq E b b' E' : lexb (enter E) b b' E' -> lexs E (SSeq b) (SSeq b') E
| ls_var E x : declarable x E -> lexs E (SVar x None) (SVar x None) (declares x E)
| ls_init E x e e' : lex E e e' -> declarable x E -> lexs E (SVar x (Some e)) (SVar x (Some e')) (declares x E)
| ls_assign E xs ys e e' : Forall2 (lex_id E) xs ys -> lex E e e' -> lexs E (SAssign xs e) (SAssign ys e') E
| ls_havoc E d xs ys : Forall2 (lex_id E) xs ys -> lexs E (SHavoc d xs) (SHavoc d ys) E
| ls_assert E d e e' : lex E e e' -> lexs E (SAssert d e) (SAssert d e') E
| ls_assume E d e e' : lex E e e' -> lexs E (SAssume d e) (SAssume d e') E
| ls_compare E d e e' : lex E e e' -> lexs E (SCompare d e) (SCompare d e') E
| ls_tick E e e' : lex E e e' -> lexs E (STick e) (STick e') E
| ls_weigh E e e' : lex E e e' -> lexs E (SWeigh e) (SWeigh e') E
| ls_negate E d : lexs E (SNegate d) (SNegate d) E
| ls_validate E d : lexs E (SValidate d) (SValidate d) E
| ls_demonic E b1 b2 b1' b2' E1 E2 : lexb (enter E) b1 b1' E1 -> lexb (enter E) b2 b2' E2 ->
    lexs E (SDemonic b1 b2) (SDemonic b1' b2') E
| ls_angelic E b1 b2 b1' b2' E1 E2 : lexb (enter E) b1 b1' E1 -> lexb (enter E) b2 b2' E2 ->
    lexs E (SAngelic b1 b2) (SAngelic b1' b2') E
| ls_additive E b1 b2 b1' b2' E1 E2 : lexb (enter E) b1 b1' E1 -> lexb (enter E) b2 b2' E2 ->
    lexs E (SAdditive b1 b2) (SAdditive b1' b2') E
| ls_if E c c' b1 b2 b1' b2' E1 E2 : lex E c c' -> lexb (enter E) b1 b1' E1 -> lexb (enter E) b2 b2' E2 ->
    lexs E (SIf c b1 b2) (SIf c' b1' b2') E
| ls_while E c c' b b' E1 : lex E c c' -> lexb (enter E) b b' E1 -> lexs E (SWhile c b) (SWhile c' b') E
| ls_ann E n l l' s s' E1 : Forall2 (lex E) l l' -> lexs (enter E) s s' E1 -> lexs E (SAnn n l s) (SAnn n l' s') E
| ls_label E x : declarable x E -> lexs E (SLabel x) (SLabel x) (declares x E)
with lexb : scoping -> list stmt -> list stmt -> scoping -> Prop :=
| lb_nil E : lexb E [] [] E
| lb_cons E s s' E1 b b' E2 : lexs E s s' E1 -> lexb E1 b b' E2 -> lexb E (s :: b) (s' :: b') E2.

(** The identifiers declared in an expression or statement, by name and span. *)
Definition id_key (x : ident) : string * nat := (iname x, ispan x).
Fixpoint binders (e : expr) : list (string * nat) :=
  match e with
  | EVar _ | ELit _ _ => []
  | ECall _ _ args => flat_map binders args
  | EIte _ c a b => binders c ++ binders a ++ binders b
  | EBin _ _ a b => binders a ++ binders b
  | EUn _ _ a | ECast _ a => binders a
  | EQuant _ xs a => flat_map (fun v => match v with QFresh x => [id_key x] | QShadow _ => [] end) xs ++ binders a
  | ESubst x v a => binders v ++ id_key x :: binders a
  end.
Fixpoint sbinders (s : stmt) : list (string * nat) :=
  match s with
  | SSeq b => flat_map sbinders b
  | SVar x None => [id_key x]
  | SVar x (Some e) => binders e ++ [id_key x]
  | SAssign _ e | SAssert _ e | SAssume _ e | SCompare _ e | STick e | SWeigh e => binders e
  | SHavoc _ _ | SNegate _ | SValidate _ => []
  | SDemonic b1 b2 | SAngelic b1 b2 | SAdditive b1 b2 => flat_map sbinders b1 ++ flat_map sbinders b2
  | SIf c b1 b2 => binders c ++ flat_map sbinders b1 ++ flat_map sbinders b2
  | SWhile c b => binders c ++ flat_map sbinders b
  | SAnn _ l s => flat_map binders l ++ sbinders s
  | SLabel x => [id_key x]
  end.
