(** Recursion: a procedure that reaches itself by calls. *)
From Coq Require Import List String Relations.
From Verif.Model Require Import Syntax Procs.
From Verif.Spec Require Import Wp.
Import ListNotations.

(** [calls f e]: there is a call of [f] somewhere in the expression. *)
Fixpoint calls (f : string) (e : expr) {struct e} : Prop :=
  match e with
  | EVar _ | ELit _ _ => False
  | ECall _ g args => f = g \/ (fix any l := match l with [] => False | a :: l' => calls f a \/ any l' end) args
  | EIte _ c a b => calls f c \/ calls f a \/ calls f b
  | EBin _ _ a b => calls f a \/ calls f b
  | EUn _ _ a | ECast _ a | EQuant _ _ a => calls f a
  | ESubst _ b a => calls f b \/ calls f a
  end.
(** [P] holds of an expression of the statement. *)
Fixpoint some_expr (P : expr -> Prop) (st : stmt) {struct st} : Prop :=
  let block := fix block b := match b with [] => False | s :: b' => some_expr P s \/ block b' end in
  match st with
  | SSeq b => block b
  | SVar _ (Some e) | SAssign _ e | SAssert _ e | SAssume _ e | SCompare _ e | STick e | SWeigh e => P e
  | SDemonic a b | SAngelic a b | SAdditive a b => block a \/ block b
  | SIf c a b => P c \/ block a \/ block b
  | SWhile c b => P c \/ block b
  | SAnn _ args s => Exists P args \/ some_expr P s
  | _ => False
  end.
Definition some_expr_block (P : expr -> Prop) (b : list stmt) : Prop := Exists (some_expr P) b.

Section Program.
  Variable ps : list proc.
  (** The body of [f] contains a call of the procedure [g]. *)
  Definition calls_proc (f g : string) : Prop :=
    (exists q, In q ps /\ pname q = g) /\ exists p b, In p ps /\ pname p = f /\ pbody p = Some b /\ some_expr_block (calls g) b.
  (** A chain of one or more calls. *)
  Definition reaches : string -> string -> Prop := clos_trans string calls_proc.
  Definition recursive (f : string) : Prop := reaches f f.
  (** The type checker allows calls of procedures on the right-hand side of an assignment only: in no argument, operand, condition, ... *)
  Definition is_proc (f : string) : Prop := exists q, In q ps /\ pname q = f.
  Definition pure (e : expr) : Prop := forall f, is_proc f -> ~ calls f e.
  Definition direct (e : expr) : Prop := match e with ECall _ _ args => Forall pure args | _ => pure e end.
  Definition direct_node (st : stmt) : Prop :=
    match st with
    | SVar _ (Some e) | SAssign _ e => direct e
    | SAssert _ e | SAssume _ e | SCompare _ e | STick e | SWeigh e => pure e
    | SIf c _ _ | SWhile c _ => pure c
    | SAnn _ args _ => Forall pure args
    | _ => True
    end.
End Program.

(** The strongly connected components of a graph: every node is in one of the lists, and nodes are in the same list iff they
    reach each other. *)
Definition is_sccs (nodes : list string) (E : string -> string -> Prop) (sccs : list (list string)) : Prop :=
  (forall x, In x nodes <-> exists c, In c sccs /\ In x c) /\
  (forall c, In c sccs -> c <> [] /\ NoDup c) /\
  (forall c x y, In c sccs -> In x c -> (In y c <-> x = y \/ (clos_trans string E x y /\ clos_trans string E y x))).
