(** Which variables a statement may change. *)
From Coq Require Import List.
From Verif.Model Require Import Syntax.
From Verif.Spec Require Import Eur Sem Wp.
Import ListNotations.

(** [writes x st]: an execution of [st] may give [x] a new value. *)
Fixpoint writes (x : ident) (st : stmt) : Prop :=
  let block := fix block b := match b with [] => False | s :: b' => writes x s \/ block b' end in
  match st with
  | SSeq b => block b
  | SVar y (Some _) => x = y
  | SAssign ys _ => In x ys
  | SHavoc _ ys => In x ys
  | SDemonic a b | SAngelic a b | SAdditive a b | SIf _ a b => block a \/ block b
  | SWhile _ b => block b
  | SAnn _ _ s => writes x s
  | _ => False
  end.
Fixpoint writes_block (x : ident) (b : list stmt) : Prop :=
  match b with [] => False | s :: b' => writes x s \/ writes_block x b' end.

(** [s'] is a state that agrees with [s] outside of [M]. *)
Definition only_changes (M : ident -> Prop) (s s' : env) : Prop := env_ok s' /\ forall x, ~ M x -> s' x = s x.

(** The ways in which that happens. *)
Fixpoint declares (x : ident) (st : stmt) : Prop :=
  let block := fix block b := match b with [] => False | s :: b' => declares x s \/ block b' end in
  match st with
  | SVar y _ => x = y
  | SSeq b | SWhile _ b => block b
  | SDemonic a b | SAngelic a b | SAdditive a b | SIf _ a b => block a \/ block b
  | SAnn _ _ s => declares x s
  | _ => False
  end.
Fixpoint assigns (x : ident) (st : stmt) : Prop :=
  let block := fix block b := match b with [] => False | s :: b' => assigns x s \/ block b' end in
  match st with
  | SAssign ys _ => In x ys
  | SSeq b | SWhile _ b => block b
  | SDemonic a b | SAngelic a b | SAdditive a b | SIf _ a b => block a \/ block b
  | SAnn _ _ s => assigns x s
  | _ => False
  end.
Fixpoint havocs (x : ident) (st : stmt) : Prop :=
  let block := fix block b := match b with [] => False | s :: b' => havocs x s \/ block b' end in
  match st with
  | SHavoc _ ys => In x ys
  | SSeq b | SWhile _ b => block b
  | SDemonic a b | SAngelic a b | SAdditive a b | SIf _ a b => block a \/ block b
  | SAnn _ _ s => havocs x s
  | _ => False
  end.

Definition any (P : stmt -> Prop) : list stmt -> Prop := fix block b := match b with [] => False | s :: b' => P s \/ block b' end.
