(** Programs with annotated loops (website/docs/proof-rules/README.md). *)
From Coq Require Import Bool List String.
From Verif.Model Require Import Syntax ProofRules.
From Verif.Spec Require Import Eur Sem Wp Frame Loops.
Import ListNotations.

(** The annotations that stand for a proof rule. *)
Definition proof_rules : list string := ["invariant"; "k_induction"; "unroll"; "omega_invariant"; "ost"; "past"; "ast"]%string.
Definition is_rule (a : string) : bool := existsb (String.eqb a) proof_rules.
Definition not_rule (st : stmt) : Prop := match st with SAnn a _ _ => is_rule a = false | _ => True end.
Definition not_ost (st : stmt) : Prop := match st with SAnn a _ _ => a <> "ost"%string | _ => True end.

(** Every loop carries a proof rule. *)
Fixpoint annotated (st : stmt) : Prop :=
  match st with
  | SWhile _ _ => False
  | SAnn a _ (SWhile _ b) => is_rule a = true /\ All annotated b
  | SAnn _ _ s => annotated s
  | SSeq b => All annotated b
  | SDemonic a b | SAngelic a b | SAdditive a b | SIf _ a b => All annotated a /\ All annotated b
  | _ => True
  end.

(** The code's names of the fixpoints. *)
Definition fk (k : fp_kind) : fixkind := match k with LFP => Least | GFP => Greatest end.

(** * Reference semantics: every annotated loop has its own kind of fixpoint (approximations.md). *)
Fixpoint wpr (I : interp) (isd : string -> bool) (K : string -> list expr -> fixkind) (st : stmt) (X : exp) {struct st} : exp :=
  let block b X := fold_right (wpr I isd K) X b in
  match st with
  | SSeq b => block b X
  | SDemonic a b => fun s => emin (block a X s) (block b X s)
  | SAngelic a b => fun s => emax (block a X s) (block b X s)
  | SAdditive a b => fun s => eadd (block a X s) (block b X s)
  | SIf c a b => fun s => if holds I c s then block a X s else block b X s
  | SAnn name args (SWhile c b) => loop_sem (K name args) (fun Y s => if holds I c s then block b Y s else X s)
  | SAnn _ _ s => wpr I isd K s X
  | _ => wp I isd Least st X
  end.
Definition wpr_block (I : interp) (isd : string -> bool) (K : string -> list expr -> fixkind) (b : list stmt) (X : exp) : exp :=
  fold_right (wpr I isd K) X b.

(** * Scoping of what the proof rules mention *)
(** [scoped], with the arguments of proof rules *)
Fixpoint tidy (V : ident -> Prop) (st : stmt) {struct st} : Prop :=
  let block := fix block (V : ident -> Prop) (b : list stmt) {struct b} : Prop :=
    match b with
    | [] => True
    | s :: b' => tidy V s /\ block (fun x => V x /\ match s with SVar y (Some _) => x <> y | _ => True end) b'
    end in
  match st with
  | SSeq b => block V b
  | SDemonic a b | SAngelic a b | SAdditive a b => block V a /\ block V b
  | SIf c a b => unread V c /\ block V a /\ block V b
  | SWhile c b => unread V c /\ block V b
  | SAnn a args s => (is_rule a = true -> Forall (unread V) args) /\ tidy V s
  | _ => scoped V st
  end.
Fixpoint tidy_block (V : ident -> Prop) (b : list stmt) {struct b} : Prop :=
  match b with
  | [] => True
  | s :: b' => tidy V s /\ tidy_block (fun x => V x /\ match s with SVar y (Some _) => x <> y | _ => True end) b'
  end.
(** Variables written in a loop body but not by an assignment: they are local to it. *)
Definition local (b : list stmt) (x : ident) : Prop := writes_block x b /\ ~ any (assigns x) b.
(** [fits U st]: local variables of loops are neither mentioned in the proof rules' arguments nor read by what comes after.
    [U]: the variables that what comes after [st] does not read. *)
Fixpoint fits (U : ident -> Prop) (st : stmt) {struct st} : Prop :=
  let block := fix block (U : ident -> Prop) (b : list stmt) {struct b} : Prop :=
    match b with
    | [] => True
    | s :: b' => fits (fun x => U x /\ tidy_block (eq x) b') s /\ block U b'
    end in
  match st with
  | SSeq b => block U b
  | SDemonic a b | SAngelic a b | SAdditive a b | SIf _ a b => block U a /\ block U b
  | SAnn _ args (SWhile c b) =>
      (forall x, local b x -> U x) /\ unread (local b) c /\ Forall (unread (local b)) args /\ tidy_block (local b) b /\ block (local b) b
  | SAnn _ _ s => fits U s
  | _ => True
  end.
Fixpoint fits_block (U : ident -> Prop) (b : list stmt) {struct b} : Prop :=
  match b with
  | [] => True
  | s :: b' => fits (fun x => U x /\ tidy_block (eq x) b') s /\ fits_block U b'
  end.

(** Arguments of the proof rules that replace the loop by statements only. *)
Definition rule_typed (st : stmt) : Prop :=
  match st with
  | SAnn a args (SWhile _ _) =>
      (a = "invariant"%string /\ exists inv, args = [inv] /\ is_exp inv) \/
      (a = "k_induction"%string /\ exists k inv, args = [k; inv] /\ is_exp inv) \/
      (a = "unroll"%string /\ exists ty n t, args = [ELit ty (LUInt n); t] /\ n <> BinNums.N0 /\ is_exp t) \/ is_rule a = false
  | SAnn a _ _ => is_rule a = false
  | _ => True
  end.
(** Nothing in an [SAdditive] that matters to approximations. *)
Definition plain_additive (st : stmt) : Prop :=
  match st with
  | SAdditive a b => All (every not_rule) a /\ All (every not_negate) a /\ All (every not_rule) b /\ All (every not_negate) b
  | _ => True
  end.
(** For which annotated loops the claim made in direction [cd] (Down: the encoding is below the loop, Up: above) can be relied on,
    in a procedure with direction [d]; [k] is the fixpoint that the loop denotes. *)
Definition denotes (t : expr) (r : eur) : Prop := forall I s, interp_ok I -> env_ok s -> ev I t s = r.
Definition reliable (cd d : direction) (K : string -> list expr -> fixkind) (st : stmt) : Prop :=
  match st with
  | SAnn a args (SWhile _ _) =>
      if String.eqb a "unroll" then
        match args, cd with
        | [_; t], Down => K a args = Least -> denotes t ebot
        | [_; t], Up => K a args = Greatest -> denotes t etop
        | _, _ => False
        end
      else match cd with Down => K a args = Greatest -> d = Down | Up => K a args = Least -> d = Up end
  | _ => True
  end.

(** Procedure bodies that the positive results about the checker are about, for the variables [U] not read by the postconditions. *)
Definition checkable (isd isf : string -> bool) (cd d : direction) (K : string -> list expr -> fixkind) (U : ident -> Prop) (b : list stmt) : Prop :=
  All annotated b /\ All (wts isd isf) b /\ All (every rule_typed) b /\ All (every plain_additive) b /\ All (every (reliable cd d K)) b /\ fits_block U b.
