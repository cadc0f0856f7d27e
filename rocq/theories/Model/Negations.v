(** Models of src/proof_rules/negations.rs (direction tracking) and
    src/procs/monotonicity.rs (syntactic monotonicity check). *)
From Coq Require Import List String.
From Verif.Model Require Import Syntax.
Import ListNotations.

(** src/ast/stmt.rs, Direction::toggle *)
Definition toggle (d : direction) : direction := match d with Down => Up | Up => Down end.
Definition dir_eqb (a b : direction) : bool := match a, b with Down, Down | Up, Up => true | _, _ => false end.

(** negations.rs 28-50: handle_negation_forwards *)
Definition negation_forwards (cur : direction) (s : stmt) : res direction :=
  match s with
  | SNegate dir =>
      match cur, dir with
      | Down, Down => Ok Up
      | Up, Up => Ok Down
      | _, _ => Err "Invalid negation statement"
      end
  | _ => Ok cur
  end.

(** negations.rs 53-73: handle_negation_backwards *)
Definition negation_backwards (cur : direction) (s : stmt) : res direction :=
  match s with
  | SNegate dir =>
      match dir, cur with
      | Down, Up => Ok Down
      | Up, Up => Ok Down
      | _, _ => Err "Invalid negation statement"
      end
  | _ => Ok cur
  end.

(** Walking over a statement list, as the callers do. *)
Fixpoint walk_forwards (cur : direction) (b : list stmt) : res direction :=
  match b with
  | [] => Ok cur
  | s :: b' => let? d := negation_forwards cur s in walk_forwards d b'
  end.
Fixpoint walk_backwards (cur : direction) (b : list stmt) : res direction :=
  match b with
  | [] => Ok cur
  | s :: b' => let? d := walk_backwards cur b' in negation_backwards d s
  end.

(** monotonicity.rs 70-91 with walk_stmt (src/ast/visit.rs 224-291): the
    current direction is threaded through all nested blocks in textual order.
    Expressions contain no statements. *)
Fixpoint mono_visit (cur : direction) (s : stmt) {struct s} : res direction :=
  let stmts := fix stmts (cur : direction) (b : list stmt) {struct b} : res direction :=
    match b with [] => Ok cur | s :: b' => let? d := mono_visit cur s in stmts d b' end in
  match s with
  | SNegate dir => if dir_eqb cur dir then Ok (toggle cur) else Err "might not be monotone"
  | SSeq b | SWhile _ b => stmts cur b
  | SDemonic a b | SAngelic a b | SAdditive a b | SIf _ a b => let? d := stmts cur a in stmts d b
  | SAnn _ _ s => mono_visit cur s
  | _ => Ok cur
  end.
Fixpoint mono_visit_block (cur : direction) (b : list stmt) : res direction :=
  match b with [] => Ok cur | s :: b' => let? d := mono_visit cur s in mono_visit_block d b' end.

(** driver/front.rs 384-395: accepted iff the visitor does not return an error *)
Definition mono_check (d : direction) (body : list stmt) : bool :=
  match mono_visit_block d body with Ok _ => true | _ => false end.
