(** What an explanation should say: the value of everything that follows, at every statement and at the end of every
    block. *)
From Coq Require Import Bool List String.
From Verif.Model Require Import Syntax Explain.
From Verif.Spec Require Import Eur Sem Wp.
Import ListNotations.

(** A position with the block that contains it and the value there. *)
Record note := mknote { n_span : span; n_block : option span; n_value : exp }.

(** The closing brace of a block. *)
Definition brace (sp : span) : span := mkspan (sfile sp) (send sp - 1) (send sp) (svariant sp).

(** The notes for a statement in block [blk] before the value [X0], last statements last.  A (co)validate has no note of
    its own, and an annotation has that of the annotated statement. *)
Fixpoint notes (I : interp) (isd : string -> bool) (k : fixkind) (blk : option span) (s : xstmt) (X0 : exp) : list note :=
  let stmts := fix stmts (blk : option span) (b : list xstmt) (X0 : exp) : list note :=
    match b with
    | [] => []
    | s :: b' => notes I isd k blk s (wp_block I isd k (map erase b') X0) ++ stmts blk b' X0
    end in
  let block sp b := stmts (Some sp) b X0 ++ [mknote (brace sp) (Some sp) X0] in
  match s with
  | XAtom sp (SValidate _) => []
  | XAtom sp s => [mknote sp blk (wp I isd k s X0)]
  | XSeq sp b => mknote sp blk (wp I isd k (erase s) X0) :: stmts blk b X0
  | XChoice sp _ sp1 b1 sp2 b2 | XIf sp _ sp1 b1 sp2 b2 => mknote sp blk (wp I isd k (erase s) X0) :: block sp2 b2 ++ block sp1 b1
  | XWhile sp _ _ _ => [mknote sp blk (wp I isd k (erase s) X0)]
  | XAnn _ _ _ s' => notes I isd k blk s' X0
  end.
Fixpoint notes_stmts (I : interp) (isd : string -> bool) (k : fixkind) (blk : option span) (b : list xstmt) (X0 : exp) : list note :=
  match b with
  | [] => []
  | s :: b' => notes I isd k blk s (wp_block I isd k (map erase b') X0) ++ notes_stmts I isd k blk b' X0
  end.

(** An entry of the code's explanation agrees with a note: every simplification step has the note's value. *)
Definition explains (I : interp) (en : entry) (n : note) : Prop :=
  en_span en = n_span n /\ en_block en = n_block n /\ en_steps en <> [] /\
  Forall (fun e => forall s, env_ok s -> ev I e s = n_value n s) (en_steps en).

(** The positions of the notes. *)
Fixpoint positions (s : xstmt) : list span :=
  let stmts b := flat_map positions b in
  match s with
  | XAtom sp (SValidate _) => []
  | XAtom sp _ | XWhile sp _ _ _ => [sp]
  | XSeq sp b => sp :: stmts b
  | XChoice sp _ sp1 b1 sp2 b2 | XIf sp _ sp1 b1 sp2 b2 => sp :: (stmts b2 ++ [brace sp2]) ++ (stmts b1 ++ [brace sp1])
  | XAnn _ _ _ s' => positions s'
  end.

(** Blocks have a closing brace, and [XAtom] is used as intended. *)
Definition atomic (s : stmt) : bool :=
  match s with
  | SSeq _ | SDemonic _ _ | SAngelic _ _ | SAdditive _ _ | SIf _ _ _ | SWhile _ _ | SAnn _ _ _ => false | _ => true end.
Fixpoint spanned (s : xstmt) : Prop :=
  let stmts b := fold_right (fun s P => spanned s /\ P) True b in
  match s with
  | XAtom _ s => atomic s = true
  | XSeq _ b => stmts b
  | XChoice _ _ sp1 b1 sp2 b2 | XIf _ _ sp1 b1 sp2 b2 => send sp1 <> 0 /\ send sp2 <> 0 /\ stmts b1 /\ stmts b2
  | XWhile _ _ sp1 b => send sp1 <> 0 /\ stmts b
  | XAnn _ _ _ s => spanned s
  end.
