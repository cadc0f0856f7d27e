(** What comments are: from // to the end of the line, and from /* to the matching */, and UTF-8. *)
From Coq Require Import String Ascii List Bool Arith NArith.
Import ListNotations.
Local Open Scope char_scope.

Definition text := list ascii.
Definition lf : ascii := ascii_of_nat 10.

(** [occurs a b l]: the two characters stand next to each other in [l]. *)
Definition occurs (a b : ascii) (l : text) : Prop := exists u v, l = (u ++ a :: b :: v)%list.
Definition no_opener (l : text) : Prop := ~ occurs "/" "/" l /\ ~ occurs "/" "*" l.
Definition spaces (n : nat) : text := repeat " " n.

(** The inside of a block comment: text without delimiters, and complete block comments. *)
Definition quiet (l : text) : Prop := ~ occurs "/" "*" l /\ ~ occurs "*" "/" l.
Inductive body : text -> Prop :=
| body_quiet p : quiet (p ++ ["*"]) -> body p
| body_nested p b c : quiet (p ++ ["/"]) -> body b -> body c -> body (p ++ ["/"; "*"] ++ b ++ ["*"; "/"] ++ c).

(** The inside of a block comment that is never closed. *)
Inductive open_body : text -> Prop :=
| open_quiet p : quiet p -> open_body p
| open_nested p b : quiet (p ++ ["/"]) -> open_body b -> open_body (p ++ ["/"; "*"] ++ b)
| open_after p b c : quiet (p ++ ["/"]) -> body b -> open_body c -> open_body (p ++ ["/"; "*"] ++ b ++ ["*"; "/"] ++ c).
(** [commented l l']: [l'] is [l] with its comments replaced by spaces. *)
Inductive commented : text -> text -> Prop :=
| cm_none l : no_opener l -> commented l l
| cm_line u b v v' : no_opener (u ++ ["/"]) -> ~ In lf b -> commented v v' ->
    commented (u ++ ["/"; "/"] ++ b ++ lf :: v) (u ++ spaces (2 + length b) ++ lf :: v')
| cm_last_line u b : no_opener (u ++ ["/"]) -> ~ In lf b -> commented (u ++ ["/"; "/"] ++ b) (u ++ spaces (2 + length b))
| cm_block u b v v' : no_opener (u ++ ["/"]) -> body b -> commented v v' ->
    commented (u ++ ["/"; "*"] ++ b ++ ["*"; "/"] ++ v) (u ++ spaces (length b + 4) ++ v')
| cm_open u b : no_opener (u ++ ["/"]) -> open_body b -> commented (u ++ ["/"; "*"] ++ b) (u ++ spaces (2 + length b)).

(** UTF-8 (Unicode 15, table 3-7), on the values of the bytes. *)
Definition between (a b : N) (c : ascii) : bool := (N.leb a (N_of_ascii c) && N.leb (N_of_ascii c) b)%bool.
Definition tail : ascii -> bool := between 128 191.
Definition utf8_char (l : text) : bool :=
  match l with
  | [a] => between 0 127 a
  | [a; b] => between 194 223 a && tail b
  | [a; b; c] =>
      ((between 224 224 a && between 160 191 b) || (between 225 236 a && tail b) || (between 237 237 a && between 128 159 b) ||
       (between 238 239 a && tail b)) && tail c
  | [a; b; c; d] =>
      ((between 240 240 a && between 144 191 b) || (between 241 243 a && tail b) || (between 244 244 a && between 128 143 b)) &&
      tail c && tail d
  | _ => false
  end.
Definition utf8 (l : text) : Prop := exists cs, l = concat cs /\ forallb utf8_char cs = true.
