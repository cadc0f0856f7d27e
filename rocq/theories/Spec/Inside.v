(** Statements inside of statements, except in probabilistic choices of statements. *)
From Coq Require Import List String.
From Verif.Model Require Import Syntax Encode.
Import ListNotations.

Inductive inside (t : stmt) : stmt -> Prop :=
| in_here : inside t t
| in_seq b s : In s b -> inside t s -> inside t (SSeq b)
| in_while c b s : In s b -> inside t s -> inside t (SWhile c b)
| in_then c b1 b2 s : In s b1 -> inside t s -> inside t (SIf c b1 b2)
| in_else c b1 b2 s : In s b2 -> inside t s -> inside t (SIf c b1 b2)
| in_demonic1 b1 b2 s : In s b1 -> inside t s -> inside t (SDemonic b1 b2)
| in_demonic2 b1 b2 s : In s b2 -> inside t s -> inside t (SDemonic b1 b2)
| in_angelic1 b1 b2 s : In s b1 -> inside t s -> inside t (SAngelic b1 b2)
| in_angelic2 b1 b2 s : In s b2 -> inside t s -> inside t (SAngelic b1 b2)
| in_ann n args s : inside t s -> inside t (SAnn n args s).

(** What nothing is known about: negations, and rules about termination in a calculus that they are not about. *)
Inductive unreliable (c : calculus) : stmt -> Prop :=
| un_negate d : unreliable c (SNegate d)
| un_past args s : c <> Ert -> unreliable c (SAnn "past" args s)
| un_ost args s : c <> Wp -> unreliable c (SAnn "ost" args s)
| un_ast args s : c <> Wp -> unreliable c (SAnn "ast" args s).
