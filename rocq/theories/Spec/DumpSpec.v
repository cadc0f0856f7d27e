(** What is expected of the output about a query. *)
From Coq Require Import Bool List String Ascii NArith Arith.
From Verif.Model Require Import Syntax Prover SliceSearch Dump Subsets Slicing.
From Verif.Spec Require Import Sem Sliced.
Import ListNotations.
Local Open Scope string_scope.
Local Open Scope list_scope.

Fixpoint lookup (k : string) (ps : params) : option string :=
  match ps with [] => None | (k', v) :: ps => if String.eqb k k' then Some v else lookup k ps end.
(** Every key occurs once. *)
Definition single (ps : params) : Prop := NoDup (map fst ps).
Definition or_else {A} (a b : option A) : option A := match a with Some _ => a | None => b end.

(** The text with the prefix at the beginning of every line; [start]: a line begins. *)
Fixpoint commented (prefix : list ascii) (start : bool) (t : list ascii) : list ascii :=
  match t with [] => [] | c :: t => (if start then prefix else []) ++ c :: commented prefix (Ascii.eqb c nl) t end.
(** The text consists of complete lines that are comments. *)
Inductive comments : list ascii -> Prop :=
| no_comment : comments []
| one_comment l t : ~ In nl l -> comments t -> comments (";"%char :: l ++ nl :: t).

(** The texts printed, the query with or without the help of raco, and what is asked after an answer *)
Definition printed (evs : list event) : list string := flat_map (fun e => match e with Printed t => [t] | Wrote _ _ => [] end) evs.
Definition body (raco : string -> option string) (o : dump_options) (solver : string) : string :=
  if d_no_pretty o then solver else match raco solver with Some b => b | None => solver end.
Definition details (r : prove_result) : string :=
  match r with Proof => "" | Counterexample => newline ++ "(get-model)" ++ newline | ProveUnknown => newline ++ "(get-info :reason-unknown)" ++ newline end.

(** One line for every option, and the lines at the beginning of a file *)
Definition option_line (kv : string * string) : string := ("(set-option :" ++ fst kv ++ " " ++ snd kv ++ ")" ++ newline)%string.
Definition lines (l : list string) : string := String.concat "" l.
Definition unit_line (path : string) (decl : option string) : string :=
  ("Source unit: " ++ path ++ match decl with Some d => "::" ++ d | None => "" end ++ newline)%string.
Definition answer_line (reason : string) (r : prove_result) : string :=
  match r with
  | Proof => "Prove result: Proof" ++ newline
  | Counterexample => "Prove result: Counterexample" ++ newline
  | ProveUnknown => "Prove result: Unknown (reason: " ++ reason ++ ")" ++ newline
  end%string.

(** No empty parts, [.] or [..] in a path *)
Definition clean (s : string) : Prop := Forall (fun p => is_empty p = false /\ p <> "." /\ p <> "..") (split_slash s).
Definition relative (s : string) : Prop := match s with String c _ => c <> "/"%char | "" => True end.
Definition normal (c : component) : Prop := match c with Normal _ => True | _ => False end.

(** Structures [X] for the solver.  [asserted]: what the solver was told when the dump was made; the variables that switch statements on, those
    over which is minimised and the others; the constraints on them. *)
Section Slices.
Context {X : Type} (asserted constraints : X -> Prop) (active inactive : list (X -> bool)).
Definition count_on (x : X) : nat := List.length (List.filter (fun v => v x) active).
(** Slicing asks for counterexamples in which the other statements are on (solver.rs 349-354). *)
Definition asked (m : nat) : Prop := exists x, asserted x /\ constraints x /\ (forall v, In v inactive -> v x = true) /\ count_on x = m.
(** Switching everything on keeps counterexamples. *)
Definition on_keeps : Prop := forall x, asserted x -> exists y, asserted y /\ constraints y /\ (forall v, In v inactive -> v y = true).
End Slices.
(** The toggles of a program over which is minimised, or the others *)
Definition toggles_of (on : bool) (l : list slice_stmt) : list (env -> bool) :=
  map (fun e s => negb (is_off s (sl_ident e))) (List.filter (fun e => Bool.eqb (enables failure_selection (sl_sel e)) on) l).

(** [assume ?(false); assert ?(false)] *)
Definition never : expr := EUn TEUReal OEmbed (ELit TBool (LBool false)).
Definition always : expr := EUn TEUReal OEmbed (ELit TBool (LBool true)).
Definition assumed_false : list stmt := [SAssume Down never; SAssert Down never].
