(** C46: comments, and nothing else, become spaces. *)
From Coq Require Import String Ascii List.
From Verif.Model Require Import Comments.
From Verif.Spec Require Import CommentText.
From Verif.Proofs Require Import CommentsProofs.
Import ListNotations.

(** For all texts, the result is the text with its line comments and (nested) block comments replaced by spaces. *)
Theorem C46_removes : forall l l', remove_comments l = l' <-> commented l l'.
Proof. exact removes. Qed.
Print Assumptions C46_removes.
(** Every byte stays where it is or becomes a space, so positions are the same as in the file; the assertion on lengths holds. *)
Theorem C46_positions : forall l m, Forall2 (fun c c' => c' = c \/ c' = " "%char) l (blank m l).
Proof. exact blank_pointwise. Qed.
Print Assumptions C46_positions.
Theorem C46_length : forall l m, List.length (blank m l) = List.length l.
Proof. exact blank_length. Qed.
Print Assumptions C46_length.
(** UTF-8 stays UTF-8, so the conversion to a string does not panic. *)
Theorem C46_utf8 : forall l, utf8 l -> utf8 (remove_comments l).
Proof. exact utf8_kept. Qed.
Print Assumptions C46_utf8.
(** No comment is left, and removing comments again changes nothing. *)
Theorem C46_none_left : forall l m, no_opener (blank m l).
Proof. exact blank_no_opener. Qed.
Print Assumptions C46_none_left.
Theorem C46_twice : forall l, remove_comments (remove_comments l) = remove_comments l.
Proof. exact twice. Qed.
Print Assumptions C46_twice.
(** A block comment that is not closed takes the rest of the file with it, without an error. *)
Theorem C46_unclosed : forall u l, no_opener (u ++ ["/"%char]) -> open_body l ->
  remove_comments (u ++ ["/"%char; "*"%char] ++ l) = u ++ spaces (2 + List.length l).
Proof. exact unclosed. Qed.
Print Assumptions C46_unclosed.
(** String literals are not respected. *)
Theorem C46_strings_refuted : exists rest, remove_comments (txt ("assert ""a//b""" ++ rest)) = txt "assert ""a" ++ spaces (4 + String.length rest) /\ rest <> ""%string.
Proof. exact strings_refuted. Qed.
Print Assumptions C46_strings_refuted.

Example C46_nonvacuous : remove_comments (txt "a /* b /* c */ // */ d / e // f") = txt "a                    d / e     ".
Proof. exact ex_nested. Qed.
Example C46_nonvacuous_utf8 : utf8 ex_bytes /\ remove_comments ex_bytes <> ex_bytes.
Proof. exact ex_utf8. Qed.
Example C46_nonvacuous_unclosed : remove_comments (txt "/* todo: proc f() -> () { assert 0 }") = spaces 36.
Proof. exact ex_proc. Qed.
