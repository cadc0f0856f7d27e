(** C48: a printed program is read back as itself. *)
From Coq Require Import Bool List String.
From Verif.Model Require Import Syntax Tycheck Precedence Printing.
From Verif.Spec Require Import Eur Sem Wp Typing Reading Printed.
From Verif.Proofs Require Import PrecedenceExamples PrintExprs PrintStmts PrintTypes PrintExamples.
Import ListNotations.

(** The grammar of statements and procedures has at most one reading of a text. *)
Theorem C48_unambiguous : forall t,
  (forall b b', gstmts new_levels t b -> gstmts new_levels t b' -> b = b') /\ (forall p p', gproc new_levels t p -> gproc new_levels t p' -> p = p').
Proof. exact programs_unique. Qed.
Print Assumptions C48_unambiguous.
(** The text of a printable expression is accepted, and is read as the expression up to brackets, also by the old grammar. *)
Theorem C48_expressions : forall e, printable e = true -> (exists e', gexpr new_levels (pexpr e) e') /\
  forall e', gexpr new_levels (pexpr e) e' \/ gexpr old_levels (pexpr e) e' -> unbr e' = unbr e.
Proof. exact printed_expr. Qed.
Print Assumptions C48_expressions.
(** It is checked like the expression: the same type and conversions, or the same error. *)
Theorem C48_checked : forall e, printable e = true -> untyped e = true -> forall e', gexpr new_levels (pexpr e) e' ->
  forall S pre imp, agree (visit S pre imp e') (visit S pre imp e).
Proof. exact printed_checked. Qed.
Print Assumptions C48_checked.
(** Lists of statements and procedures: however the lines are broken. *)
Theorem C48_statements : forall b t, forallb printable_stmt b = true -> layout (pstmts b) t ->
  (exists b', gstmts new_levels t b') /\
  forall b', gstmts new_levels t b' \/ gstmts old_levels t b' -> map unbr_stmt b' = map unbr_stmt b.
Proof. exact printed_block. Qed.
Print Assumptions C48_statements.
Theorem C48_procedures : forall p t, printable_proc p = true -> layout (pproc p) t ->
  (exists p', gproc new_levels t p') /\
  forall p', gproc new_levels t p' \/ gproc old_levels t p' -> unbr_proc p' = unbr_proc p.
Proof. exact printed_proc. Qed.
Print Assumptions C48_procedures.
(** In particular for what was parsed, without decimal literals, let, calls without results and calculus annotations. *)
Theorem C48_reparsed : forall t p t', gproc new_levels t p -> plain_proc p = true -> rp_calculus p = None -> layout (pproc p) t' ->
  (exists p', gproc new_levels t' p') /\ forall p', gproc new_levels t' p' -> unbr_proc p' = unbr_proc p.
Proof. exact reparsed. Qed.
Print Assumptions C48_reparsed.
(** Domains with axioms only *)
Theorem C48_axioms : forall n l, forallb (fun c => match c with RAxiom _ e => printable e | RFunc _ _ _ _ _ => false end) l = true ->
  exists l', gdomain new_levels (pdomain (mkrdomain n l)) (mkrdomain n l') /\
    map (fun c => match c with RAxiom n e => RAxiom n (unbr e) | c => c end) l' = map (fun c => match c with RAxiom n e => RAxiom n (unbr e) | c => c end) l.
Proof. exact axioms_readable. Qed.
Print Assumptions C48_axioms.

(** A decimal literal is printed as a quotient without brackets: x / 0.5 is printed as (x / 5/10). *)
Theorem C48_decimals_refuted : exists t e, gexpr new_levels t e /\ forall e', gexpr new_levels (pexpr e) e' ->
  exists x x', rcheck e = Some x /\ rcheck e' = Some x' /\ wt x = true /\ wt x' = true /\
    forall I, exists s, env_ok s /\ eval I x s <> eval I x' s.
Proof. exact decimals_refuted. Qed.
Print Assumptions C48_decimals_refuted.
(** A call without results is printed with a leading "=": not readable, or joined with the declaration before it. *)
Theorem C48_calls_unreadable : forall f args t s, layout (pstmt (RAssign [] (RCall None f args))) t -> ~ gstmt new_levels t s.
Proof. exact calls_unreadable. Qed.
Print Assumptions C48_calls_unreadable.
Theorem C48_calls_refuted : exists t b b' t', gstmts new_levels t b /\ layout (pstmts b) t' /\ gstmts new_levels t' b' /\
  List.length b = 2 /\ List.length b' = 1.
Proof. exact calls_refuted. Qed.
Print Assumptions C48_calls_refuted.
(** The annotation for the calculus is not printed. *)
Theorem C48_calculus_lost : forall p t p', layout (pproc p) t -> gproc new_levels t p' -> rp_calculus p' = None.
Proof. exact calculus_lost. Qed.
Print Assumptions C48_calculus_lost.
Theorem C48_calculus_refuted : exists t p, gproc new_levels t p /\
  forall t' p', layout (pproc p) t' -> gproc new_levels t' p' -> unbr_proc p' <> unbr_proc p.
Proof. exact calculus_refuted. Qed.
Print Assumptions C48_calculus_refuted.
(** No domain with a function can be read back. *)
Theorem C48_functions_unreadable : forall d t d', (exists n ins o c b, In (RFunc n ins o c b) (rd_body d)) -> layout (pdomain d) t -> ~ gdomain new_levels t d'.
Proof. exact functions_unreadable. Qed.
Print Assumptions C48_functions_unreadable.
Theorem C48_lets_refuted : exists t e, gexpr new_levels t e /\ forall e', ~ gexpr new_levels (pexpr e) e'.
Proof. exact lets_refuted. Qed.
Print Assumptions C48_lets_refuted.
(** A quantifier that is a left operand extends over the right operand when it is read back. *)
Theorem C48_quantifiers_refuted : exists e, rcheck e <> None /\ (exists e', gexpr new_levels (pexpr e) e') /\
  forall e', gexpr new_levels (pexpr e) e' -> unbr e' <> unbr e.
Proof. exact quantifiers_refuted. Qed.
Print Assumptions C48_quantifiers_refuted.
(** The grammar accepts a trigger without terms, for which the parser panics. *)
Theorem C48_triggers_refuted : gargs new_levels [] [] /\ trigger_new [] = Panic "assertion failed: !terms.is_empty()".
Proof. exact triggers_panic. Qed.
Print Assumptions C48_triggers_refuted.

Example C48_nonvacuous_procedure : printable_proc loop_proc = true /\ (exists t, layout (pproc loop_proc) t /\ In Semi t) /\
  unbr_proc (shown_proc loop_proc) <> shown_proc loop_proc.
Proof. exact loop_printable. Qed.
Example C48_nonvacuous_checked : printable (RUn None ONot (RBin None OAdd (rv xe) (rv xe))) = true /\ untyped (RUn None ONot (RBin None OAdd (rv xe) (rv xe))) = true /\
  rcheck (RUn None ONot (RBin None OAdd (rv xe) (rv xe))) <> None.
Proof. exact half_checked. Qed.
Example C48_nonvacuous_call : gstmt new_levels fcall_text fcall.
Proof. exact fcall_parsed. Qed.
Example C48_nonvacuous_domain : exists t, gdomain new_levels t dom.
Proof. exact dom_parsed. Qed.
