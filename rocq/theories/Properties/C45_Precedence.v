(** C45: operators group as documented, and the check for changed precedence accepts a file only if both readings mean the same. *)
From Coq Require Import Bool List String.
From Verif.Model Require Import Syntax Tycheck Precedence.
From Verif.Spec Require Import Eur Sem Wp Typing Reading.
From Verif.Proofs Require Import GrammarProofs GroupingProofs Fingerprints RegroupProofs PrecedenceExamples.
Import ListNotations.

(** For all texts, the grammar gives exactly the trees for the text that are grouped as the documentation says; at most one. *)
Theorem C45_new_reads : forall t e, gexpr new_levels t e <-> writes e t /\ grouped documented e.
Proof. exact new_reads. Qed.
Print Assumptions C45_new_reads.
Theorem C45_old_reads : forall t e, gexpr old_levels t e <-> writes e t /\ grouped before_4 e.
Proof. exact old_reads. Qed.
Print Assumptions C45_old_reads.
Theorem C45_new_unique : forall t e e', gexpr new_levels t e -> gexpr new_levels t e' -> e = e'.
Proof. exact new_unique. Qed.
Print Assumptions C45_new_unique.
Theorem C45_old_unique : forall t e e', gexpr old_levels t e -> gexpr old_levels t e' -> e = e'.
Proof. exact old_unique. Qed.
Print Assumptions C45_old_unique.
(** The new grammar rejects chains of comparisons and nothing else; the old grammar accepts every text. *)
Theorem C45_new_accepts : forall e t, writes e t -> (exists e', gexpr new_levels t e') <-> unchained documented e.
Proof. exact new_accepts. Qed.
Print Assumptions C45_new_accepts.
Theorem C45_old_accepts : forall t, (exists e, gexpr old_levels t e) <-> exists e, writes e t.
Proof. exact old_accepts. Qed.
Print Assumptions C45_old_accepts.
(** Brackets settle the question. *)
Theorem C45_brackets : forall t e, writes e t -> bracketed e -> gexpr new_levels t e /\ gexpr old_levels t e.
Proof. exact brackets_help. Qed.
Print Assumptions C45_brackets.

(** For two trees of one text, fingerprints are equal iff the trees are equal up to the grouping of associative operators. *)
Theorem C45_fingerprints : forall e e' t, writes e t -> writes e' t -> same_fp e e' = true <-> same e e'.
Proof. exact text_same. Qed.
Print Assumptions C45_fingerprints.
(** With "both", a file is accepted iff the new parser accepts it, the old one does, and all results are the same in this sense;
    otherwise it is rejected with an error, and nothing panics. *)
Theorem C45_both : forall n o, generated new_levels n -> generated old_levels o -> forall src es,
  parse_by_mode MBoth n o src = Ok es <->
  parse_by_mode MNew n o src = Ok es /\ exists es', parse_by_mode MOld n o src = Ok es' /\ Forall2 same es es'.
Proof. exact both_iff. Qed.
Print Assumptions C45_both.
Theorem C45_both_rejects : forall n o, generated new_levels n -> generated old_levels o -> forall src es,
  parse_by_mode MNew n o src = Ok es ->
  exists es', parse_by_mode MOld n o src = Ok es' /\ (parse_by_mode MBoth n o src = Err "ChangedPrecedence" <-> ~ Forall2 same es es').
Proof. exact both_rejects. Qed.
Print Assumptions C45_both_rejects.
Theorem C45_no_panic : forall n o, generated new_levels n -> generated old_levels o -> forall m src,
  (exists es, parse_by_mode m n o src = Ok es) \/ (exists w, parse_by_mode m n o src = Err w).
Proof. exact modes_total. Qed.
Print Assumptions C45_no_panic.
(** Reported is a pair of subexpressions of the two readings that differ. *)
Theorem C45_reported : forall e e' m m', check e e' = Some (m, m') -> occurs_in m e /\ occurs_in m' e' /\ fp m <> fp m'.
Proof. exact check_found. Qed.
Print Assumptions C45_reported.
Theorem C45_reports : forall e e', check e e' = None <-> fp e = fp e'.
Proof. exact check_none. Qed.
Print Assumptions C45_reports.
(** Readings that are the same in this sense have, if both have a type, the same type and the same value in every state. *)
Theorem C45_same_meaning : forall S pre I e e' e1 e1', interp_ok I -> parsed e = true -> parsed e' = true -> same e e' ->
  visit S pre false e = Ok e1 -> visit S pre false e' = Ok e1' ->
  exists x x', tree e1 = Some x /\ tree e1' = Some x' /\ ty_of x = ty_of x' /\
    (wt x = true -> wt x' = true -> forall s, env_ok s -> eval I x s = eval I x' s).
Proof. exact same_meaning. Qed.
Print Assumptions C45_same_meaning.
(** But only one of them may have a type. *)
Theorem C45_typable_refuted : exists t e e', gexpr new_levels t e /\ gexpr old_levels t e' /\ same e e' /\
  (exists w, visit all_vars false false e = Err w) /\ (exists e1', visit all_vars false false e' = Ok e1').
Proof. exact typable_refuted. Qed.
Print Assumptions C45_typable_refuted.

Example C45_nonvacuous_parsers : (exists n, generated new_levels n) /\ (exists o, generated old_levels o).
Proof. exact both_exist. Qed.
Example C45_nonvacuous_rejected : forall n o, generated new_levels n -> generated old_levels o -> parse_by_mode MBoth n o [nix] = Err "ChangedPrecedence".
Proof. exact nix_rejected. Qed.
Example C45_nonvacuous_accepted : forall n o, generated new_levels n -> generated old_levels o -> parse_by_mode MBoth n o [xyz] = Ok [xyz1].
Proof. exact xyz_accepted. Qed.
Example C45_nonvacuous_chain : ~ (exists e, gexpr new_levels abc e) /\ exists e, gexpr old_levels abc e.
Proof. exact (conj abc_new abc_old). Qed.
Example C45_nonvacuous_brackets : bracketed br_tree.
Proof. exact br_bracketed. Qed.
Example C45_nonvacuous_meaning : parsed uab1 = true /\ parsed uab2 = true /\ same uab1 uab2 /\
  match rcheck uab1, rcheck uab2 with Some x, Some x' => wt x = true /\ wt x' = true /\ x <> x' | _, _ => False end.
Proof. exact uab_meaning. Qed.
