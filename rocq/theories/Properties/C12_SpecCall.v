(** C12: replacing calls by specifications. *)
From Coq Require Import Bool List String.
From Verif.Model Require Import Syntax TyCtx Dist Procs.
From Verif.Spec Require Import Eur Sem Wp Calls.
From Verif.Proofs Require Import SpecCallProofs RecProofs CallRefuted CallExamples.
Import ListNotations.

(** If the body of [p], with its calls replaced, meets the specification of [p], then so does the body with real calls,
    for all callees that satisfy their specifications.  Calls are restricted as in [call_ok]: distinct left-hand
    sides, at least one postcondition, no permutation of the callee's own parameters, and no call in a variable's
    initialiser to a procedure of the other direction; the theorems below show that each restriction is needed. *)
Theorem C12_caller_sound : forall I isd isf k procs variant (Tm : ident -> Prop), interp_ok I ->
  (forall m n, variant m = variant n -> m = n) -> (forall x, Tm (temp variant x)) ->
  forall Den p b, decl_ok Tm p -> checked I isd isf k procs variant Tm p b ->
  (forall f q, procs f = Some q -> exists D, Den f = Some D /\ behaves_well q D /\ (pdir q = pdir p -> satisfies I q D)) ->
  (forall f, procs f = None -> Den f = None) ->
  forall v s Y, typed (pins p) v -> env_ok s ->
  (forall o, typed (pouts p) o -> below (pdir p) (spec_exp I (pdir p) (ensures p) (upds (upds s (pins p) v) (pouts p) o)) (Y o)) ->
  below (pdir p) (spec_exp I (pdir p) (requires p) (upds s (pins p) v))
                 (wpc_block I isd Den k b (fun s' => Y (map s' (pouts p))) (upds s (pins p) v)).
Proof. exact caller_sound. Qed.
Print Assumptions C12_caller_sound.

(** Any set of procedures, calling each other recursively: if all of them verify, then the greatest (for coprocs: least)
    solution of the recursion satisfies every specification. *)
Theorem C12_recursion_sound : forall I isd isf k procs variant (Tm : ident -> Prop), interp_ok I ->
  (forall m n, variant m = variant n -> m = n) -> (forall x, Tm (temp variant x)) ->
  forall d E f p, program_ok I isd isf k procs variant Tm d E -> procs f = Some p ->
  satisfies I p (match d with Down => greatest I isd k procs E f | Up => least I isd k procs E f end).
Proof. exact recursion_sound. Qed.
Print Assumptions C12_recursion_sound.

(** These are solutions. *)
Theorem C12_greatest_solution : forall I isd isf k procs variant (Tm : ident -> Prop), interp_ok I -> forall d E,
  program_ok I isd isf k procs variant Tm d E ->
  well_behaved procs (greatest I isd k procs E) /\
  forall f p v Y, procs f = Some p -> typed (pins p) v ->
    unfold_bodies I isd k procs E (greatest I isd k procs E) f v Y = greatest I isd k procs E f v Y.
Proof. exact greatest_solution. Qed.
Print Assumptions C12_greatest_solution.
Theorem C12_least_solution : forall I isd isf k procs variant (Tm : ident -> Prop), interp_ok I -> forall d E,
  program_ok I isd isf k procs variant Tm d E ->
  well_behaved procs (least I isd k procs E) /\
  forall f p v Y, procs f = Some p -> typed (pins p) v ->
    unfold_bodies I isd k procs E (least I isd k procs E) f v Y = least I isd k procs E f v Y.
Proof. exact least_solution. Qed.
Print Assumptions C12_least_solution.

(** Without postcondition nothing bounds what the caller gains. *)
Theorem C12_no_post_refuted : exists callee caller, unsound_call callee caller /\ ensures callee = [].
Proof. exact (ex_intro _ half_f (ex_intro _ call_f (conj no_post_refuted eq_refl))). Qed.
Print Assumptions C12_no_post_refuted.
(** [x, x = f()] with a postcondition that relates the results. *)
Theorem C12_duplicate_lhs_refuted : exists callee caller, unsound_call callee caller.
Proof. exact (ex_intro _ two_f (ex_intro _ dup_g duplicate_lhs_refuted)). Qed.
Print Assumptions C12_duplicate_lhs_refuted.
(** [var x: Bool = c()] in a proc, where [c] is a coproc; the same call in an assignment is an error. *)
Theorem C12_initialiser_refuted : exists callee caller, unsound_call callee caller /\ pdir callee = Up /\ pdir caller = Down.
Proof. exact (ex_intro _ co_c (ex_intro _ init_g (conj initialiser_refuted (conj eq_refl eq_refl)))). Qed.
Print Assumptions C12_initialiser_refuted.
(** [f(b, a)] inside of [f(a, b)]. *)
Theorem C12_permuted_arguments_refuted : exists p, unsound_recursion p.
Proof. exact (ex_intro _ swap_f permuted_arguments_refuted). Qed.
Print Assumptions C12_permuted_arguments_refuted.
(** [b, a = f()] inside of [f() -> (a, b)]. *)
Theorem C12_permuted_results_refuted : exists p, unsound_recursion p.
Proof. exact (ex_intro _ swap_out permuted_results_refuted). Qed.
Print Assumptions C12_permuted_results_refuted.
(** A [let] in a postcondition makes the encoding of a call panic. *)
Theorem C12_let_post_refuted : exists b T w, sc_block (table [let_f]) shift Down b T = Panic w.
Proof. exact let_post_refuted. Qed.
Print Assumptions C12_let_post_refuted.
(** A recursive proc can verify and violate its specification under the least solution. *)
Theorem C12_least_recursion_refuted : exists p b T b' T', pbody p = Some b /\ sc_block (table [p]) shift (pdir p) b T = Ok (b', T') /\
  (forall I, meets I p (wp_block I is_dist Least b')) /\ forall I E, ~ satisfies I p (least I is_dist Least (table [p]) E (pname p)).
Proof. exact least_recursion_refuted. Qed.
Print Assumptions C12_least_recursion_refuted.

(** A recursive program that meets the hypotheses, with an argument that must be saved before the call. *)
Example C12_example : forall I, interp_ok I -> (forall m n, shift m = shift n -> m = n) /\ (forall x, temps (temp shift x)) /\
  program_ok I is_dist (fun _ => false) Least (table [up_f]) shift temps Down (fun _ _ _ => ebot) /\ table [up_f] "f" = Some up_f.
Proof. exact up_program. Qed.
