(** C55: literal expressions are marked for the solver; the markers do not change the question. *)
From Coq Require Import Bool List String NArith.
From Verif.Model Require Import Syntax Translate Funcs Literals.
From Verif.Spec Require Import Eur Sem Exprs Translated Markers.
From Verif.Proofs Require Import TranslateRefuted LiteralMarks LiteralSim LiteralProps NamesProofs.
Import ListNotations.

(** The collected expressions are exactly the maximal literal subexpressions and the literal arguments of calls. *)
Theorem C55_collected : forall lv cf e some_var some_fun, some_var || some_fun = true -> no_subst e = true ->
  exists S, collect_literals lv cf some_var some_fun e = Ok S /\ forall p, p_mem (rev p) S = true <-> to_mark lv cf e p.
Proof. exact collected_exactly. Qed.
Print Assumptions C55_collected.

(** Collecting panics exactly on substitutions, and not at all if there is nothing to look for. *)
Theorem C55_panics : forall lv cf e some_var some_fun w, collect_literals lv cf some_var some_fun e = Panic w <->
  some_var || some_fun = true /\ no_subst e = false /\ w = subst_msg.
Proof. exact collect_panics. Qed.
Print Assumptions C55_panics.

(** What is called literal does not depend on anything but the known variables. *)
Theorem C55_constant : forall lv cf I e, literal lv cf e = true -> forall s s', (forall x, lv x = true -> s x = s' x) -> eval I e s = eval I e s'.
Proof. exact literal_value. Qed.
Print Assumptions C55_constant.

(** The axioms say that the markers in use are the identity, and nothing else. *)
Theorem C55_axioms : forall n reg M, Forall (fun c => c M = true) (lit_axioms n reg) <-> lit_id reg M.
Proof. exact lit_axioms_iff. Qed.
Print Assumptions C55_axioms.

(** Whatever is marked, the translation fails in the same cases, and the term and its side conditions have the same values wherever the
    markers of the sorts that were used are the identity. *)
Theorem C55_same : forall isvar fsig ecall on marks e,
  match translate isvar fsig ecall e, translate_w isvar fsig ecall on marks e with
  | Ok (t, cs), Ok (t', cs', reg) => forall M, lit_id reg M -> t M = t' M /\ map (fun c => c M) cs = map (fun c => c M) cs'
  | Err w, Err w' | Panic w, Panic w' => w = w'
  | _, _ => False
  end.
Proof. exact marked_same. Qed.
Print Assumptions C55_same.

(** A structure that satisfies the side conditions and the axioms gives the marked term a value that the expression has in some state. *)
Theorem C55_models : forall isvar fsig ecall on marks e I t cs reg n, translatable isvar fsig e = true -> ty_of e = TBool -> some eur_sub e = false ->
  interp_ok I -> translate_w isvar fsig ecall on marks e = Ok (t, cs, reg) -> forall M, fits fsig ecall I M -> Forall (fun c => c M = true) cs ->
  Forall (fun c => c M = true) (lit_axioms n reg) -> exists s, env_ok s /\ eval I e s = VBool (t M).
Proof. exact marked_models. Qed.
Print Assumptions C55_models.

(** Every state comes from such a structure. *)
Theorem C55_states : forall isvar fsig ecall on marks e I t cs reg n, translatable isvar fsig e = true -> ty_of e = TBool -> some eur_sub e = false ->
  interp_ok I -> translate_w isvar fsig ecall on marks e = Ok (t, cs, reg) -> forall s M0, marker_free fsig ecall -> env_ok s -> fits fsig ecall I M0 ->
  exists M, fits fsig ecall I M /\ Forall (fun c => c M = true) cs /\ Forall (fun c => c M = true) (lit_axioms n reg) /\ eval I e s = VBool (t M).
Proof. exact marked_states. Qed.
Print Assumptions C55_states.

(** Hence the question with markers is the right one. *)
Theorem C55_valid : forall isvar fsig ecall on marks e I t cs reg n, translatable isvar fsig e = true -> ty_of e = TBool -> some eur_sub e = false ->
  interp_ok I -> translate_w isvar fsig ecall on marks e = Ok (t, cs, reg) -> forall M0, marker_free fsig ecall -> fits fsig ecall I M0 ->
  ((forall M, fits fsig ecall I M -> Forall (fun c => c M = true) cs -> Forall (fun c => c M = true) (lit_axioms n reg) -> t M = true) <->
   (forall s, env_ok s -> eval I e s = VBool true)).
Proof. exact marked_valid. Qed.
Print Assumptions C55_valid.

(** The encoders write calls without markers, since no function has the name of one. *)
Theorem C55_encoders : forall fsig E fuel, (forall s, fsig (lit_name s) = None) -> marker_free fsig (enc_call E fuel).
Proof. exact encoders_marker_free. Qed.
Print Assumptions C55_encoders.

(** Verification conditions are marked and translated without a panic. *)
Theorem C55_no_panic : forall isvar fsig ecall on some_fun cf e, translatable isvar fsig e = true -> ty_of e = TBool ->
  exists r, translate_vc isvar fsig ecall on some_fun cf e = Ok r.
Proof. exact vc_no_panic. Qed.
Print Assumptions C55_no_panic.

(** The example in the documentation is wrong: in [a + 4 * b] with [a] known, [a] and [4] are reported, and not [a + 4]. *)
Theorem C55_documentation_refuted : exists S, collect_literals is_a (fun _ => false) true false doc_example = Ok S /\
  (forall p, p_mem (rev p) S = true <-> p = [0] \/ p = [1; 0]) /\
  forall p e, p_mem (rev p) S = true -> sub_at p doc_example = Some e -> e = EVar var_a \/ e = ELit TUInt (LUInt 4%N).
Proof. exact doc_refuted. Qed.
Print Assumptions C55_documentation_refuted.

(** Without the axioms, [true] would not be valid. *)
Theorem C55_no_axioms_refuted : exists t, translate_vc all_vars no_funs plain_call true true is_fac valid_true = Ok (t, [], [SB]) /\
  (forall I s, eval I valid_true s = VBool true) /\ t lying = false.
Proof. exact axioms_needed. Qed.
Print Assumptions C55_no_axioms_refuted.

(** [fac(5) == 120] becomes [Lit(fac(Lit(5)) == 120)]. *)
Example C55_marks : collect_literals no_var is_fac false true fac_five = Ok [[]; [0; 0]].
Proof. exact fac_five_marks. Qed.
Example C55_markers : exists t cs, translate_vc all_vars fac_sig plain_call true true is_fac fac_five = Ok (t, cs, [SI; SB]).
Proof. exact fac_five_markers. Qed.
Example C55_hypotheses : translatable all_vars fac_sig fac_five = true /\ ty_of fac_five = TBool /\ some eur_sub fac_five = false /\ marker_free fac_sig plain_call.
Proof. exact fac_five_ok. Qed.

(** Different sorts have differently named markers. *)
Theorem C55_names : forall s s', lit_name s = lit_name s' -> s = s'.
Proof. exact lit_name_inj. Qed.
Print Assumptions C55_names.
