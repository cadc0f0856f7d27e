(** C41: the SMT term for an expression means what the expression means. *)
From Coq Require Import Bool List String.
From Verif.Model Require Import Syntax Translate.
From Verif.Spec Require Import Eur Sem Exprs Translated.
From Verif.Proofs Require Import TranslateProps TranslateRefuted.
Import ListNotations.

(** Every well-typed Boolean expression without comparisons of Booleans, substitutions and undeclared names is translated. *)
Theorem C41_no_panic : forall isvar fsig ecall e, translatable isvar fsig e = true -> ty_of e = TBool ->
  exists t cs, translate isvar fsig ecall e = Ok (t, cs).
Proof. exact no_panic. Qed.
Print Assumptions C41_no_panic.

(** A structure that satisfies the side conditions gives the term a value that the expression has in some state. *)
Theorem C41_models : forall isvar fsig ecall e I t cs, translatable isvar fsig e = true -> ty_of e = TBool -> some eur_sub e = false ->
  interp_ok I -> translate isvar fsig ecall e = Ok (t, cs) -> forall M, fits fsig ecall I M -> Forall (fun c => c M = true) cs ->
  exists s, env_ok s /\ eval I e s = VBool (t M).
Proof. exact models_to_states. Qed.
Print Assumptions C41_models.

(** Every state comes from a structure that satisfies the side conditions. *)
Theorem C41_states : forall isvar fsig ecall e I t cs, translatable isvar fsig e = true -> ty_of e = TBool -> some eur_sub e = false ->
  interp_ok I -> translate isvar fsig ecall e = Ok (t, cs) -> forall s M0, env_ok s -> fits fsig ecall I M0 ->
  exists M, fits fsig ecall I M /\ Forall (fun c => c M = true) cs /\ eval I e s = VBool (t M).
Proof. exact states_to_models. Qed.
Print Assumptions C41_states.

(** Hence the solver's question is the right one. *)
Theorem C41_valid : forall isvar fsig ecall e I t cs, translatable isvar fsig e = true -> ty_of e = TBool -> some eur_sub e = false ->
  interp_ok I -> translate isvar fsig ecall e = Ok (t, cs) -> forall M0, fits fsig ecall I M0 ->
  ((forall M, fits fsig ecall I M -> Forall (fun c => c M = true) cs -> t M = true) <-> (forall s, env_ok s -> eval I e s = VBool true)).
Proof. exact valid_iff. Qed.
Print Assumptions C41_valid.

(** Interpretations for which signed and unsigned division by zero agree are realised by structures. *)
Theorem C41_fits : forall fsig I, interp_ok I -> agreeing I -> exists M, fits fsig plain_call I M.
Proof. exact fits_exists. Qed.
Print Assumptions C41_fits.

(** With subtraction at EUReal, [5 - \infty == 4] is valid for the solver and false in the language. *)
Theorem C41_subtraction_refuted : exists t, translatable all_vars no_funs five_minus_inf = true /\
  translate all_vars no_funs plain_call five_minus_inf = Ok (t, []) /\
  (forall M, t M = true) /\ forall I s, eval I five_minus_inf s = VBool false.
Proof. exact sub_refuted. Qed.
Print Assumptions C41_subtraction_refuted.

(** A structure need not fit: unsigned division and remainder by zero can be negative. *)
Theorem C41_division_refuted : spurious div_zero.
Proof. exact div_zero_refuted. Qed.
Print Assumptions C41_division_refuted.
Theorem C41_remainder_refuted : spurious mod_zero.
Proof. exact mod_zero_refuted. Qed.
Print Assumptions C41_remainder_refuted.

(** Comparisons of Booleans panic; the type checker rejects them (C33). *)
Theorem C41_bool_comparison_refuted : wt bool_le = true /\ translate all_vars no_funs plain_call bool_le = Panic "illegal smtpair".
Proof. exact bool_cmp_refuted. Qed.
Print Assumptions C41_bool_comparison_refuted.

Example C41_formula : translatable all_vars ex_fsig ex_formula = true /\ ty_of ex_formula = TBool /\ some eur_sub ex_formula = false.
Proof. exact ex_formula_ok. Qed.
Example C41_interp : interp_ok ex_interp /\ agreeing ex_interp.
Proof. exact ex_interp_ok. Qed.
