(** C32: axioms for user-defined functions. *)
From Coq Require Import Bool List String Relation_Operators.
From Verif.Model Require Depgraph.
From Verif.Model Require Import Syntax Translate Funcs.
From Verif.Spec Require Needs.
From Verif.Spec Require Import Eur Sem Exprs Translated Functions.
From Verif.Proofs Require Import TranslateRefuted FuncProps FuncTable FuncRefuted NamesProofs.
Import ListNotations.

(** Well-typed declarations are encoded without a panic. *)
Theorem C32_no_panic : forall isvar E c l, specs_ok isvar (filter (declared c) l) -> encoder_ok E l ->
  exists axs, init_dependencies isvar E c l = Ok axs.
Proof. exact functions_no_panic. Qed.
Print Assumptions C32_no_panic.
(** Encoders are made for the declarations they are made from. *)
Theorem C32_encoder : forall opt ns nsyn max recursive l E, NoDup (map dname l) -> mk_function_encoder opt ns nsyn max recursive l = Ok E -> encoder_ok E l.
Proof. exact made_encoder_ok. Qed.
Print Assumptions C32_encoder.

(** Without strengthening: what is proved with the axioms holds in every interpretation that satisfies the definitions. *)
Theorem C32_sound : forall isvar E c l axs e t cs, specs_ok isvar (filter (declared c) l) -> encoder_ok E l -> keeps_partial E ->
  init_dependencies isvar E c l = Ok axs ->
  translatable isvar (fsig_of (filter (declared c) l)) e = true -> ty_of e = TBool -> some eur_sub e = false ->
  translate isvar (fsig_of (filter (declared c) l)) (enc_call E (ambient E)) e = Ok (t, cs) -> proved axs cs t ->
  forall I, interp_ok I -> agreeing I -> satisfies I (filter (defined c) l) -> forall s, env_ok s -> eval I e s = VBool true.
Proof. exact functions_sound. Qed.
Print Assumptions C32_sound.

(** With strengthening, too, if whatever calls itself has fuel. *)
Theorem C32_strengthened_sound : forall isvar E c l axs e t cs, specs_ok isvar (filter (declared c) l) -> encoder_ok E l -> recursion_fuelled E (filter (defined c) l) ->
  init_dependencies isvar E c l = Ok axs ->
  translatable isvar (fsig_of (filter (declared c) l)) e = true -> ty_of e = TBool -> some eur_sub e = false ->
  translate isvar (fsig_of (filter (declared c) l)) (enc_call E (ambient E)) e = Ok (t, cs) -> proved axs cs t ->
  forall I, interp_ok I -> agreeing I -> satisfies I (filter (defined c) l) -> forall s, env_ok s -> eval I e s = VBool true.
Proof. exact strengthened_sound. Qed.
Print Assumptions C32_strengthened_sound.
(** It has fuel with the options for fuel, and so by default. *)
Theorem C32_recursion_fuelled : forall opt ns nsyn max recursive l E c, fuel_option opt = true -> mk_function_encoder opt ns nsyn max recursive l = Ok E ->
  (forall f, clos_trans _ (calls_of l) f f -> recursive f = true) -> recursion_fuelled E (filter (defined c) l).
Proof. exact made_fuelled. Qed.
Print Assumptions C32_recursion_fuelled.
(** Recursion is recognised by the dependency graph. *)
Theorem C32_recursion_recognised : forall m us g l, Depgraph.generate_depgraph m us = Ok g ->
  (forall d, In (DFun d) l -> exists doms, Needs.has_func us (Depgraph.mkdfunc (fname d) doms (fbody d))) ->
  exists N, forall n f, N <= n -> clos_trans _ (calls_of l) f f -> Depgraph.is_potentially_recursive g n f = Some true.
Proof. exact depgraph_fuelled. Qed.
Print Assumptions C32_recursion_recognised.

(** With synonym axioms: a structure that satisfies the axioms comes from an interpretation that satisfies the definitions. *)
Theorem C32_models : forall isvar E c l axs, specs_ok isvar (filter (declared c) l) -> encoder_ok E l -> linked E -> c <> DepSpecsOnly ->
  init_dependencies isvar E c l = Ok axs ->
  forall M, well_sorted (fsig_of (filter (declared c) l)) E M -> division_ok M -> Forall (fun a => a M = true) axs ->
  exists I, interp_ok I /\ agreeing I /\ satisfies I (filter (defined c) l) /\ fits (fsig_of (filter (declared c) l)) (enc_call E (ambient E)) I M.
Proof. exact functions_models. Qed.
Print Assumptions C32_models.
(** So counterexamples are real. *)
Theorem C32_counterexample : forall isvar E c l axs e t cs, specs_ok isvar (filter (declared c) l) -> encoder_ok E l -> linked E -> c <> DepSpecsOnly ->
  init_dependencies isvar E c l = Ok axs ->
  translatable isvar (fsig_of (filter (declared c) l)) e = true -> ty_of e = TBool -> some eur_sub e = false ->
  translate isvar (fsig_of (filter (declared c) l)) (enc_call E (ambient E)) e = Ok (t, cs) ->
  forall M, well_sorted (fsig_of (filter (declared c) l)) E M -> division_ok M -> Forall (fun a => a M = true) axs -> Forall (fun a => a M = true) cs -> t M = false ->
  exists I s, interp_ok I /\ agreeing I /\ satisfies I (filter (defined c) l) /\ env_ok s /\ eval I e s = VBool false.
Proof. exact functions_counterexample. Qed.
Print Assumptions C32_counterexample.

(** With default options, [func diff(x: EUReal, y: EUReal): EUReal = x - y] makes the axioms contradictory. *)
Theorem C32_subtraction_refuted : exists E, mk_function_encoder OptFuelParam false false 2 (fun _ => false) diff_specs = Ok E /\ contradictory E diff_specs.
Proof. exact diff_contradictory. Qed.
Print Assumptions C32_subtraction_refuted.
(** With default options, [f(0) == f(1)] is proved for [func f(x: EUReal): EUReal = inf y: EUReal. x + y]. *)
Theorem C32_infimum_refuted : exists E axs t cs, mk_function_encoder OptFuelParam false false 2 (fun _ => false) inf_specs = Ok E /\
  init_dependencies all_vars E DepAll inf_specs = Ok axs /\ translate all_vars (fsig_of inf_specs) (enc_call E (ambient E)) inf_query = Ok (t, cs) /\ proved axs cs t /\
  exists I, interp_ok I /\ agreeing I /\ satisfies I inf_specs /\ forall s, eval I inf_query s = VBool false.
Proof. exact inf_unsound. Qed.
Print Assumptions C32_infimum_refuted.
(** Strengthening to total functions is not sound for recursive functions without fuel. *)
Theorem C32_strengthening_refuted : (exists E, mk_function_encoder OptAxiomatic false false 2 (fun _ => true) neg_specs = Ok E /\ contradictory E neg_specs) /\
  (exists E, mk_function_encoder OptDecreasing false false 2 (fun _ => true) neg_specs = Ok E /\ contradictory E neg_specs) /\
  exists E, mk_function_encoder OptDefineFunRec true false 2 (fun _ => true) neg_specs = Ok E /\ contradictory E neg_specs.
Proof. exact neg_contradictory. Qed.
Print Assumptions C32_strengthening_refuted.
(** The option that needs strengthening is refused with it and accepted without. *)
Theorem C32_define_fun_rec_refuted : forall no_synonym max recursive l,
  (exists m, mk_function_encoder OptDefineFunRec false no_synonym max recursive l = Err m) /\ mk_function_encoder OptDefineFunRec true no_synonym max recursive l = Ok EncRecFun.
Proof. exact define_fun_rec_inverted. Qed.
Print Assumptions C32_define_fun_rec_refuted.
(** Without synonym axioms there are spurious counterexamples. *)
Theorem C32_no_synonym_refuted : exists E axs t cs, mk_function_encoder OptFuelParam false true 2 (fun _ => true) down_specs = Ok E /\
  specs_ok all_vars down_specs /\ encoder_ok E down_specs /\
  init_dependencies all_vars E DepAll down_specs = Ok axs /\ translate all_vars (fsig_of down_specs) (enc_call E (ambient E)) down_query = Ok (t, cs) /\
  (exists M, well_sorted (fsig_of down_specs) E M /\ division_ok M /\ Forall (fun a => a M = true) axs /\ Forall (fun a => a M = true) cs /\ t M = false) /\
  forall I s, interp_ok I -> satisfies I down_specs -> eval I down_query s = VBool true.
Proof. exact down_spurious. Qed.
Print Assumptions C32_no_synonym_refuted.

Example C32_declarations : specs_ok all_vars down_specs /\ mk_function_encoder OptFuelParam true false 2 (fun _ => true) down_specs = Ok down_encoder /\
  keeps_partial down_encoder /\ linked down_encoder /\ exists I, interp_ok I /\ agreeing I /\ satisfies I down_specs.
Proof. exact down_ok. Qed.
Example C32_default : exists E, mk_function_encoder OptFuelParam false false 2 (fun _ => true) down_specs = Ok E /\ encoder_ok E down_specs /\
  recursion_fuelled E down_specs /\ ~ keeps_partial E /\ calls_of down_specs "f" "f".
Proof. exact down_fuelled. Qed.
Example C32_query : translatable all_vars (fsig_of down_specs) down_query = true /\ ty_of down_query = TBool /\ some eur_sub down_query = false.
Proof. exact down_query_ok. Qed.

(** If only the declarations are asked for, there are no axioms at all (and no panic), whatever is declared. *)
Theorem C32_specs_only : forall isvar E l, init_dependencies isvar E DepSpecsOnly l = Ok [].
Proof. exact specs_only. Qed.
Print Assumptions C32_specs_only.
