{
 "claims": [
  {
   "property": "C01",
   "status": "partial",
   "theorems": [
    "C01_monus_is_residual",
    "C01_pair_arith",
    "C01_pair_order",
    "C01_pair_canonical",
    "C01_pair_constants",
    "C01_pair_sub_iff",
    "C01_pair_sub_refuted",
    "C01_datatype_arith",
    "C01_datatype_order",
    "C01_datatype_range_refuted",
    "C01_encodings_agree",
    "C01_encodings_agree_refuted",
    "C01_concrete",
    "C01_model_readback",
    "C01_uint_monus"
   ],
   "note": "Arithmetic, order, literals, canonical forms proved for both encodings; false for monus with an infinite subtrahend in the pair encoding (C01_pair_sub_refuted), so the encodings disagree (C01_encodings_agree_refuted); exact correctness region given by C01_pair_sub_iff. Datatype encoding admits negative payloads (C01_datatype_range_refuted)."
  },
  {
   "property": "C02",
   "status": "proved",
   "theorems": [
    "C02_implication_adjoint",
    "C02_implication_adjoint_datatype",
    "C02_coimplication_adjoint",
    "C02_coimplication_adjoint_datatype",
    "C02_operator_values",
    "C02_operator_values_datatype",
    "C02_bool_operators",
    "C02_opp_dual",
    "C02_opp_involutive",
    "C02_embed"
   ],
   "note": "Both EUReal encodings, Bool, and the reversed lattice."
  },
  {
   "property": "C03",
   "status": "proved",
   "theorems": [
    "C03_vcgen_is_semantics",
    "C03_no_loop_left"
   ],
   "note": "All statements except validate (C04), for every well-typed loop-free program; binom outside odds a:1 excluded by dist_in_range (see C21_binom_refuted)."
  },
  {
   "property": "C04",
   "status": "partial",
   "theorems": [
    "C04_compare_is_validate_assume",
    "C04_validate_correct_iff",
    "C04_validate_refuted",
    "C04_validate_not_extensional_refuted"
   ],
   "note": "False of the code: refuted, with the exact region where it holds and the documented compare law proved."
  },
  {
   "property": "C05",
   "status": "partial",
   "theorems": [
    "C05_negation_free_monotone",
    "C05_vc_monotone",
    "C05_check_sound_partial",
    "C05_check_lone_negate_refuted",
    "C05_check_branches_refuted"
   ],
   "note": "First half (negation-free programs) proved in full, loops included. Second half is false of the checker: refuted twice; sound under two extra conditions."
  },
  {
   "property": "C06",
   "status": "proved",
   "theorems": [
    "C06_apply_subst_correct"
   ],
   "note": "Every well-typed expression over declared variables, nested substitutions and capture included. Trigger annotations on quantifiers are not modelled."
  },
  {
   "property": "C07",
   "status": "proved",
   "theorems": [
    "C07_same_value",
    "C07_verification_question",
    "C07_top_question",
    "C07_bot_question",
    "C07_total",
    "C07_bool_comparison_refuted",
    "C07_size_refuted"
   ],
   "note": "Value and type preservation for the whole visitor and each of its three comparison rewriters, plus termination without panic, on all well-typed expressions. Bool comparisons introduced by the rewriting and the size claim of the module comment are refuted. Quantifier triggers and types outside Bool/numbers are not modelled."
  },
  {
   "property": "C08",
   "status": "partial",
   "theorems": [
    "C08_qelim_verified_partial",
    "C08_qelim_pointwise_partial",
    "C08_qelim_question_partial",
    "C08_duplicate_refuted"
   ],
   "note": "Validity preserved in both directions, alone and with the following substitution pass and Boolean question, for every well-typed expression in which no variable of a user-written quantifier that can be eliminated occurs outside that quantifier; refuted without that condition (a failing condition becomes valid)."
  },
  {
   "property": "C09",
   "status": "partial",
   "theorems": [
    "C09_constfold",
    "C09_constfold_total",
    "C09_constfold_sub_refuted",
    "C09_constfold_div_refuted",
    "C09_constfold_sup_refuted",
    "C09_constfold_inf_refuted",
    "C09_constfold_mul_refuted",
    "C09_constfold_u128_refuted",
    "C09_relational",
    "C09_relational_terminates",
    "C09_relational_le_refuted",
    "C09_relational_eq_refuted",
    "C09_relational_type_refuted",
    "C09_egraph_rules",
    "C09_egraph_subtraction_refuted"
   ],
   "note": "Constant folding and relational rewriting keep values and never panic under explicit conditions; each condition is shown necessary by a refutation. All e-graph rules are proved except two, which are refuted; the e-graph search itself (crate egg) is not modelled and its result is discarded by the code."
  },
  {
   "property": "C10",
   "status": "proved",
   "theorems": [
    "C10_unfold",
    "C10_unfold_verified",
    "C10_unfold_unsound_solver_refuted"
   ],
   "note": "For every oracle that never wrongly answers Unsat: no panic, no substitution left, type and value preserved in every state; needed as shown by a refutation. The SMT translation of the conditions and the solver are the oracle; resource limits are not modelled."
  },
  {
   "property": "C11",
   "status": "proved",
   "theorems": [
    "C11_vc_iff_meets",
    "C11_question_iff_meets_partial",
    "C11_encoding_iff_meets",
    "C11_lower_bounds"
   ],
   "note": "The verification condition of the encoded procedure is trivial in every state iff the preconditions bound the value of the postconditions before the body, for all procedures the generator accepts, both directions; the encoding theorem also covers loops. The theorem about the final solver question carries C43's restriction on user-written quantifiers and is named _partial."
  },
  {
   "property": "C12",
   "status": "proved",
   "theorems": [
    "C12_caller_sound",
    "C12_recursion_sound",
    "C12_greatest_solution",
    "C12_least_solution",
    "C12_no_post_refuted",
    "C12_duplicate_lhs_refuted",
    "C12_initialiser_refuted",
    "C12_permuted_arguments_refuted",
    "C12_permuted_results_refuted",
    "C12_let_post_refuted",
    "C12_least_recursion_refuted"
   ],
   "note": "Sound for all procedures, all callees that satisfy their specifications, and for arbitrary (mutual) recursion under the greatest (coprocs: least) solution, under explicit restrictions on calls; each restriction is shown necessary by a refutation that the code accepts. Completeness of call encoding is not claimed."
  },
  {
   "property": "C13",
   "status": "partial",
   "theorems": [
    "C13_induction_sound_partial",
    "C13_condition_sound_partial",
    "C13_transforms",
    "C13_havoc_refuted"
   ],
   "note": "Soundness for all k proved at the level of the encoding and of the generated condition; needs that the body havocs no outer variable it does not assign, which the code does not ensure (C13_havoc_refuted)."
  },
  {
   "property": "C14",
   "status": "partial",
   "theorems": [
    "C14_unroll_claims_partial",
    "C14_lfp_terminator_refuted",
    "C14_gfp_terminator_refuted",
    "C14_default_terminator_refuted",
    "C14_one_terminator_refuted"
   ],
   "note": "Claims proved for the terminators 0, 1 and infinity; false for other terminators (four refutations)."
  },
  {
   "property": "C15",
   "status": "partial",
   "theorems": [
    "C15_omega_down_partial",
    "C15_omega_rule_partial",
    "C15_omega_no_havoc_refuted",
    "C15_omega_up_refuted"
   ],
   "note": "Rule proved when the conditions hold in all reachable states; the code checks them only in front of the loop, and the upper direction from the wrong base (two refutations)."
  },
  {
   "property": "C16",
   "status": "partial",
   "theorems": [
    "C16_sound_partial",
    "C16_sound_refuted",
    "C16_complete_refuted",
    "C16_direction_refuted",
    "C16_ill_typed",
    "C16_exact_refuted"
   ],
   "note": "With the generated procedures the property is false: while true {} is accepted (C16_sound_refuted), the documented example is not (C16_complete_refuted). Proved for all loops over assignments, sampling, branches, nondeterminism and nested loops, with either fixpoint, from the first two generated procedures and the third condition as documented: expected iterations at most inv/eps. Bodies with assertions, assumptions or rewards are not covered."
  },
  {
   "property": "C17",
   "status": "partial",
   "theorems": [
    "C17_sound_partial",
    "C17_zero_probability_refuted",
    "C17_decrease_of_state_refuted",
    "C17_nondeterminism_refuted",
    "C17_exact_refuted"
   ],
   "note": "Proved for all loops over assignments, sampling, weights, branches and nested loops and all annotations whose two functions mention only their variable and are positive; refuted without each of these two conditions, which the tool does not check, and for bodies with demonic choice."
  },
  {
   "property": "C18",
   "status": "partial",
   "theorems": [
    "C18_calculus_proofs_sound_partial",
    "C18_calculus_refutations_sound_partial",
    "C18_proofs_sound_partial",
    "C18_refutations_sound_partial",
    "C18_ost_proofs_sound_partial",
    "C18_wp_refutation_refuted",
    "C18_wlp_refutation_refuted",
    "C18_wp_proof_refuted",
    "C18_wlp_proof_refuted",
    "C18_additive_refuted",
    "C18_unreliable"
   ],
   "note": "Soundness of reported proofs and refutations for all procedures with arbitrarily nested @invariant, @k_induction and @unroll loops, local variables and any other statements, when the annotations are reliable (induction in the direction of the fixpoint, unrolling from its end). Proofs also for procedures that end in an @ost loop without nondeterminism (C18_ost_proofs_sound_partial). Missing: bodies containing @omega_invariant, @past, @ast, or @ost elsewhere; each restriction on reliability is shown necessary by a refutation."
  },
  {
   "property": "C19",
   "status": "proved",
   "theorems": [
    "C19_recursive_found",
    "C19_components_exist",
    "C19_calculus_checked",
    "C19_nonrecursive_unique",
    "C19_greatest_is_least",
    "C19_accepted_sound",
    "C19_unannotated_callee_refuted",
    "C19_filter_refuted"
   ],
   "note": "For all programs and every correct component algorithm (the library's is not modelled; one is proved to exist). Calls inside operands are excluded, as by the type checker. The consequence for specifications needs every procedure to be annotated and selected; without either it is refuted."
  },
  {
   "property": "C20",
   "status": "partial",
   "theorems": [
    "C20_forwards_step",
    "C20_forwards_walk",
    "C20_backwards_negate",
    "C20_backwards_conegate_refuted"
   ],
   "note": "Forward walk characterised exactly; the backward walk is refuted for conegate."
  },
  {
   "property": "C21",
   "status": "partial",
   "theorems": [
    "C21_documented_mass",
    "C21_mass_one",
    "C21_flip_mass",
    "C21_binom_refuted",
    "C21_unif_empty_refuted",
    "C21_ber_zero_refuted",
    "C21_hyper_too_many_refuted",
    "C21_hyper_underflow_refuted"
   ],
   "note": "In-range parameters proved for all distributions except binom with other odds, where the documented mass is refuted; out-of-range crash refutations. Mass one for every outcome list."
  },
  {
   "property": "C22",
   "status": "proved",
   "theorems": [
    "C22_slices",
    "C22_all_on",
    "C22_original",
    "C22_vc"
   ],
   "note": "For all loop-free programs, filters, directions and sets of disabled statements, also when the preparation stops early; every state that meets the constraints on choices. Spans, messages and the sorting of the slice statements are not modelled."
  },
  {
   "property": "C23",
   "status": "partial",
   "theorems": [
    "C23_more_off",
    "C23_counterexample",
    "C23_verified_slice",
    "C23_default_verdict",
    "C23_threaded_direction_refuted",
    "C23_assumed_constraints_refuted"
   ],
   "note": "Effects, transfer of counterexamples and of verification, and equality of the verdict under default options proved for programs whose branches are neutral in their negations (nothing in the code checks this); refuted without that. The searches for verifying slices assume the constraints on choices, so a slice that removes both branches passes (refuted)."
  },
  {
   "property": "C24",
   "status": "partial",
   "theorems": [
    "C24_trial",
    "C24_assertions",
    "C24_terminates",
    "C24_minimal",
    "C24_verdict",
    "C24_accept_refuted",
    "C24_unknown_panic_refuted",
    "C24_accept_panic_refuted"
   ],
   "note": "Freshness, termination for every oracle, minimality for definite answers, and soundness of verdicts with default options proved. Refuted: a panic with default options after an unknown answer, and a wrong proof and a panic with the option to accept inconsistent models. Time limits are not modelled."
  },
  {
   "property": "C25",
   "status": "partial",
   "theorems": [
    "C25_block_unsat",
    "C25_block_sat",
    "C25_start",
    "C25_sound",
    "C25_complete",
    "C25_minimal",
    "C25_reductive_refuted"
   ],
   "note": "Blocking is exact; the search ends, never panics, returns only verifying slices, finds one if there is one, and minimal/smallest ones if no candidate is reductive, for every monotone truth function, every prover oracle with right answers and every solver for the exploration. Refuted for reductive candidates (assertions in @slice_verify annotations). Time limits and the 32-bit conversion of the size are not modelled."
  },
  {
   "property": "C26",
   "status": "partial",
   "theorems": [
    "C26_free_variables_exact",
    "C26_value_depends_on_free_only",
    "C26_only_written_variables_change",
    "C26_collected_complete_partial",
    "C26_havoc_not_collected_refuted"
   ],
   "note": "Free variables exact; modified variables complete unless a havocked variable is not also assigned; refuted for havoc."
  },
  {
   "property": "C27",
   "status": "proved",
   "theorems": [
    "C27_fresh_ident",
    "C27_clone_var",
    "C27_declarations_unique",
    "C27_same_base_distinct",
    "C27_undeclared_fresh_refuted"
   ],
   "note": "All symbol tables and histories; the counters alone do not give freshness across equally named bases (C27_undeclared_fresh_refuted), callers declare immediately."
  },
  {
   "property": "C28",
   "status": "proved",
   "theorems": [
    "C28_lookup",
    "C28_enter",
    "C28_leave",
    "C28_pop_mismatch",
    "C28_local_iter",
    "C28_resolve_expr",
    "C28_resolve_stmt",
    "C28_resolve_complete"
   ],
   "note": "Scope map laws for all balanced histories; the resolver is sound and complete for lexical scoping of expressions and statements. Declarations (procs, funcs, domains), types and function names are not modelled."
  },
  {
   "property": "C29",
   "status": "proved",
   "theorems": [
    "C29_graph",
    "C29_terminates",
    "C29_dependencies",
    "C29_unit_closed",
    "C29_callees_closed",
    "C29_closed",
    "C29_axioms_closed",
    "C29_only_needed",
    "C29_only_needed_sorts",
    "C29_recursive",
    "C29_self_defined",
    "C29_recursive_exact_refuted"
   ],
   "note": "For all files, both instantiation modes and all units: the graph is built without a failing assertion, the search ends, and what is passed on is exactly what is needed by the rules. The domains named by types are given with a declaration (types in the model have no domains)."
  },
  {
   "property": "C30",
   "status": "proved",
   "theorems": [
    "C30_success_means_proved",
    "C30_proved_means_success",
    "C30_no_verify",
    "C30_no_verify_output_fails",
    "C30_no_verify_refuted",
    "C30_shown_verified",
    "C30_shown_failed",
    "C30_shown_order_refuted"
   ],
   "note": "For all stage behaviours: exit code 0 iff every selected unit (kept by the filter or generated) is proved by a proof counted as sound, given that nothing else is reported and --no-verify is off. Refuted with --no-verify. The statuses of the editor: verified iff all are, order dependent otherwise (refuted). Stages are functions into results; time limits enter as inputs."
  },
  {
   "property": "C31",
   "status": "partial",
   "theorems": [
    "C31_question_partial",
    "C31_mapping",
    "C31_mapping_apart",
    "C31_success",
    "C31_verdict_refuted",
    "C31_answers_ignored",
    "C31_odd_refuted",
    "C31_generated_refuted"
   ],
   "note": "The question for a pair is equivalent to the comparison of the two semantics, under C43's restriction on user-written quantifiers. The overall statement is false and refuted: the command succeeds whatever the solver answers, unless it hits a limit, and it panics on an odd number of procedures. Missing: nothing else of the command's logic; the time limit on a whole run is an input."
  },
  {
   "property": "C32",
   "status": "partial",
   "theorems": [
    "C32_no_panic",
    "C32_encoder",
    "C32_sound",
    "C32_strengthened_sound",
    "C32_recursion_fuelled",
    "C32_recursion_recognised",
    "C32_models",
    "C32_counterexample",
    "C32_subtraction_refuted",
    "C32_infimum_refuted",
    "C32_strengthening_refuted",
    "C32_define_fun_rec_refuted",
    "C32_no_synonym_refuted",
    "C32_specs_only"
   ],
   "note": "For all well-typed declarations, all encodings, fuel bounds and dependency selections: no panic; proofs are sound without strengthening, and with it if recursion has fuel, as by default; with synonym axioms counterexamples are real. Refuted with the default options for bodies with subtraction or infima at EUReal, and for strengthening recursive functions without fuel. Patterns, weights, literal wrapping and domains of uninterpreted sorts are not modelled."
  },
  {
   "property": "C33",
   "status": "partial",
   "theorems": [
    "C33_order",
    "C33_conversion",
    "C33_no_panic",
    "C33_accepts_iff",
    "C33_unique",
    "C33_source_kept",
    "C33_strict",
    "C33_call",
    "C33_again",
    "C33_again_refuted",
    "C33_block_no_panic",
    "C33_block_iff",
    "C33_block_result",
    "C33_proc",
    "C33_func",
    "C33_axiom",
    "C33_well_typed",
    "C33_preconditions",
    "C33_axiom_translates",
    "C33_no_bool_comparison",
    "C33_bool_heyting_refuted",
    "C33_bool_lattice_refuted"
   ],
   "note": "For all parsed expressions, statements and declarations: the checker does not panic, accepts exactly what the declarative rules (with semantic subtyping) allow, changes only types and conversions, and its result is strictly typed; this gives the well-typedness assumed by the other properties, and translation to SMT without panic. Refuted for three Heyting operators at Bool (accepted, then a panic). Lists, strings and sorts of domains are not modelled."
  },
  {
   "property": "C34",
   "status": "partial",
   "theorems": [
    "C34_represented",
    "C34_invariant",
    "C34_one_value",
    "C34_select",
    "C34_store",
    "C34_stored",
    "C34_store_oob",
    "C34_eq_sound",
    "C34_eq_complete",
    "C34_eq_trans",
    "C34_eq_sym",
    "C34_no_panic",
    "C34_meaning",
    "C34_proved",
    "C34_exact",
    "C34_exact_only",
    "C34_elements_refuted",
    "C34_complete_refuted",
    "C34_nested_eq_refuted",
    "C34_congruence_refuted",
    "C34_len_refuted",
    "C34_shown",
    "C34_shown_differ"
   ],
   "note": "For all lists, indices and expressions that type check: select, store and len mean what is documented, equality is sound (and exact for elements that are no lists), proved formulas hold for all sequences if quantified types have an exact invariant, and values are shown faithfully. Refuted: the invariant says nothing about elements, equality of nested lists, congruence of equality, len of a non-list panics. Triggers and the SMT encoding of EUReal are left out here."
  },
  {
   "property": "C35",
   "status": "partial",
   "theorems": [
    "C35_reward",
    "C35_expressions",
    "C35_dtmc",
    "C35_no_panic",
    "C35_panics_refuted",
    "C35_loop_declaration_refuted",
    "C35_coassert_refuted",
    "C35_skip_refuted",
    "C35_names_refuted",
    "C35_reward_name_refuted",
    "C35_bool_min_refuted"
   ],
   "note": "For all accepted procedures that meet the stated conditions (distinct names, no Boolean coassert, literal initialisers not under a loop, no lattice operator on Booleans), the optimal total reward is the wp semantics of the verification task; DTMC models have no choices; expressions are translated soundly and without panics. Each condition is shown to be needed by a refutation. JANI's JSON syntax, definitions of functions and Storm are not modelled."
  },
  {
   "property": "C36",
   "status": "proved",
   "theorems": [
    "C36_expectation_is_weighted_sum",
    "C36_assignment"
   ],
   "note": "Any non-empty outcome list; plus the assignment statement."
  },
  {
   "property": "C37",
   "status": "partial",
   "theorems": [
    "C37_lower_bound_partial",
    "C37_replacement_partial",
    "C37_nondeterminism_refuted",
    "C37_procedure_partial",
    "C37_exact_refuted"
   ],
   "note": "Proved for all loops over assignments, sampling, weights, branches and nested loops and all annotations with a constant bound on the differences; the call that replaces the loop under-approximates it, also in whole procedures that end in such a loop after call-free statements; that it is exact, as reported, is refuted. Refuted for bodies with demonic choice."
  },
  {
   "property": "C38",
   "status": "proved",
   "theorems": [
    "C38_no_rule",
    "C38_no_loop",
    "C38_bare_loop_kept",
    "C38_bare_loop_stays_loop",
    "C38_loops_reported",
    "C38_inside_out",
    "C38_terminates",
    "C38_ost_is_last"
   ],
   "note": "For all programs, including the procedures generated for side conditions; termination of the visitor is proved although it visits what it generates."
  },
  {
   "property": "C39",
   "status": "partial",
   "theorems": [
    "C39_infimum",
    "C39_supremum",
    "C39_extrema_exist",
    "C39_datatype_infimum_partial",
    "C39_datatype_negative_junk_refuted"
   ],
   "note": "Proved for the pair encoding (infimum and supremum terms, existence); the datatype encoding only for canonical non-negative values (refuted otherwise)."
  },
  {
   "property": "C40",
   "status": "partial",
   "theorems": [
    "C40_verdict",
    "C40_assuming_verdict",
    "C40_sat",
    "C40_stale_cache_refuted",
    "C40_two_obligations_refuted"
   ],
   "note": "Right for all operation sequences in both modes when checks under extra assumptions are not followed by a plain check without an intervening change, and with one obligation per scope; both conditions are shown necessary by refutations. The solver is an oracle with right definite answers."
  },
  {
   "property": "C41",
   "status": "proved",
   "theorems": [
    "C41_no_panic",
    "C41_models",
    "C41_states",
    "C41_valid",
    "C41_fits",
    "C41_subtraction_refuted",
    "C41_division_refuted",
    "C41_remainder_refuted",
    "C41_bool_comparison_refuted"
   ],
   "note": "For all well-typed Boolean expressions with nested quantifiers, infima, suprema, calls and all arithmetic except subtraction at EUReal (shown wrong by a refutation), in both directions between structures and states; the side conditions are always satisfiable. The translator's cache (C51), literal wrapping (C55), triggers and the types List, Tuple and Domain are not modelled here. Structures are those in which division by zero stays in the type; others give spurious counterexamples (refuted)."
  },
  {
   "property": "C42",
   "status": "partial",
   "theorems": [
    "C42_symbol_stable",
    "C42_same_name_distinct",
    "C42_distinct_partial",
    "C42_collision_refuted",
    "C42_collision_fresh_refuted"
   ],
   "note": "Stable, and injective on equal names; refuted in general (suffix clash), proved without suffix clashes."
  },
  {
   "property": "C43",
   "status": "partial",
   "theorems": [
    "C43_question_partial",
    "C43_lower_partial",
    "C43_question_refuted",
    "C43_question_refuted_program",
    "C43_remove_parens",
    "C43_remove_parens_refuted"
   ],
   "note": "End-to-end equivalence from statements to the Boolean question for all option settings except opt_rel, for bodies whose user-written quantifiers occur only inside embeddings, comparisons, calls or conditions; refuted without that condition: a program that violates its specification in every state gets a valid question. The relational rewriting (off by default) is excluded because it is unsound by itself (C09)."
  },
  {
   "property": "C44",
   "status": "proved",
   "theorems": [
    "C44_first_wins",
    "C44_agreement",
    "C44_never_blocks",
    "C44_no_lost_wakeup",
    "C44_stopped_ends",
    "C44_terminates",
    "C44_stop_once",
    "C44_stop_only",
    "C44_stop_called",
    "C44_unsubscribed",
    "C44_deadline_refuted"
   ],
   "note": "For any number of threads and all interleavings of single accesses under sequential consistency. The effect of the handler (interrupting Z3) and the asynchronous timers are outside the model; that the deadline alone wakes nobody is stated as a refutation."
  },
  {
   "property": "C46",
   "status": "proved",
   "theorems": [
    "C46_removes",
    "C46_positions",
    "C46_length",
    "C46_utf8",
    "C46_none_left",
    "C46_twice",
    "C46_unclosed",
    "C46_strings_refuted"
   ],
   "note": "For all byte sequences: the result is the text with line and nested block comments replaced by spaces, of the same length, byte positions and UTF-8 kept. Refuted that string literals are respected."
  },
  {
   "property": "C47",
   "status": "partial",
   "theorems": [
    "C47_value_partial",
    "C47_entries_partial",
    "C47_total_partial",
    "C47_procedure_partial",
    "C47_call",
    "C47_invariant",
    "C47_unroll_partial",
    "C47_negation_rejected",
    "C47_negations_refuted",
    "C47_fold_refuted",
    "C47_validate_refuted",
    "C47_spans_refuted",
    "C47_dummy_refuted"
   ],
   "note": "Proved for core programs (what verification sees after desugaring) whenever the folded expressions are ones that constant folding keeps, statements are at distinct positions and there are no negations; each of these conditions is shown to be needed by a refutation. For calls, invariants and unrolled loops the statements relate one statement to its encoding; a statement about whole procedures with calls and loops is missing."
  },
  {
   "property": "C48",
   "status": "partial",
   "theorems": [
    "C48_unambiguous",
    "C48_expressions",
    "C48_checked",
    "C48_statements",
    "C48_procedures",
    "C48_reparsed",
    "C48_axioms",
    "C48_decimals_refuted",
    "C48_calls_unreadable",
    "C48_calls_refuted",
    "C48_calculus_lost",
    "C48_calculus_refuted",
    "C48_functions_unreadable",
    "C48_lets_refuted",
    "C48_quantifiers_refuted",
    "C48_triggers_refuted"
   ],
   "note": "Proved for programs without decimal literals, let, calls without results, calculus annotations and domain functions, and without quantifiers as operands, which the parser never returns; each of these is refuted. Triggers and string literals are not modelled. The statement about type checking is for expressions."
  },
  {
   "property": "C49",
   "status": "partial",
   "theorems": [
    "C49_shown",
    "C49_one_meaning",
    "C49_injective",
    "C49_literals",
    "C49_round_trip",
    "C49_integers",
    "C49_reals",
    "C49_reals_exact",
    "C49_reals_no_panic",
    "C49_model_integers",
    "C49_eureals",
    "C49_large_refuted",
    "C49_negative_refuted",
    "C49_division_refuted",
    "C49_infinity_refuted"
   ],
   "note": "Showing and literals proved in full. Reading the solver's values is proved exact whenever it succeeds; that it always succeeds is refuted. How the solver writes numerals and which terms it leaves unreduced are assumptions, as Z3 is not part of the repository."
  },
  {
   "property": "C50",
   "status": "partial",
   "theorems": [
    "C50_latest",
    "C50_replies",
    "C50_no_crash",
    "C50_shown",
    "C50_invalid",
    "C50_limit",
    "C50_claims",
    "C50_claims_refuted",
    "C50_range",
    "C50_empty_refuted",
    "C50_columns_refuted",
    "C50_lifetime",
    "C50_no_crash_refuted",
    "C50_protocol_refuted",
    "C50_replies_refuted",
    "C50_raw_refuted",
    "C50_cancelled_refuted",
    "C50_done_refuted",
    "C50_timeout_refuted",
    "C50_explanations_refuted"
   ],
   "note": "Proved for sessions in which nothing panics, and that nothing panics for polite clients and verifiers reporting about their file, up to about 5000 verifications; without the bound and for other messages of the protocol it is refuted. Places are proved for non-empty spans, with columns in characters. What the verifier computes is an input, and messages are assumed to arrive."
  },
  {
   "property": "C51",
   "status": "proved",
   "theorems": [
    "C51_no_panic",
    "C51_models",
    "C51_states",
    "C51_same",
    "C51_off",
    "C51_session_no_panic",
    "C51_session_models",
    "C51_session_states",
    "C51_once",
    "C51_eureal_refuted",
    "C51_wrapped_refuted",
    "C51_wrapped_off"
   ],
   "note": "For expressions without subtraction on EUReal, as C41 is. Once-only translation is proved without EUReal and quantifiers; for EUReal it is refuted, since t_eureal has no cache. That literal expressions are wrapped is refuted for answers from the cache and proved if nothing has more than two owners. Triggers, lists, domains and intrinsic functions are not modelled."
  },
  {
   "property": "C52",
   "status": "proved",
   "theorems": [
    "C52_values",
    "C52_refused",
    "C52_no_panic",
    "C52_others",
    "C52_no_leak",
    "C52_owners",
    "C52_copies",
    "C52_in_place",
    "C52_walk"
   ],
   "note": "Rc itself (counts, make_mut, drop) is modelled as documented, not verified. Addresses are not used again. Expressions that fail in the middle of a walk are not modelled."
  },
  {
   "property": "C53",
   "status": "partial",
   "theorems": [
    "C53_once",
    "C53_groups",
    "C53_values_partial",
    "C53_extra",
    "C53_slice",
    "C53_enabled",
    "C53_pre_partial",
    "C53_server",
    "C53_unassigned_refuted",
    "C53_infinity_refuted",
    "C53_open_real_refuted"
   ],
   "note": "C53_values_partial and C53_pre_partial assume that the model determines the truth values and the reals and that integers are numerals; without that they are false (C53_unassigned_refuted), and infinity or an open real may not be shown (C53_infinity_refuted, C53_open_real_refuted). For the pre-quantity the translation of the two conditions is assumed to be right in the state (C07 to C09, C46 and C51 are about it). The evaluation by the solver is a parameter, and completing one value is taken not to change later ones. Values of lists and of uninterpreted sorts and the texts are not modelled."
  },
  {
   "property": "C54",
   "status": "proved",
   "theorems": [
    "C54_found",
    "C54_not_found",
    "C54_one_line",
    "C54_reward",
    "C54_kinds",
    "C54_stopped",
    "C54_stop_seen",
    "C54_failed",
    "C54_panics",
    "C54_diagnostic",
    "C54_empty_refuted",
    "C54_exit",
    "C54_werr_refuted",
    "C54_timeout",
    "C54_timeout_given",
    "C54_timeout_refuted",
    "C54_arguments",
    "C54_exact",
    "C54_other_refuted",
    "C54_last_line_refuted"
   ],
   "note": "For all outputs of Storm, options and units; Storm, the file system and Docker are inputs. Where the code does less than one would expect it is refuted: no output at all panics, advice counts as a failure under --werr, the time limit is 0 in the last second, a property without a result gets that of the next one, and a result on an unfinished last line is not found. Paths and texts of messages are left out; \\d is read as an ASCII digit."
  },
  {
   "property": "C45",
   "status": "partial",
   "theorems": [
    "C45_new_reads",
    "C45_old_reads",
    "C45_new_unique",
    "C45_old_unique",
    "C45_new_accepts",
    "C45_old_accepts",
    "C45_brackets",
    "C45_fingerprints",
    "C45_both",
    "C45_both_rejects",
    "C45_no_panic",
    "C45_reported",
    "C45_reports",
    "C45_same_meaning",
    "C45_typable_refuted"
   ],
   "note": "For all texts: both grammars give exactly the trees grouped by their tables, uniquely; fingerprints decide equality up to associativity; mode both accepts iff the readings are equal in this sense, never panics, and equal readings have equal type and meaning. LALRPOP itself is not modelled: a generated parser is assumed to decide its grammar. Refuted that both readings have a type if one has."
  },
  {
   "property": "C55",
   "status": "proved",
   "theorems": [
    "C55_collected",
    "C55_panics",
    "C55_constant",
    "C55_axioms",
    "C55_same",
    "C55_models",
    "C55_states",
    "C55_valid",
    "C55_encoders",
    "C55_no_panic",
    "C55_documentation_refuted",
    "C55_no_axioms_refuted",
    "C55_names"
   ],
   "note": "For all expressions of the numeric and Boolean types, as C41; positions in the expression stand for pointers to its nodes (C52). Which expressions are marked in the computation axiom of a function is not modelled, but C55_same holds for all sets of marks. Triggers, lists and the cache are not modelled here. The example in the documentation of the collector is refuted."
  },
  {
   "property": "C56",
   "status": "proved",
   "theorems": [
    "C56_params",
    "C56_options",
    "C56_globals",
    "C56_option_lines",
    "C56_prefix",
    "C56_printed",
    "C56_silent",
    "C56_file",
    "C56_header",
    "C56_header_text",
    "C56_inside",
    "C56_apart",
    "C56_apart_refuted",
    "C56_marked",
    "C56_unmarked",
    "C56_unmarked_refuted",
    "C56_one_line_refuted",
    "C56_answer",
    "C56_answer_refuted",
    "C56_complexity",
    "C56_quantifiers",
    "C56_theories",
    "C56_shown",
    "C56_table"
   ],
   "note": "What Z3 prints for a solver, raco and the probes are inputs; Unix paths, no errors of the file system. C56_answer is about abstract sets of structures and the search of C24 with UnknownHandling::Stop, the default; that toggles on keep counterexamples is a hypothesis, and C56_answer_refuted shows with the models of C22 and C03 that it fails with --slice-verify. C56_inside needs a path that is not absolute. Refuted: files of different units can coincide, names can bring the MBQI prefix, identifiers of variants contain a newline."
  },
  {
   "property": "C57",
   "status": "proved",
   "theorems": [
    "C57_sound",
    "C57_complete",
    "C57_no_panic",
    "C57_declared",
    "C57_arguments_refuted",
    "C57_duplicates",
    "C57_imports_refuted",
    "C57_order",
    "C57_order_refuted",
    "C57_calculus",
    "C57_calculus_refuted",
    "C57_annotation",
    "C57_loop_variable_refuted",
    "C57_panic_refuted",
    "C57_builtin",
    "C57_builtin_refuted"
   ],
   "note": "Bodies are sequences of what the traversal meets; which of these each expression contributes is modelled for C28 and not composed with this. Completeness and no panic need identifiers of different declarations to differ (they have different spans). Refuted: no panics in general, order of domains and procedures, calculi hidden by parameters, loop variables leaking into the block, arguments of slicing annotations, redeclared imports, domains named like built-in types."
  },
  {
   "property": "C58",
   "status": "proved",
   "theorems": [
    "C58_plain",
    "C58_k_induction",
    "C58_bound",
    "C58_unroll",
    "C58_zero_refuted",
    "C58_zero_unroll_refuted",
    "C58_loop_free",
    "C58_single",
    "C58_single_refuted",
    "C58_erase",
    "C58_annotate",
    "C58_annotate_refuted",
    "C58_havoc_refuted",
    "C58_harmonize_refuted",
    "C58_ticks",
    "C58_ticks_unchanged",
    "C58_procedure"
   ],
   "note": "For all programs whose expressions are well typed and do not use the variable prob_choice, and expectations that do not either. Expressions are the HeyVL expressions that the translator prints: printing and parsing are not modelled, nor is the parser of pGCL. The procedure of the k-induction mode is its pre-expectation, its initial assignments and its body; that no program variable is named like an initial value (init_x) is a hypothesis. For lower bounds, greatest fixpoints are taken among all expectations, not only those below one; unrolling is proved for upper bounds only. k = 0, annotations in general, empty havocs and the optional stopping check are refuted."
  },
  {
   "property": "C59",
   "status": "proved",
   "theorems": [
    "C59_omega_lower",
    "C59_omega_upper",
    "C59_omega_meaning",
    "C59_rest_refuted",
    "C59_text_refuted",
    "C59_one_loop",
    "C59_omega_nested",
    "C59_counterexample",
    "C59_wlp_refuted",
    "C59_wlp_lower"
   ],
   "note": "For loops whose expressions are well typed and do not use prob_choice, n or the names of initial values. Bounded model checking is proved for upper bounds (wp, ert) only. That the bound holds for the program around the loop and that the comment for wlp is right are refuted. Lower bounds for wlp are proved if invariants and post-expectation are at most one, and refuted without. Substitution is done by the package probably and taken to be simultaneous."
  },
  {
   "property": "C60",
   "status": "proved",
   "theorems": [
    "C60_past_sound",
    "C60_zero_refuted",
    "C60_rejects"
   ],
   "note": "For loops whose expressions are well typed and do not use prob_choice or the names of initial values, and finite numbers. That eps is positive is a hypothesis, because the translator does not check it; without it the claim is refuted (C60_zero_refuted)."
  }
 ]
}