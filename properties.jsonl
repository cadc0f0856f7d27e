{"id": "C01", "title": "Extended-real arithmetic handed to the solver means what the language reference says", "statement": "For each EUReal operation a HeyVL program can use (literal, +, monus -, *, comparison, min/max, if-then-else), the SMT term Caesar builds evaluates, in every model that satisfies the declared invariant, to the value of that operation on [0,oo]; in particular the two selectable number encodings (pair and datatype) agree on every input.", "quantifier": "all pairs of extended non-negative reals and all of their representations in either encoding", "why_tests_cant": "The carrier is infinite and a value has many representations in the pair encoding; tests sample a few literals (and sample no subtraction).", "anchors": ["z3rro/src/eureal/pair.rs: EUReal Add/Sub/Mul, cmp, SmtInvariant", "z3rro/src/eureal/datatype.rs: EUReal Add/Sub/Mul", "z3rro/src/eureal/mod.rs", "website/docs/stdlib/numbers.md"]}
{"id": "C02", "title": "Order operators are the Heyting/co-Heyting operators, and dual", "statement": "The encodings of ->, <-, compare, cocompare, !, ~, embed, inf, sup satisfy the algebra the verification calculus relies on: c <= (a -> b) iff min(c,a) <= b, and dually; compare is two-valued and equals top iff a <= b; every operator on the reversed lattice is its dual.", "quantifier": "all triples of lattice elements, for Bool and EUReal and the order-reversed wrapper", "why_tests_cant": "Adjunction is a statement about all triples over an infinite lattice.", "anchors": ["z3rro/src/orders.rs: SmtPartialOrd, SmtLattice, Opp", "src/smt/translate_exprs.rs: t_bool, t_eureal"]}
{"id": "C03", "title": "The verification condition of a HeyVL program is its documented semantics", "statement": "For every loop-free HeyVL statement, direction-respecting or not, and every post-expectation, the expression produced by the verification-condition generator evaluates in every state to the pre-expectation given by the table in the statements reference (havoc/cohavoc are inf/sup, assert/assume are meet/implication, reward adds, weigh multiplies, the four choices).", "quantifier": "all loop-free statements of any nesting depth, all post-expectations, all program states", "why_tests_cant": "Programs, posts and states are all unbounded.", "anchors": ["src/vc/vcgen.rs: Vcgen::vcgen_stmts, vcgen_stmt", "website/docs/heyvl/statements.md"]}
{"id": "C04", "title": "validate/covalidate are the documented quantitative-to-qualitative casts", "statement": "validate turns a post-expectation into top exactly where it is top and bottom elsewhere (= conegate;conegate, so that compare f = validate; assume f), and covalidate dually.", "quantifier": "all post-expectations and states, both directions", "why_tests_cant": "Needs all non-extremal values of the post, not the extremal ones tests use.", "anchors": ["src/vc/vcgen.rs: Validate arm", "website/docs/heyvl/statements.md"]}
{"id": "C05", "title": "Verification conditions are monotone in the post-expectation", "statement": "If a program contains no negation-like statement (negate, conegate, and post-inspecting optimisations), a larger post-expectation never yields a smaller pre-expectation; the monotonicity check performed by the front end accepts only programs for which this holds.", "quantifier": "all statements accepted by the check, all ordered pairs of posts, all states", "why_tests_cant": "Universal over pairs of functions on an infinite state space.", "anchors": ["src/procs/monotonicity.rs", "src/vc/vcgen.rs"]}
{"id": "C06", "title": "Substitution elimination preserves meaning and avoids capture", "statement": "Removing the explicit substitutions of a verification condition yields an expression with no substitution left that has the same value in every state, including under quantifiers whose bound variables clash with the substituted terms.", "quantifier": "all expressions with arbitrarily nested substitutions and quantifiers, all states", "why_tests_cant": "Capture needs adversarial name clashes under unbounded nesting.", "anchors": ["src/vc/subst.rs: Subst, apply_subst", "src/tyctx.rs: clone_var"]}
{"id": "C07", "title": "Boolification preserves the verification question", "statement": "Rewriting the comparison of a verification condition with a bound (top/bottom/<=) into Boolean form never changes whether it holds in a state.", "quantifier": "all well-typed expressions, all states", "why_tests_cant": "Rewriting recurses on arbitrarily nested expressions, over reals.", "anchors": ["src/opt/boolify.rs"]}
{"id": "C08", "title": "Quantifier elimination preserves validity", "statement": "After eliminating quantitative quantifiers a verification condition is valid (resp. invalid) exactly when the original one is, for every well-typed input.", "quantifier": "all expressions whose quantifiers are eliminated, all states", "why_tests_cant": "Validity ranges over all states, and elimination shares bound variables across copies.", "anchors": ["src/opt/qelim.rs"]}
{"id": "C09", "title": "Constant folding and relational rewriting preserve values", "statement": "The optional expression simplifications replace an expression only by one with the same value in every state, and never crash on a well-typed expression.", "quantifier": "all expressions of any type, all states", "why_tests_cant": "Algebraic identities over infinite carriers and machine-integer corner cases.", "anchors": ["src/opt/constfold.rs", "src/opt/relational.rs", "src/opt/egraph.rs"]}
{"id": "C10", "title": "Unfolding removes substitutions lazily and drops only irrelevant parts", "statement": "Unfolding a verification condition yields an expression that is bottom in a state (counterexample) exactly where the original one is, whatever the solver answers to the reachability queries as long as those answers are sound.", "quantifier": "all expressions, all states, all sound answer sequences of the solver", "why_tests_cant": "The set of pruned branches depends on every solver answer.", "anchors": ["src/vc/subst.rs", "src/opt/unfolder.rs: Unfolder::visit_expr, with_sat, with_nonbot, with_nontop"]}
{"id": "C11", "title": "A verified procedure satisfies its specification", "statement": "If the verification condition of a proc is valid, then in every initial state its pre-expectation is a lower bound of the expected value of its post-expectation after running the body; dually upper bound for a coproc.", "quantifier": "all procedures, inputs and initial states", "why_tests_cant": "Unbounded states and bodies.", "anchors": ["src/procs/proc_verify.rs: encode_proc_verify, to_direction_lower_bounds"]}
{"id": "C12", "title": "Replacing a call by its specification is sound", "statement": "If a callee satisfies its specification, replacing the call by that specification never makes the caller's lower bound larger (upper bound smaller) than running the callee; arguments may be any expressions, including permutations of the callee's parameter names.", "quantifier": "all callees, argument lists, caller post-expectations and states", "why_tests_cant": "The failing cases depend on name clashes between arguments and parameters.", "anchors": ["src/procs/spec_call.rs: encode_assign, visit_stmt, subst"]}
{"id": "C13", "title": "Park and k-induction bound the loop they annotate", "statement": "If the encoding of a loop annotated with @invariant or @k_induction verifies, the loop's true (greatest/least) fixpoint semantics is bounded by the invariant in the initial state, for every k >= 1.", "quantifier": "all loop bodies, guards, invariants, k, posts and states", "why_tests_cant": "Fixpoints over infinite state spaces; tests only run concrete loops.", "anchors": ["src/proof_rules/induction.rs: InvariantAnnotation, KIndAnnotation, transform_k_induction", "src/proof_rules/util.rs: ModifiedVariableCollector use"]}
{"id": "C14", "title": "Loop unrolling is classified with the right approximation", "statement": "Unrolling a loop k times with a terminator is an under-approximation of the least fixpoint (over- of the greatest) exactly as claimed by the soundness report.", "quantifier": "all loops, k, terminators, posts, states", "why_tests_cant": "Relation to a fixpoint, for every k.", "anchors": ["src/proof_rules/unroll.rs: transform, get_approximation"]}
{"id": "C15", "title": "omega-invariants bound the loop", "statement": "If the encoding of a loop annotated with @omega_invariant verifies then the limit of the invariant sequence is a lower bound of the least fixpoint (upper bound of the greatest).", "quantifier": "all loops, omega-invariants, posts, states", "why_tests_cant": "Infinite sequences and fixpoints.", "anchors": ["src/proof_rules/omega.rs: transform"]}
{"id": "C16", "title": "Positive almost-sure termination rule is sound", "statement": "If all generated obligations of @past verify then the annotated loop terminates in finite expected time from every state.", "quantifier": "all loops, invariants, eps, k", "why_tests_cant": "Termination over infinitely many executions.", "anchors": ["src/proof_rules/past.rs: transform", "website/docs/proof-rules/past.md"]}
{"id": "C17", "title": "Almost-sure termination rule is sound", "statement": "If all generated obligations of @ast verify then the annotated loop terminates almost surely from every state satisfying the invariant.", "quantifier": "all loops and annotation arguments", "why_tests_cant": "Termination with probability one over infinitely many executions.", "anchors": ["src/proof_rules/mciver_ast.rs: transform", "website/docs/proof-rules/ast.md"]}
{"id": "C18", "title": "Reported soundness of proofs and refutations is correct", "statement": "When the tool reports that verification of a procedure is a sound proof (or a counterexample a sound refutation), the encoded procedure really under- (over-) approximates the original one.", "quantifier": "all procedures with nested proof rules", "why_tests_cant": "The claim composes approximations through arbitrarily nested statements.", "anchors": ["src/proof_rules/calculus/soundness_checker.rs: ProcSoundness, track_approximation_in_statement, infimum"]}
{"id": "C19", "title": "Recursive procedures are found", "statement": "A procedure is reported as recursive if and only if it can reach itself through a chain of one or more calls; calculus restrictions are applied to exactly these.", "quantifier": "all finite call graphs", "why_tests_cant": "Chains are of unbounded length.", "anchors": ["src/proof_rules/calculus/recursion_checker.rs", "src/proof_rules/calculus/calculus_checker.rs"]}
{"id": "C20", "title": "Direction tracking through negations is consistent", "statement": "Walking a statement list forwards and backwards assigns every statement the same direction, and accepted negations flip the direction exactly once.", "quantifier": "all statement sequences", "why_tests_cant": "Sequences of unbounded length.", "anchors": ["src/proof_rules/negations.rs: handle_negation_forwards, handle_negation_backwards"]}
{"id": "C21", "title": "Built-in distributions are probability distributions with the documented mass", "statement": "flip, unif, binom, hyper, ber: for every parameter tuple in the documented range the value/probability list sums to one and gives each outcome its documented probability; outside of it the tool does not crash.", "quantifier": "all parameter tuples", "why_tests_cant": "Infinite parameter space with combinatorial sums.", "anchors": ["src/intrinsic/distributions.rs"]}
{"id": "C22", "title": "Slicing is faithful: everything on is the program, everything off is irrelevant", "statement": "The sliceable program with all statements enabled has exactly the pre-expectation of the original program, and with a statement disabled exactly the pre-expectation of the program with this statement removed.", "quantifier": "all statements, all subsets of disabled statements, all posts and states", "why_tests_cant": "Exponentially many slices of unbounded programs.", "anchors": ["src/slicing/transform.rs: StmtSliceVisitor"]}
{"id": "C23", "title": "Slice selection effects are correctly classified", "statement": "Disabling a statement classified as concordant never lowers (discordant never raises) the pre-expectation in the tracked direction, hence error slices preserve failure and verification witnesses preserve success.", "quantifier": "all statements, selections, posts and states", "why_tests_cant": "Universal over slices and states.", "anchors": ["src/slicing/transform.rs: effects", "src/slicing/selection.rs: SliceEffect, SliceSelection"]}
{"id": "C24", "title": "Minimising slice search terminates and is right", "statement": "The partial binary search always proposes a fresh value inside the undecided range, terminates, and returns the least accepted size if answers are monotone and definite.", "quantifier": "all sizes and all answer sequences incl. unknown", "why_tests_cant": "All adaptive answer sequences.", "anchors": ["src/slicing/util.rs: PartialMinimizer", "src/slicing/solver.rs: slice_sat_binary_search"]}
{"id": "C25", "title": "Subset exploration never skips a minimal slice", "statement": "The exploration blocks a candidate set only if it is implied by monotonicity to have an already known answer, never returns a blocked set, and when exhausted every set is classified.", "quantifier": "all finite ground sets, monotone oracles and interleavings of block operations", "why_tests_cant": "Exponential search space.", "anchors": ["src/slicing/util.rs: SubsetExploration"]}
{"id": "C26", "title": "Modified and free variable computations are complete", "statement": "Every program variable whose value can differ after a statement is reported as modified (and so havoced by loop rules); every variable an expression's value depends on is reported free.", "quantifier": "all statements/expressions and states", "why_tests_cant": "Semantic dependency over all states.", "anchors": ["src/ast/util.rs: ModifiedVariableCollector, FreeVariableCollector"]}
{"id": "C27", "title": "Fresh names are fresh", "statement": "A generated identifier never equals a name already declared, for any declaration history.", "quantifier": "all declaration histories", "why_tests_cant": "Unbounded histories.", "anchors": ["src/tyctx.rs: fresh_ident, clone_var, declare", "src/scope_map.rs"]}
{"id": "C28", "title": "Lexical scoping", "statement": "Name lookup returns the innermost enclosing declaration, and leaving a scope restores exactly the previous view.", "quantifier": "all balanced sequences of scope operations", "why_tests_cant": "Unbounded histories.", "anchors": ["src/scope_map.rs: ScopeMap", "src/front/resolve.rs"]}
{"id": "C29", "title": "Declarations shipped to the solver are closed under dependency", "statement": "The set of declarations emitted for a verification unit contains everything transitively referenced from it and nothing else; potentially recursive functions are recognised.", "quantifier": "all dependency graphs", "why_tests_cant": "Paths of unbounded length.", "anchors": ["src/depgraph.rs: get_reachable, is_potentially_recursive"]}
{"id": "C30", "title": "Overall verdict and exit code", "statement": "The verifier reports success exactly if every selected unit verified; any counterexample, unknown or timeout makes it fail.", "quantifier": "all lists of units and results", "why_tests_cant": "All combinations of results.", "anchors": ["src/driver/commands/verify.rs", "src/driver/front.rs", "src/driver/smt_proof.rs"]}
{"id": "C31", "title": "Entailment/refinement command", "statement": "The refinement command reports success exactly if every compared pair of procedures satisfies the refinement relation.", "quantifier": "all files/programs/results", "why_tests_cant": "All program pairs.", "anchors": ["src/driver/commands/refinement.rs"]}
{"id": "C32", "title": "User-defined functions encodings are conservative", "statement": "Every model of the user's definitions extends to a model of the axioms Caesar generates for functions under every selectable function encoding; hence no valid claim is lost and no false claim gained by the encoding (up to incompleteness).", "quantifier": "all function definitions, arguments, fuel bounds", "why_tests_cant": "Infinite unrolling.", "anchors": ["src/smt/funcs/**"]}
{"id": "C33", "title": "Type checking guarantees well-defined verification conditions", "statement": "A program accepted by the type checker never leads to a failing translation: every produced expression translates and evaluates at its declared type.", "quantifier": "all programs accepted by the checker", "why_tests_cant": "Unbounded programs.", "anchors": ["src/front/tycheck.rs", "src/smt/translate_exprs.rs"]}
{"id": "C34", "title": "Built-in lists behave as sequences", "statement": "select, store, len and == have, for every list and index, the documented meaning in the SMT encoding; whatever the solver proves about expressions with lists holds for all sequences; a counterexample shows exactly the elements of the list.", "quantifier": "all list values of any length, all indices, all expressions that type check", "why_tests_cant": "Lists, array models and expressions are unbounded; the encoding has values (arrays out of bounds, negative elements) that no test list has.", "anchors": ["src/intrinsic/list.rs: SelectIntrin, StoreIntrin, LenIntrin", "z3rro/src/list.rs: List, ConcreteList", "z3rro/src/array.rs: ConcreteArrayValue", "src/smt/translate_exprs.rs: t_list"]}
{"id": "C35", "title": "Model checking export preserves the reward semantics", "statement": "The optimal total reward of the JANI model of a procedure, from every initial state, is the least-fixed-point semantics of the procedure's verification task; a model declared to be a DTMC has no choices.", "quantifier": "all procedures that are accepted, all initial states, executions of any length", "why_tests_cant": "Programs, loops and executions are unbounded; rewards are limits of infinitely many steps.", "anchors": ["src/mc/mod.rs: proc_to_model, ExprTranslator, translate_variables", "src/mc/opsem.rs: translate_stmt, translate_block", "src/mc/specs.rs: SpecAutomaton, extract_preconditions, extract_post", "jani/src/{exprs,models,properties}.rs"]}
{"id": "C36", "title": "Expected-value built-ins", "statement": "Assigning from a distribution equals the probability-weighted sum of the post over its outcomes.", "quantifier": "all finite distributions, posts and states", "why_tests_cant": "All posts.", "anchors": ["src/intrinsic/distributions.rs: expectation", "src/vc/vcgen.rs: generate_assign"]}
{"id": "C37", "title": "Optional stopping rule", "statement": "If the obligations of @ost verify the annotated lower bound holds for the loop's expected value.", "quantifier": "all loops and annotation arguments", "why_tests_cant": "Infinite executions.", "anchors": ["src/proof_rules/ost.rs: transform"]}
{"id": "C38", "title": "Annotated loop desugaring leaves no loop behind", "statement": "After proof-rule application no while statement or proof-rule annotation remains, nested loops are encoded inside-out, and a loop without a rule is reported rather than silently dropped.", "quantifier": "all programs", "why_tests_cant": "Unbounded nesting.", "anchors": ["src/proof_rules/mod.rs: EncodingVisitor"]}
{"id": "C39", "title": "Quantitative infimum/supremum terms denote infima/suprema", "statement": "The auxiliary constants introduced for inf/sup quantifiers, constrained by bound and extremality axioms, can only be interpreted as the infimum/supremum, and such an interpretation always exists.", "quantifier": "all families of extended reals over any index set", "why_tests_cant": "Infinite families.", "anchors": ["z3rro/src/orders.rs: SmtLattice::infimum, supremum", "src/smt/translate_exprs.rs: Quant"]}
{"id": "C40", "title": "Solver answers are mapped to the right verdict", "statement": "Unsat of the negated condition is reported as proof, sat as counterexample, unknown never as either, under every nesting of push/pop and minimum level.", "quantifier": "all sequences of prover operations", "why_tests_cant": "Unbounded push/pop histories.", "anchors": ["z3rro/src/prover.rs: Prover"]}
{"id": "C41", "title": "Expression translation to SMT preserves meaning", "statement": "For every well-typed expression whose operators the translator supports, the SMT term it builds has, in every model satisfying the emitted side conditions, the value the language gives the expression; unsupported combinations panic rather than being mistranslated.", "quantifier": "all well-typed expressions, all models and states", "why_tests_cant": "Unbounded expressions over infinite carriers.", "anchors": ["src/smt/translate_exprs.rs: t_bool, t_int, t_uint, t_real, t_ureal, t_eureal, t_pair"]}
{"id": "C42", "title": "Distinct variables stay distinct in the solver", "statement": "The symbol table for the solver maps each program variable to one symbol at every request and never gives two different variables the same symbol.", "quantifier": "all sequences of requests, all identifiers (user-written and tool-generated)", "why_tests_cant": "Collisions need particular combinations of shadowing and suffixes; the request order is unbounded.", "anchors": ["src/smt/symbols.rs: Symbolizer::get", "src/smt/translate_exprs.rs: init_local", "src/tyctx.rs: fresh_ident"]}
{"id": "C43", "title": "The solver question is equivalent to the specification", "statement": "For every loop-free procedure body, every direction and every setting of the default-on optimizations, the Boolean formula handed to the SMT translation is valid exactly if the weakest pre-expectation of the body (pre and post encoded as assume and assert) is top (proc) or bottom (coproc) in every state.", "quantifier": "all well-typed statement blocks, all interpretations and states, all sound solvers used by the unfolder", "why_tests_cant": "Composition of six passes over unbounded programs and uncountably many states.", "anchors": ["src/driver/core_verify.rs: vcgen", "src/driver/quant_proof.rs: lower_quant_prove_task, QuantVcProveTask", "src/opt/mod.rs: RemoveParens", "src/vc/vcgen.rs", "src/opt/unfolder.rs", "src/opt/qelim.rs", "src/opt/boolify.rs"]}
{"id": "C44", "title": "Stop notifications", "statement": "When work is stopped (timeout, memory, cancellation), the first reason wins, every watcher that exists or is being created is woken and calls its handler exactly once unless its work was done, nobody blocks while holding the mutex, and no subscription is left behind.", "quantifier": "all numbers of threads and all interleavings of their accesses to shared state", "why_tests_cant": "Races between subscribing and cancelling need particular interleavings; the two unit tests cover two.", "anchors": ["src/resource_limits.rs: LimitsRefData::{subscribe,unsubscribe,set_error}", "src/resource_limits.rs: LimitsRef::{check_limits,spawn_until_stopped_or_done}", "src/slicing/solver.rs: run_prover_interruptibly"]}
{"id": "C46", "title": "Comments are removed and nothing else", "statement": "Before parsing, line comments and nested block comments are replaced by spaces of the same length; every other byte stays where it is, UTF-8 stays UTF-8, and no comment is left.", "quantifier": "all byte sequences", "why_tests_cant": "Unbounded nesting and overlapping delimiters; positions in error messages rely on the length.", "anchors": ["src/front/parser/mod.rs: remove_comments"]}
{"id": "C47", "title": "Explanations show the semantics", "statement": "Computing the verification condition with explanations gives the same value as computing it without; every entry of the explanation is at a statement or closing brace and every step shown there has the value of the rest of the program; explaining succeeds whenever verification does. At a call it shows the callee's preconditions, at a loop with an invariant the invariant, at an unrolled loop the unrolled loop.", "quantifier": "all programs, postexpectations, states and interpretations", "why_tests_cant": "Programs and nestings of blocks are unbounded; agreement of two expressions has to hold in every state.", "anchors": ["src/vc/explain.rs: VcExplanation, explain_subst, explain_proc_call, explain_annotated_while, explain_decl_vc, explain_raw_vc", "src/vc/vcgen.rs: vcgen_stmt, vcgen_block with explanation"]}
{"id": "C48", "title": "Printed programs are read back", "statement": "The text that --print-parsed and --print-core show for an expression, statement or procedure is accepted by the grammar, the grammar reads it in one way only, and the result is the printed program up to brackets and is checked in the same way.", "quantifier": "all expressions, statements, procedures and line breakings", "why_tests_cant": "Programs are nested without bound and the printer's choice of line breaks depends on the width of the terminal; that no other reading exists is a statement about all derivations.", "anchors": ["src/pretty.rs", "src/ast/expr.rs: SimplePretty for Expr, LitKind", "src/ast/stmt.rs: SimplePretty for StmtKind", "src/ast/decl.rs: SimplePretty for ProcDecl, DomainDecl, FuncDecl", "src/front/parser/grammar.lalrpop"]}
{"id": "C49", "title": "Numbers are read and shown exactly", "statement": "A rational is shown as a text that means this rational and no other; decimal literals and the solver's numerals are read as the number that they are, or refused, and never as another number.", "quantifier": "all numerators, denominators, limits of digits and digit sequences", "why_tests_cant": "The repeating part of a decimal is a statement about infinitely many digits, and the texts for numbers beyond 64 bits have no bound on their length.", "anchors": ["z3rro/src/util.rs: PrettyRational, parse_big_int", "z3rro/src/model.rs: SmtEval for Bool, Int, Real", "z3rro/src/eureal/pair.rs: SmtEval for EUReal", "src/front/parser/parser_util.rs: parse_decimal"]}
{"id": "C50", "title": "The language server shows what was found for the latest text", "statement": "Whatever the client sends and whenever verifications finish: each requested verification is of the latest text sent before the request and is answered once; afterwards exactly the results, diagnostics and explanations found are shown, at their places in the text; nothing is ever shown as verified or refuted that was not found so; and a client that follows the protocol does not make the server panic.", "quantifier": "all verifiers, sequences of messages, documents, texts and moments at which tasks finish", "why_tests_cant": "The loop interleaves a task with queued notifications and cancellation; tests run single requests, and failures depend on the history of all documents and on the number of earlier verifications.", "anchors": ["src/servers/lsp.rs: LspServer, RunningQueue, run_lsp_server", "src/servers/mod.rs: VerifyStatusList", "src/ast/diagnostic.rs: Files, Span::to_lsp", "src/driver/commands/verify.rs: verify_files_main"]}
{"id": "C51", "title": "The cache of the translation does not change what is translated", "statement": "Whatever pointers a program's expressions have and however many owners each has at each moment: with the cache, structures that meet the constraints are states in which the expression has the value of the term and every state is such a structure, for one question and for a translator that is asked again and again, also under quantifiers and with changes to how calls are written; shared expressions are translated once.", "quantifier": "all expressions, assignments of pointers, numbers of owners over time, sequences of questions and changes of encoding, interpretations, structures and states", "why_tests_cant": "Hits depend on reference counts at run time and on scope levels; a stale entry would show only if an expression is visited again after a symbol, quantifier scope or encoding changed, which few tests reach.", "anchors": ["src/smt/translate_exprs.rs: TranslateCache, is_expr_worth_caching, t_bool .. t_eureal, set_literal_exprs, clear_cache", "src/ast/shared.rs: Shared, RefEqShared", "src/smt/funcs/fuel/fuel_mono.rs, fuel_param.rs: set_fuel_context"]}
{"id": "C52", "title": "Shared expressions behave like values", "statement": "Whatever a program does with the copy-on-write handles it owns (cloning parts, building, changing below a path, moving, dropping): the handles stand for the trees that the same operations on trees make, handles held elsewhere stand for what they stood for, no freed node is used, none is left when all handles are dropped, counts are numbers of owners, and a mutable walk leaves a tree in which nothing is shared.", "quantifier": "all label types, sequences of operations, heaps, paths, sets of handles held elsewhere, choices of handles kept during a walk", "why_tests_cant": "Aliasing shows only if two owners of one node exist when one of them changes it; which nodes are shared depends on the whole run before.", "anchors": ["src/ast/shared.rs: Shared, RefEqShared", "src/ast/visit.rs: walk_expr", "src/smt/funcs/fuel/literals.rs: LiteralExprCollector"]}
{"id": "C53", "title": "A counterexample is shown as the solver's model says", "statement": "Every variable is shown once, in its group and in order, with its value in one completion of the solver's model; a definition of the model is listed as extra exactly if nothing shown reads it, also after failed evaluations; statements are shown as part of the error exactly if selected and not switched off; the pre-quantity shown is the value of the original program, that of the slice the value of the program without the statements switched off; terminal and language server agree.", "quantifier": "all solver models, terms, variables, selections, programs without loops, states, interpretations", "why_tests_cant": "What is shown depends on which constants the solver leaves open and on the order of accesses; tests look at particular outputs.", "anchors": ["z3rro/src/model.rs: InstrumentedModel, AccessedDecls, SmtEval", "src/slicing/model.rs: SliceModel", "src/smt/pretty_model.rs: pretty_model, pretty_vc_value, pretty_globals, pretty_unaccessed", "src/driver/smt_proof.rs: print_prove_result, emit_diagnostics"]}
{"id": "C54", "title": "What is reported of a run of Storm is what Storm wrote", "statement": "The reward reported for a procedure is the result on the line that Storm writes for it, as the same number, with a sign that tells approximations and lower bounds apart; failures, early stops and missing initial states are told apart; Storm gets the file, the property and the smaller of the two time limits; the exit code is 0 exactly if all units were handled without an error.", "quantifier": "all outputs, exit states, options, lists of units", "why_tests_cant": "Outputs differ in where results, approximations and other properties appear; Storm is not available to unit tests.", "anchors": ["src/mc/run_storm.rs: run_storm, parse_property_results, find_property_result, storm_result_to_diagnostic", "src/driver/commands/model_check.rs: run_model_checking, run_model_checking_command", "src/servers/cli.rs: add_diagnostic"]}
{"id": "C45", "title": "Operators group as documented; changed precedence is detected", "statement": "The grammar reads every text as the one tree that is grouped as the table in the documentation says, and rejects only chains of comparisons. In mode 'both' a file is accepted iff the old and the new reading are equal up to the grouping of associative operators; then both have the same meaning.", "quantifier": "all texts (token lists), all trees, all files", "why_tests_cant": "Infinitely many texts of unbounded length and nesting; that equal fingerprints imply equal meaning is about all pairs of trees.", "anchors": ["src/front/parser/grammar.lalrpop", "src/front/parser/precedence_update/grammar_old.lalrpop", "src/front/parser/precedence_update/mod.rs", "src/front/parser/mod.rs: parse_by_mode"]}
{"id": "C55", "title": "Marking literal expressions for the solver does not change the question", "statement": "The expressions collected as literal are exactly the maximal subexpressions made of literals, known variables, operators and computable functions, and the literal arguments of calls; their value depends on the known variables only. Collecting panics exactly on substitutions. The translation with markers fails in the same cases as that without, whatever is marked; together with the axioms for the sorts of the markers that were used, which say that those markers are the identity and nothing else, the marked verification condition is valid iff the expression is true in all states.", "quantifier": "for all expressions, sets of known variables and computable functions, sets of marked positions, encodings of calls, interpretations and structures", "why_tests_cant": "Expressions, sets of marks and SMT structures are unbounded; validity for the solver is about all structures, and a marker without its axiom only shows in a structure that no test constructs.", "anchors": ["src/smt/funcs/fuel/literals.rs", "z3rro/src/lit.rs", "src/smt/mod.rs: lit_wrap_dynamic, add_lit_axioms_to_prover", "src/smt/translate_exprs.rs: wrap_if_literal", "src/driver/smt_proof.rs: SmtVcProveTask::translate"]}
{"id": "C56", "title": "What is written about a query describes it", "statement": "Every solver option has one value; the options of a command replace those of earlier ones and nothing else. The dump is printed at most once and without the answer, and one file is left: complete comment lines, whatever the names contain, with the answer, then the options, the query and the command that fits the answer. Files are inside the directory, and different for different clean names. The identifier of a quantifier has the prefix for MBQI if it is asked for. A reported counterexample is one of the dumped query, and a proof refutes that query if switching all statements on keeps counterexamples. The shown complexity is the least of the detected theories.", "quantifier": "for all options, earlier options, texts and ways to cut them, names and directories, answers, sets of structures and toggles, and results of probes", "why_tests_cant": "Texts, names and histories of options are unbounded; that a dumped query has the answer in its header is about all structures.", "anchors": ["z3rro/src/params.rs", "z3rro/src/smtlib.rs", "z3rro/src/probes.rs", "z3rro/src/util.rs: PrefixWriter", "z3rro/src/quantifiers.rs: qid", "src/driver/smt_proof.rs: set_global_z3_params, run_solver, get_smtlib, write_smtlib", "src/driver/item.rs: SourceUnitName"]}
{"id": "C57", "title": "Names in a module mean what the rules of scoping say", "statement": "A module is accepted exactly if every name has an innermost declaration, every type name is a built-in type or a domain and no scope declares a name twice, and the result has every name replaced by that declaration; the globals are the imports and what is declared at the top. The resolver does not panic if types are names of domains and ast and ost have all arguments. Two top-level declarations of one name are rejected; procedures after the last domain may be in any order; the calculus of a procedure is the imported one unless the module declares its name; other declarations do not hide annotations of statements.", "quantifier": "for all imports with different names, all modules of procedures, domains and statements, with bodies of any nesting, and all identifiers", "why_tests_cant": "Nesting, numbers of scopes and declarations, and ways of hiding names are unbounded; completeness is about all modules that have a meaning.", "anchors": ["src/front/resolve.rs", "src/driver/front.rs: forward_declare, resolve", "src/scope_map.rs", "src/tyctx.rs: declare, get", "src/proof_rules/mod.rs: get_proc_calculus", "src/proof_rules/omega.rs: resolve", "src/proof_rules/mciver_ast.rs: resolve", "src/proof_rules/ost.rs: resolve"]}
{"id": "C58", "title": "pGCL programs are translated faithfully; direct k-induction is sound for nested loops", "statement": "The translation that keeps loops has the weakest pre-expectation of the pGCL program, with choices as weighted sums, for every post-expectation. The direct k-induction encoding is on the safe side of it in both directions, for all programs, nestings of loops, invariants and positive numbers of copies, even if copies of an inner loop get different annotations; so a bound that is verified holds, also for the whole procedure with its initial values. Unrolling yields lower bounds of expected values. Removing ticks leaves the meaning in which they cost nothing. Without loops both translations agree; with one copy per loop exactly one annotation per loop is used; annotating changes nothing else, and gives loops their annotations in order if none is below a conditional or choice. Refuted: zero copies, one annotation per loop in general, annotations below conditionals, encodings that always parse, and the guard of the optional stopping check.", "quantifier": "for all pGCL programs, annotations, directions, interpretations, states and post-expectations that do not mention the choice variable", "why_tests_cant": "Programs, nesting, numbers of copies and expectations are unbounded; soundness compares a fixpoint with an encoding in all states.", "anchors": ["pgcl/pgcl2heyvl/pgcl2heyvl/direct_encode.py: _encode_instr, _encode_loop, _encode_extend, _encode_bmc, _collect_modified_vars, direct_encode_k_ind, _to_init_expr, _encode_init_assign, direct_encode_optional_stopping", "pgcl/pgcl2heyvl/pgcl2heyvl/encode.py: _encode_instr, _annotate_heyblock", "pgcl/pgcl2heyvl/pgcl2heyvl/cmd.py: encode_k_induction", "pgcl/pgcl2heyvl/pgcl2heyvl/heyvl.py"]}
{"id": "C59", "title": "pGCL: verified omega-invariants bound the loop; counterexamples of bounded model checking are real", "statement": "If both procedures that the translator generates for an omega-invariant verify, then every member of the sequence is a lower bound of the loop's expected value (wp) or run-time (ert), and for wlp an upper bound of the greatest expectation below one that the loop keeps. A counterexample of the procedure for bounded model checking of an upper bound gives a state of the program in which the bound is wrong. The translator fails on loops in loops. Refuted: that the bound holds for the program around the loop, that for wlp the bound is the one that the generated comment states, and that verified lower bounds for wlp are at most one. Programs with no or several loops are rejected. If the invariants and the post-expectation are at most one, a verified lower bound for wlp is a lower bound of the weakest liberal pre-expectation. Each generated body means one iteration of the loop, with ticks exactly for ert.", "quantifier": "for all loops, invariants, post-expectations, indices, interpretations and states", "why_tests_cant": "Sequences of invariants are infinite; the bound compares a least fixpoint with all their members in all states.", "anchors": ["pgcl/pgcl2heyvl/pgcl2heyvl/direct_encode.py: direct_encode_omega_inv, direct_encode_bounded_mc, direct_encode_k_ind, _encode_iter, _substitute_vars, _to_init_expr", "pgcl/pgcl2heyvl/pgcl2heyvl/encode.py: encode_omega_inv"]}
{"id": "C60", "title": "pGCL: verified conditions for positive almost-sure termination bound the expected number of iterations", "statement": "If the second and third procedure that the translator generates for the rule of Chakarov verify and eps is positive, the expected number of iterations of the loop is at most the invariant divided by eps. The translator accepts only numbers with eps less than k and programs with exactly one loop that has no loop in it. Refuted: that the generated procedures together imply a finite expected number of iterations; a zero eps is accepted, with which a loop that never ends is verified.", "quantifier": "for all loops without nested loops, invariants, numbers, interpretations and states", "why_tests_cant": "The expected number of iterations is a least fixpoint over all runs; tests see finitely many runs and numbers.", "anchors": ["pgcl/pgcl2heyvl/pgcl2heyvl/direct_encode.py: direct_encode_past, _encode_iter, _to_init_expr", "pgcl/pgcl2heyvl/pgcl2heyvl/cmd.py: encode_past_rule"]}
