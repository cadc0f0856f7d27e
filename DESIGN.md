# Formal model of Caesar in Rocq/Coq 8.16

## Layout (`rocq/theories`)

* `Model/`  Gallina definitions transcribed function by function from `/repo`; each cites file and lines. No proofs.
* `Spec/`   small independent specifications (documented semantics), not derived from the model's helpers.
* `Proofs/` lemmas.
* `Properties/` only property theorems, each closed by `exact`, followed by `Print Assumptions`, next to non-vacuity examples.

## Conventions

* A Rust panic is an explicit error value; `Result`/`Option` stay data.
* Extended non-negative reals are `Fin (r : nonneg real) | Inf` over the stdlib `Reals`.
* Expressions are an AST with the type recorded in the nodes where the Rust code consults it; evaluation is a total
  function into a sum of values with an explicit error value, so ill-typed output of a pass is visible.
* A property that is false of the code is stated in full, and its negation proved (`…_refuted`), with the witness
  recorded in the "Findings" section below; the strongest true variant is proved beside it.

## Plan per property

| id | modelled | method |
|----|----------|--------|
| C01 | both EUReal encodings as SMT terms over the reals | refinement to `[0,oo]` by case analysis; refutation of `-` |
| C02 | orders.rs operators, Opp | algebra |
| C03 | HeyVL AST, vcgen | structural induction, vs. documented table as a denotational semantics |
| C04 | Validate arm of vcgen | refutation + correct special cases |
| C05 | monotonicity visitor | induction; refutation for odd negations |
| C06 | subst.rs | induction with semantic substitution lemma |
| C07 | boolify.rs | mutual induction |
| C08 | qelim.rs | induction; refutation for shared bound variables |
| C09 | constfold/relational/egraph rules | induction; refutations |
| C10 | unfolder.rs with a sound oracle | induction |
| C11 | proc_verify.rs | from C03: question valid iff body meets spec |
| C12 | spec_call.rs | simulation between the encoded body and the body with real calls; greatest/least solutions for recursion; refutations for each restriction |
| C13 | induction.rs | Knaster-Tarski / k-induction lattice argument |
| C14 | unroll.rs | fixpoint iteration |
| C15 | omega.rs | suprema of chains; refutations |
| C16 | past encoding | the ranking rule from monotonicity and scaling of bodies (`Scaling`, `PastProofs`), nested loops included; refutations |
| C17, C37 | ast/ost encodings | bodies are additive and homogeneous (`Additive`, `Scaling`), so that Park induction replaces limits (`TermRules`); the generated procedures give its hypotheses; bodies may contain loops (`TermNested`); the call left by `@ost` is below the loop (`OstReplace`), also in whole procedures (`OstProc`); refuted for nondeterminism (`TermDemonic`) |
| C18 | soundness_checker.rs | induction; refutations; procedures that end in `@ost` (OstSound): the loop rule of C37 is composed with the encoding of what precedes it |
| C19 | recursion/calculus checker | graph reachability |
| C20 | negations.rs | finite case analysis lifted to sequences |
| C21, C36 | distributions.rs | finite sums; refutations |
| C22, C23 | slicing/transform.rs | induction on statements |
| C24, C25 | slicing/util.rs | state-machine invariants |
| C26 | ast/util.rs collectors | semantic dependency; refutation for havoc |
| C27, C28 | tyctx.rs, scope_map.rs, front/resolve.rs | invariants over histories; resolver vs. inductive lexical scoping |
| C29 | depgraph.rs | reachability |
| C30 | driver/commands/verify.rs, driver/{front,error}.rs, servers | stages as functions into results; induction over the list of units |
| C31 | driver/commands/refinement.rs | composition as for C43, with renaming; refutations of the verdict |
| C32 | smt/funcs | proved (strengthening needs fuel on recursion) |
| C33 | tycheck.rs | declarative rules with semantic subtyping; the checker decides them; induction on expressions and statements |
| C34 | intrinsic/list.rs, z3rro/{list,array}.rs, smt/{symbolic,translate_exprs}.rs (lists) | a representation relation between SMT values and sequences; a possible-values semantics for unspecified accesses; induction on typed expressions |
| C35 | src/mc/{mod,opsem,specs}.rs, jani/src | a step-indexed semantics of JANI models; each statement's fragment bounds the reward from below (by unrolling) and above (by a prefixed point); hoisting of literal initialisers |
| C38 | EncodingVisitor | induction |
| C39 | orders.rs infimum | order theory |
| C40 | prover.rs | state-machine refinement |
| C41 | translate_exprs.rs | simulation between values and SMT values |
| C42 | symbols.rs | invariants over request histories; refutation |
| C43 | core_verify.rs, quant_proof.rs, opt/mod.rs | composition of C03, C06, C10, C08, C07; tracking of declared identifiers and of quantifier positions; refutation |
| C44 | resource_limits.rs | transition system with one step per shared access; inductive invariant; measure |
| C45 | front/parser/{grammar.lalrpop,mod.rs}, precedence_update/ | grammars as inductive relations with one level per precedence; trees of a text; fingerprints as prefix codes; a logical relation through the type checker |
| C46 | front/parser/mod.rs (remove_comments) | inductive description of commented text; the scanner computes it; two-step induction |
| C47 | vc/explain.rs, vc/vcgen.rs with explanations | a state monad for the explanation; a relational invariant for every statement: value, variables, entries, success |
| C48 | pretty.rs, SimplePretty in ast/, grammar of statements and declarations | printed text as tokens with free line breaks; a scanner shows where expressions end, then unambiguity by mutual induction |
| C49 | PrettyRational, parse_big_int, parse_decimal, SmtEval | texts as glyphs; invariant of long division; an independent reader gives uniqueness |
| C50 | servers/lsp.rs, servers/mod.rs, Files and Span::to_lsp, verify.rs towards the server | the verifier is an arbitrary function; invariants over the loop relate state, queue and pending request to the messages so far; what the client shows is a fold over the messages |
| C51 | the cache in smt/translate_exprs.rs | pointers and their numbers of owners are arbitrary functions; the invariant of the uncached proof is relativised to constraints already collected, and every entry of the current level satisfies it |
| C52 | ast/shared.rs, mutable walks | a heap of counted cells; the invariant is that counts are numbers of owners and that there are no cycles; every change spares the nodes that it is not given, and the operations refine those on trees |
| C53 | z3rro/model.rs, slicing/model.rs, pretty_model.rs | the memo of walked terms is an invariant with open terms, so that accessed names are exactly the constants read; the pre-quantities are composed with C22 |
| C54 | mc/run_storm.rs, commands/model_check.rs | texts are lists of glyphs as in C49; searching is related to first occurrences, the rest is case analysis; the exit code uses C30's server |
| C55 | smt/funcs/fuel/literals.rs, z3rro/lit.rs, wrapping in smt/translate_exprs.rs | positions for pointers; the collected set is related to a specification by position; the translations with and without markers are related by agreement where the markers used so far are the identity, then composed with C41 |
| C56 | z3rro/{params,smtlib,probes,quantifiers}.rs, PrefixWriter, smt_proof.rs (options, dump), SourceUnitName | options as association lists, comment lines by a specification character by character, paths as lists of components, the last content written to a file; the dumped query against the answer of the slice search for abstract structures; refuted with the slicing transformer and vcgen |
| C57 | front/resolve.rs for whole modules, driver/front.rs (forward_declare, resolve), get_proc_calculus | bodies as what their traversal meets, in order: names, types, declarations, scopes, annotations; meaning by relations over stacks of scopes (Spec/ModuleScoping.v), without scope maps or tables; imports and spans arbitrary |
| C58 | pgcl/pgcl2heyvl (direct_encode.py, encode.py) | pGCL has its own weakest pre-expectations with weighted sums for choices (Spec/PgclSem.v); the stack of annotations is threaded through the translation, which is what makes it fail; one induction over programs relates an encoding to the transformer in one direction, with loops by k-induction over transformers (copies of a body may have different annotations); for the procedure, the state is taken in which every initial value equals its variable |
| C59 | pgcl/pgcl2heyvl (direct_encode.py: omega-invariants, bounded model checking) | one lemma for both directions: any expectation that the loop body maps to the safe side of itself, and that is on the safe side of the last constant, bounds the whole sequence, by induction on the index and locality in the index variable; procedures are reduced to the body by choosing the state in which parameters equal variables (or, for counterexamples, the state after the initial assignments); weakest liberal pre-expectations (Spec/PgclWlp.v) are greatest among expectations of at most one, and equal the greatest fixpoint of the loop map cut off at one |
| C60 | pgcl/pgcl2heyvl (direct_encode.py: positive almost-sure termination) | the invariant divided by eps is a prefixpoint of the map that counts iterations: bodies without loops scale, and ticks in them only add; the third procedure is reduced to the body as for C59 |

## Findings

Statements that are false of the code as read; each has a machine-checked witness (`…_refuted`).

1. **Pair encoding of EUReal, subtraction** (`z3rro/src/eureal/pair.rs`): `5 - ∞` is 4 (for payload 1) instead of 0, because
   only the minuend's infinity flag is consulted. `C01_pair_sub_refuted`, exact region `C01_pair_sub_iff`. Hence the two
   encodings disagree: `C01_encodings_agree_refuted`.
2. **Datatype encoding**: the declared invariant does not constrain the payload of the infinity constructor's selector, so
   infima over such terms can be negative: `C01_datatype_range_refuted`, `C39_datatype_negative_junk_refuted`.
3. **validate/covalidate** (`src/vc/vcgen.rs` 151-166): uses the double negation of the wrong lattice; post 1 gives ∞
   instead of 0; the result depends on the syntax of the post. `C04_*`.
4. **Monotonicity check** (`src/procs/monotonicity.rs`): accepts a lone `negate` and `if … {negate} else {conegate}`;
   both are not monotone. `C05_check_*_refuted`.
5. **negations.rs backwards walk** is not the inverse of the forwards walk for `conegate`. `C20_backwards_conegate_refuted`.
6. **binom** uses `a^k` without the `b^(n-k)` factor: binom(1,1,2) gives 1/2 instead of 1/3. `C21_binom_refuted`.
7. **Out-of-range distribution parameters** (`unif(3,2)`, `ber(0,0)`, `hyper(n,x,y)` with `y>n` or `x>n`) panic, though the
   documentation gives them the zero expectation. `C21_*_refuted`.
8. **Solver symbols** (`src/smt/symbols.rs` 19-43): the loop that looks for an unused name tests whether the *identifier* is
   vacant, not whether the *name* is taken, so `x`, a second `x` and `x_1` (user-written or made by `fresh_ident`) share one
   Z3 symbol. `C42_collision_refuted`, `C42_collision_fresh_refuted`.
9. **ModifiedVariableCollector** (`src/ast/util.rs`) does not collect havocked variables. `C26_havoc_not_collected_refuted`.
10. **fresh_ident** returns the same name for two equally named bases when the first is not declared in between (all callers
   declare immediately). `C27_undeclared_fresh_refuted`.
11. **@invariant / @k_induction** inherit finding 9: for `while !x { havoc x }` the encoding with invariant 1 has value 1 where
   the greatest fixpoint is 0. `C13_havoc_refuted`.
12. **@unroll** (`src/proof_rules/unroll.rs`) claims UNDER/OVER for every terminator; false for ∞ under a least-fixpoint
   calculus, 0 under a greatest-fixpoint calculus, 5 without a calculus, 1 for unbounded greatest fixpoints.
   `C14_*_terminator_refuted`.
13. **@omega_invariant** (`src/proof_rules/omega.rs`): the conditions are checked without havocking the loop's variables
   (`C15_omega_no_havoc_refuted`), and in a coproc the base case uses Φ(0) instead of Φ(∞) (`C15_omega_up_refuted`).
14. **boolify** (`src/opt/boolify.rs`): `true == (a -> b)` on Booleans becomes `a <= b`, which the SMT translation panics on.
   `C07_bool_comparison_refuted`. The module comment's "do not increase expression size" is false. `C07_size_refuted`.
15. **qelim** (`src/opt/qelim.rs` 124-142): a user-written quantified variable is dropped without renaming. When the verification
    condition contains the quantifier twice (vcgen copies the post for every branch) the copies share one free variable:
    `1/2 -> (1/2 * inf x. [x] + 1/2 * inf x. [!x])` is 0 everywhere and becomes valid (C08_duplicate_refuted): an unsound proof.
16. **constfold** (`src/opt/constfold.rs`, used by the condition-explanation UI): `0 - x` becomes `x`, `0 / x` becomes `0` even if `x` may
    be 0, `0 ⊔ x` becomes `x` on Int and Real, `0 ⊓ x` panics there, `0 * x` on Real becomes an ill-typed literal, constant UInt results
    of 2^128 and more panic (C09_constfold_*_refuted).
17. **relational** (`src/opt/relational.rs`, option `opt_rel`, off by default): `0 <= x` becomes `true` and `0 == x` becomes `x <= 0` on Int
    and Real; `true == !x` becomes a comparison of a Boolean with a number (C09_relational_*_refuted).
18. **egraph** (`src/opt/egraph.rs`, off by default, result only logged): `a - b + b = a` and `a + b - b = a` are false of truncated
    subtraction (C09_egraph_subtraction_refuted).
19. **Whole pipeline**: quantifier elimination keeps the name of a user-written quantified variable, and substitution duplicates it.
    `assume 1/2; b = ber(1, 1); assert (inf x: Bool. [x == b])` has value 0 in every state, but the question built with default options is
    valid, so the tool would report it verified. `C43_question_refuted`.
20. **RemoveParens** (`src/opt/mod.rs`) leaves one pair of parentheses in `((x))` (harmless). `C43_remove_parens_refuted`.
21. **A callee without postcondition** (`src/procs/spec_call.rs`): no `compare` is emitted, so a caller may assume any gain, e.g. its own postcondition, with only `assert pre` between. The documented default clauses (`pre ?(true)`, `post ?(true)`) are not added by the code. `C12_no_post_refuted`.
22. **`x, x = f()`** passes the type checker; the encoding havocs `x` once, so results that differ are identified. `C12_duplicate_lhs_refuted`.
23. **`var x: T = f()`** does not check the direction of the callee; the same call in an assignment does. A proc may call a coproc this way, unsoundly. `C12_initialiser_refuted`.
24. **Self-recursion with permuted arguments `f(b, a)` or results `b, a = f()`**: the substitution of parameters is sequential, one replaces what the other introduced. `C12_permuted_arguments_refuted`, `C12_permuted_results_refuted`.
25. **`let` in a postcondition** of a called procedure makes the encoding of the call panic. `C12_let_post_refuted`.
26. **Recursive procs under least-fixpoint semantics**: `proc f() pre 1 post 1 { f() }` verifies, though the least solution is 0; only `@wp`/`@ert` annotations reject it. `C12_least_recursion_refuted`.
27. **Soundness checker** (`src/proof_rules/calculus/soundness_checker.rs`, `get_approximation`): induction is encoded by the procedure's
    direction but its approximation is claimed by the calculus, so a correct `@wp` proc (`@wlp` coproc) with an `@invariant` loop gets its
    spurious counterexamples reported as true ones (`C18_wp_refutation_refuted`, `C18_wlp_refutation_refuted`); `@unroll(1, ∞)` in a `@wp` proc and
    `@unroll(1, 0)` in a `@wlp` coproc verify wrong procedures without a warning (`C18_wp_proof_refuted`, `C18_wlp_proof_refuted`); loops in the
    branches of `if ⊕` are not looked at (`C18_additive_refuted`).
28. **Calculus checker** (`src/proof_rules/calculus/calculus_checker.rs`): recursion restrictions are applied only to the annotated procedure
    itself, and calls to unannotated procedures are always allowed. So `@wp proc g` may call an unannotated recursive `f` that only
    terminates with probability 0, both verify, and `g` violates its specification under the least fixed point
    (`C19_unannotated_callee_refuted`).
29. **Prover** (`z3rro/src/prover.rs`): the result of `check_proof_assuming` is cached and returned by a following `check_proof` without
    assumptions (`C40_stale_cache_refuted`); `add_provable` twice proves the disjunction of the obligations
    (`C40_two_obligations_refuted`). The callers in the code avoid both. In emulated mode, `pop` makes a new solver without the timeout
    (not a theorem).
30. **Search for error slices** (`src/slicing/solver.rs`, the main solver call of every verification): with default options an unknown answer
    at size `n` is recorded as "no counterexample up to `n`" and the search goes on; a later model with at most `n` statements makes an
    assertion fail (`C24_unknown_panic_refuted`). With `--slice-error-inconsistent` the verdict can be Proof though the full question was
    unknown and a counterexample exists (`C24_accept_refuted`), and inconsistent models make an assertion fail
    (`C24_accept_panic_refuted`).
31. **Verifying slices** (`src/slicing/util.rs`, `shrink_block_unsat`, `block_unsat`): reductive candidates (assertions inside `@slice_verify`) are
    never removed, and all sets without them are blocked, so the "minimal" slice need not be minimal (`C25_reductive_refuted`).

32. **Slice effects** (`src/slicing/transform.rs`): the direction is handed from the first branch of a conditional to the second, so a
    statement in the second can get the opposite effect; with default options a program that passes the monotonicity check and is verified
    in every state then has a spurious counterexample (`C23_threaded_direction_refuted`).
33. **Constraints of slices** (`src/slicing/solver.rs` 209, 248, 287): "at least one branch of a choice stays" is assumed, not required,
    when verifying slices are searched; for an angelic choice the empty set of toggles passes the check though the program without both
    branches is not verified (`C23_assumed_constraints_refuted`).
34. **Subtraction in the translation** (`src/smt/translate_exprs.rs` with `z3rro/src/eureal/pair.rs`): `5 - \infty == 4` is valid for the
    solver and false in the language, because the subtraction of pairs ignores that the subtrahend is infinite (C41_subtraction_refuted).
    All other operators are translated exactly (C41_valid).
35. **Division by zero in the translation**: for unsigned `x` and `n`, `x / 0 >= 0` and `n % 0 >= 0` hold whatever division by zero means,
    yet the solver may choose a negative value: spurious counterexamples (C41_division_refuted, C41_remainder_refuted).
36. **Comparison of Booleans** (`translate_exprs.rs` 221-258): `true <= false` makes the translation panic (C41_bool_comparison_refuted). The type
    checker rejects it (C33_no_bool_comparison), so this needs a pass that builds such an expression, and none of the modelled ones does.

37. **Recursion is over-approximated** (`depgraph.rs` 105-112): with decreasing instantiation a function mentioned in an axiom counts
    as potentially recursive even if its definition mentions nothing (C29_recursive_exact_refuted); with bidirectional instantiation
    every function does (C29_recursive). Sound, as the comment in the code says.
38. **`@past` accepts loops that never end** (`src/proof_rules/past.rs` 248-292): the third condition should say that the invariant after
    an iteration is *at most* `[G] * (I - eps)`; it is generated as a `proc`, whose `pre` is a *lower* bound. `while true {}` with
    invariant 5, `eps` 0.5, `K` 1 passes all three procedures although it never ends (C16_sound_refuted). The same code is in
    `website/docs/proof-rules/past.md`.
39. **`@past` rejects its documented example** (past.rs 263-270): the guard in `pre` is over the output variables, which have
    arbitrary values there, not over the input ones as documented; with `init_x = 0`, `x = 5` the pre of the documented example is
    0.5 and the loop's value 0 (C16_complete_refuted). The direction alone also rejects certificates that decrease faster than `eps`
    (C16_direction_refuted).
40. **`@past` asserts a truth value** (past.rs 198-228): the second condition has type Bool where an expectation is needed (no `?(..)`);
    it works because later passes treat the two alike (C16_ill_typed). That `eps` is positive is not checked (the documentation says so).
41. **`@ast` does not check its functions** (`src/proof_rules/mciver_ast.rs` 61-69, 105-123): `prob` may be 0 (C17_zero_probability_refuted: `while true {}`
    is accepted), and both may mention program variables, whose values after the iteration are used in `decrease`:
    `while 0 < x { x = 0.5 * x }` is accepted with decrease `0.5 * x` (C17_decrease_of_state_refuted). The first is a condition of the
    rule that is documented but not checked; the second is neither.
42. **`@past` and `@ast` replace the loop by nothing and call that exact** (past.rs 100-104, mciver_ast.rs 141-147): what follows the loop is
    verified as if the loop had not changed anything (C16_exact_refuted, C17_exact_refuted).

43. **Functions that subtract at EUReal make the axioms contradictory, with default options** (`src/smt/funcs/axiomatic.rs` 58-63, `z3rro/src/eureal/pair.rs`
    173-183): strengthening to total functions drops the invariant that an infinite pair has number 1, and the difference of two infinite pairs depends on the numbers.
    `func diff(x: EUReal, y: EUReal): EUReal = x - y` gives `diff(oo, oo)` several values, so everything verifies (C32_subtraction_refuted).
44. **Infima and suprema in bodies of functions and in axioms lose their constraints** (`src/smt/mod.rs` 104-137): the translator that collects them is dropped, and the Skolem
    constant does not depend on the inputs. `func f(x: EUReal): EUReal = inf y: EUReal. x + y` proves `f(0) == f(1)`, with default options (C32_infimum_refuted).
45. **Strengthening is not sound without fuel** (recfun.rs 62-74 "I believe it is sound", axiomatic.rs 56-63):
    `func f(x: UInt): UInt = ite(x + 1 == 0, f(x) + 1, 0)` is contradictory at -1 with axiomatic, decreasing and define-fun-rec (C32_strengthening_refuted).
    With fuel on every function that may call itself, as by default, strengthening is sound (C32_strengthened_sound).
46. **define-fun-rec is refused when strengthening is on and accepted when it is off** (`src/driver/smt_proof.rs` 233-238), the reverse of the message and the documentation (C32_define_fun_rec_refuted).
47. **Without synonym axioms counterexamples can be spurious**: a claim that holds in all interpretations fails as soon as the fuel runs out (C32_no_synonym_refuted).
48. **A filter hides recursion from the calculus check** (`src/driver/front.rs` 194-206, `src/driver/commands/verify.rs`): `--filter` removes procedures before
    `check_calculus_rules` looks for recursion. Two mutually recursive `@wp` procs that are rejected together, and that do not meet their specifications, verify one at a time
    (C19_filter_refuted).
49. **The entailment command succeeds with a counterexample** (`src/driver/commands/refinement.rs` 170-181): the result is always `Ok(true)`; counterexamples and unknown answers
    do not change the exit code (C31_answers_ignored, C31_verdict_refuted).
50. **The entailment command panics on an odd number of procedures** (refinement.rs 103-106, `unwrap` on the second one; C31_odd_refuted).
51. **The generated units are returned without the first** (`Module::extend`, front.rs 105-117, `old_items_len + 1`): printing and checking what was generated misses it
    (C31_generated_refuted). No encoding generates exactly one procedure at the moment, so entailment still notices.
52. **The editor's status depends on the order of units** (`src/servers/mod.rs` 104-119): verified and refuted give unknown, which beats a timeout
    that comes later but not one that was combined earlier (C30_shown_order_refuted).
53. **`--no-verify` with an output option fails** (smt_proof.rs 331-340, verify.rs 303-313): the skipped units count as failures (C30_no_verify_output_fails).
54. **The deadline by itself wakes no watcher** (`src/resource_limits.rs` 192-203, 238-248): the time is looked at only in `check_limits`; a watcher that waits is woken by
    the hard timeout of `await_with_resource_limits` half a second later, and not at all where that is not used (C44_deadline_refuted). Not a bug for the commands.

55. **Coimplication and comparison of Booleans** (`tycheck.rs` 729-732, `translate_exprs.rs` 165-236): `←`, `↘` and `↖` are documented for Bool and accepted there,
    and the translation panics (`illegal exprkind`) on all three (C33_bool_heyting_refuted). Without them, accepted expressions are translated (C33_axiom_translates).

56. **Minima and maxima of Booleans** (`tycheck.rs` 720-728, website/docs/heyvl/expressions.md 28-30): `⊓` and `⊔` are documented for Bool and rejected there
    (C33_bool_lattice_refuted); the translation knows them.

57. **Initialisers are checked twice** (`tycheck.rs` 415-438, 482-493): `var x: T = f(1)` with a parameter of `f` that must be a literal and is not of type UInt would be rejected
    although `x = f(1)` is accepted (C33_again_refuted). All parameters of this kind that exist are of type UInt, so it cannot be seen now (C33_again).

58. **A block comment that is not closed hides the rest of the file** (`src/front/parser/mod.rs` 251-311): everything after it becomes spaces, without an error or warning, so
    the procedures after it are not verified and the command succeeds (C46_unclosed). The doc comment of the function says so; users are not told.

59. **Comments inside string literals** (`src/front/parser/mod.rs` 256-311): `"a//b"` loses its second half and its closing quote (C46_strings_refuted). Strings have almost no
    use in the language, so this shows as a parse error at most.

60. **Mode `both` accepts texts of which only one reading has a type** (`src/front/parser/precedence_update/mod.rs` 163-184). For `x + y + z` with types `Int`, `UReal`, `Real` the two
    readings have the same fingerprint, but `(x + y) + z` has no type (`Int` and `UReal` have no common supertype among the two) while `x + (y + z)` is a `Real`
    (C45_typable_refuted). Files of older versions can thus stop type checking without the message about precedence; `z + y + x` is the opposite case. The meaning never changes silently (C45_same_meaning).
    The "Transition Period" notes (`website/docs/heyvl/expressions.md` 78-84) also leave out that `⊓`/`⊔` became left-associative and that `→`/`←` moved from the level of `⊓`/`⊔` to the loosest.

61. **Nothing is assumed about the elements of lists** (`z3rro/src/list.rs` 258-262). The invariant of a list variable is `len >= 0`; elements of `[]UInt`, `[]UReal`, `[]EUReal` may be negative
    and lists inside lists may have negative length. `exists l: []UInt. 0 < len(l) && select(l, 0) + 1 == 0` is proved although it is false (C34_elements_refuted), and
    `0 < len(l) ==> 0 < select(l, 0) + 1` gets a counterexample although it is true (C34_complete_refuted). The invariant is exact iff the element type is Bool, Int, Real or a domain
    (C34_exact, C34_exact_only).
62. **Equality of lists of lists looks out of bounds** (`z3rro/src/list.rs` 274-285). The elements are compared with Z3's equality, so two `[][]T` with the same elements may be different
    (C34_nested_eq_refuted), contrary to `website/docs/stdlib/lists.md`, "Equality".
63. **Equality of lists is not a congruence** (same lines). `l == m` does not imply `select(l, k) == select(m, k)` for `k >= len(l)`, nor `f(l) == f(m)` for a declared function `f`
    (C34_congruence_refuted).
64. **`len` type checks for every argument** (`src/intrinsic/list.rs` 151-167). `len(5)` is accepted and `t_list` panics with "illegal exprkind" (C34_len_refuted). The three intrinsics also
    report a wrong number of arguments with the roles of caller and callee swapped.

65. **A declaration with a literal in a loop is run once** (`src/mc/mod.rs` 280-320, `src/mc/opsem.rs` 84-100). `var x: T = literal` becomes the initial value of the JANI variable and no edge,
    so in the second iteration of a loop `x` still has its last value. Witness: expected reward 1 instead of 0 (C35_loop_declaration_refuted).
66. **`coassert ?(b)` gives 0 instead of infinity** (`src/mc/opsem.rs` 317-353). If `b` holds the model goes to the error location, where nothing is gained; `coassert` takes the maximum with
    infinity (C35_coassert_refuted). `website/docs/model-checking.md` lists `coassert` as supported.
67. **`--jani-skip-quant-pre` skips assumptions of the body** (`src/mc/specs.rs` 240-271). The preconditions have become `assume` statements, and all that the block begins with are eaten
    (C35_skip_refuted). Without the option such a procedure is rejected as having an unsupported precondition.
68. **Names of JANI variables clash** (`src/mc/mod.rs` 232-320). Locals of the same name in two branches get two declarations of one name (C35_names_refuted); a parameter called `reward`
    has the name of the transient reward variable (C35_reward_name_refuted).
69. **Lattice operators on Booleans become `min` and `max` on numbers** (`src/mc/mod.rs` 400-404): the JANI expression is not well-typed (C35_bool_min_refuted).
70. **Panics of the exporter** (C35_panics_refuted): a procedure without body, a decimal literal whose numerator or denominator does not fit into 64 bits, substitutions.

71. **`--explain-core-vc` changes what is verified** (`src/driver/core_verify.rs` 167-183, `src/vc/explain.rs` explain_subst). The condition computed with explanations is the one that is verified, and
    it is constant folded at every assignment. `y = 0 - x; assert ?(y == x)` is refuted without the option and verifies with it, because `0 - x` is folded to `x` (finding 16; C47_fold_refuted).
72. **The same option turns the verdict around at `validate`** (C47_validate_refuted). `vcgen` treats a `validate` before an implication specially. With explanations substitutions are carried out at
    once, so that the implication is seen behind an assignment; without, it is hidden. `validate; y = x; assume 1; assert 1/2` gets 0 with explanations, which is right, and infinity without.
73. **Explanations of programs with negations are rejected** (`src/vc/explain.rs` with `negations.rs`; C47_negation_rejected, C47_negations_refuted). The direction is tracked from the last statement to
    the first, but starts with the direction of the procedure at its beginning, and one of the four arms is wrong. No program with a negation in a `proc` can be explained.
74. **Panics of the explanation** (C47_spans_refuted, C47_dummy_refuted). Entries are inserted with an `assert_eq!` that fails if two statements have one span, as in the encoding of
    `@omega_invariant`; the closing brace of a block is computed as `end - 1`, which overflows for an empty raw program.

75. **`--print-parsed` and `--print-core` show different numbers** (`src/ast/expr.rs` 425-435; C48_decimals_refuted). A decimal literal is printed as an unreduced quotient without brackets:
    `x / 0.5` is shown as `(x / 5/10)`, which is `x / 50`.
76. **Calls without results are printed with a leading `=`** (`src/ast/stmt.rs` 68-152; C48_calls_unreadable, C48_calls_refuted). After `var y: T` on the line before, the shown text is the
    declaration `var y: T = f(x)`.
77. **What is printed cannot be read back**: functions of domains are shown as `fn f(..) -> T` (C48_functions_unreadable) and `let(x, v, e)` as `(e)[x -> v]` (C48_lets_refuted); the annotation that
    names the calculus of a procedure is left out (C48_calculus_lost), and with it what the procedure means.
78. **A quantifier that is a left operand is shown without brackets** (C48_quantifiers_refuted). Only trees that Caesar makes itself have such operands: `(inf x. a) + b` is shown as `(inf x. a + b)`.
79. **`@trigger()` panics** (`src/ast/expr.rs` 346-352 with grammar.lalrpop 163-169; C48_triggers_refuted). The grammar accepts an empty list of terms and `Trigger::new` asserts that it is not empty.

80. **Values beyond 64 bits are not shown** (`z3rro/src/model.rs` 184-196, 217-255; C49_large_refuted, C49_negative_refuted). The fallback reads `(/ n.0 d.0)` only: integers `n.0` and, wherever the
    solver writes the sign, negative quotients are refused although their absolute values are read.
81. **A division by zero in a model panics** (`z3rro/src/model.rs` 217-255; C49_division_refuted). The text `(/ 1.0 0.0)` passes all checks and `BigRational::new` panics. That Z3 leaves such a term when
    it evaluates without completion is an assumption; it was not run.
82. **Infinity can be refused** (`z3rro/src/eureal/pair.rs` 142-157; C49_infinity_refuted). The number is evaluated also for infinite values, without completion, and its failure is returned. As in 81, that
    the solver has no value for the number is an assumption.

83. **The language server panics at the 5042nd verification** (`src/ast/diagnostic.rs` 130-134, `src/driver/front.rs` 298-306; C50_lifetime, C50_no_crash_refuted). Each verification that passes
    parsing adds the thirteen built-in files to the files of the server, which keeps them, and an id is a u16.
84. **Messages that the protocol allows panic** (`src/servers/lsp.rs` 144, 157-170, 339-345, 648; C50_protocol_refuted). Closing a document that was not stored because its language is another one,
    verifying one (the client checks the language only, `vscode-ext/src/CaesarClient.ts` 409, but synchronises files only, 168), any response, and a change with two parts. As the panic happens under the
    server's mutex or in its loop, the server ends.
85. **Other requests are never answered** (`src/servers/lsp.rs` 618-647; C50_replies_refuted).
86. **`--raw` ends the language server** (`src/servers/lsp.rs` 443-479, `src/servers/mod.rs` 120-132; C50_raw_refuted). A raw unit is not registered, and `set_ongoing` panics.
87. **Old results are sent for new versions** (`src/servers/lsp.rs` 130-155, 220-245; C50_claims_refuted). A change does not clear the results, and publishing is for all documents with their current version:
    after a change of one document and a verification of another, the first one's new version is shown as verified.
88. **Cancelled documents stay in progress** (`src/servers/lsp.rs` 359-386; C50_cancelled_refuted). If the next verification is of another document, the first one is shown as ongoing for ever.
89. **Some final states are not shown** (`src/servers/lsp.rs` 493-525; C50_done_refuted, C50_timeout_refuted). A document without procedures stays "todo" after its verification, and a procedure for which
    the solver ran out of time is shown as unknown, since only "todo" and "ongoing" become "timeout".
90. **Explanations are not removed** (`src/servers/lsp.rs` 329-337; C50_explanations_refuted). `clear_reported_file_state` publishes diagnostics and statuses only.
91. **Places of empty spans and columns** (`src/ast/diagnostic.rs` 280-319; C50_empty_refuted, C50_columns_refuted). The loop stops at the end before it stores the start, so that an empty span begins at the
    start of the text; and columns are counted in characters, not in the UTF-16 units that the protocol has by default.

92. **Expressions of type EUReal are not cached** (`src/smt/translate_exprs.rs` 531-636; C51_eureal_refuted, C51_once). The other types look into the cache and insert into it; `t_eureal` does neither, so that
    `n` nested sums of a shared operand with itself are translated `2^(n+1) - 1` times, although there are only `n + 1` expressions.
93. **Answers from the cache are not wrapped as literals** (`src/smt/translate_exprs.rs` 179-182 and 273-276, and the like; C51_wrapped_refuted). The term is inserted before `wrap_if_literal` and returned from
    the cache without it: the first occurrence of a shared literal expression is `Lit(t)`, further ones are `t`. As the code is, this does not show: both places that set literal expressions
    (`src/driver/smt_proof.rs` 274-278, `src/smt/funcs/fuel/mod.rs` 221-234) collect them by a mutable walk, which copies whatever has several owners (`src/ast/visit.rs` 174, `src/ast/shared.rs` 49-58).
    Afterwards an expression has two owners at most, its parent and the set, so all literals are wrapped (C51_wrapped_off) and nothing is cached (C51_off). That a mutable walk does this, and keeps the meaning, is C52_walk; that these two places use such a walk is read off the code.

94. **`@ast` accepts loops with nondeterminism that do not terminate** (`src/proof_rules/mciver_ast.rs` 115-117 has a TODO for it; C17_nondeterminism_refuted). The upper bounds are checked with the demonic choice,
    that is, for the choice that makes them smallest: `while 0 < x { if ⊓ { if flip(1/4) { x = x - 1 } else { x = x + 1 } } else { x = x - 1 } }` is accepted with variant `x`; it terminates from 1 with probability at most 1/3.
95. **`@ost` does not look for nondeterminism either** (`src/proof_rules/ost.rs` has no check; C37_nondeterminism_refuted): the lower bound 1 is accepted for `while b { if ⊓ { b = false } else {} }`, whose demonic
    pre-expectation is 0 where `b` holds.

96. **Constants that the solver's model leaves open are shown inconsistently** (`z3rro/src/model.rs` 172-224). Truth values are evaluated without completion and `true` is taken for what is left open. So for `if b { 0 } else { ∞ }`
    with `b` open, the flag of infinity is open as well and taken as `true`: the counterexample reads "b is true, the pre-quantity is ∞", but for b true it is 0 (C53_unassigned_refuted; it is assumed that Z3 simplifies `ite(b, 0, 0)`).
    Integers are evaluated with completion and reals without (`// TODO` in the code): an open integer gets a value, an open real is `(could not parse value from solver)` (C53_open_real_refuted).
97. **An infinite value is not shown if the number stored beside it is too large** (`z3rro/src/eureal/pair.rs` 142-157 evaluates the number in any case, so that the access is tracked, and returns its error;
    C53_infinity_refuted): the number means nothing then, but `(could not parse value from solver)` is shown.

98. **Under `--werr` every diagnostic is a failure, also advice** (`src/servers/cli.rs` 71-77; C54_werr_refuted): the reward found by Storm is itself reported as advice, so that `--werr --run-storm` exits with 1
    although there are no warnings.
99. **Reading Storm's output** (`src/mc/run_storm.rs` 155-246): a run that ends well without output panics on the version line (C54_empty_refuted); the result text is looked for up to the end of the output, so
    that a property without a result gets the result of a later one (C54_other_refuted; only one property is asked for at present); a result on a last line without a newline is not found (C54_last_line_refuted);
    the remaining time is passed in full seconds, in the last second as 0 (C54_timeout_refuted; what Storm makes of 0 is not in this repository).

100. **`@ost` calls its encoding exact** (`src/proof_rules/ost.rs` 97-114; C37_exact_refuted): the call that replaces the loop is a lower bound only, so that
    counterexamples are reported as refutations of right procedures, e.g. of `b = true; while b { b = flip(0.5) }` with pre and post 2 and invariant 1.

101. **The example for maximal literal subexpressions is wrong** (`src/smt/funcs/fuel/literals.rs` 62-64; C55_documentation_refuted): for `a + 4 * b` with `a`
    known the comment promises `a + 4`, which is not a subexpression; `a` and `4` are reported.

102. **The dumped query need not have the answer in its header** (`src/driver/smt_proof.rs` 326-329, `src/slicing/solver.rs` 345-354; C56_answer_refuted):
    the dump is made before slicing adds that statements it does not minimise over are on. With `--slice-verify`, `assume ?(false); assert ?(false)`
    is reported as proved, and the file with `Prove result: Proof` contains a satisfiable query.
103. **Dumps of different units overwrite each other** (`src/driver/item.rs` 53-57; C56_apart_refuted): `..` is dropped, so `f` in `a.heyvl` and `f` in
    `../a.heyvl` get the same file.
104. **A name can switch on MBQI** (`z3rro/src/quantifiers.rs` 62-73, `src/smt/funcs/axiomatic.rs` 170; C56_unmarked_refuted): the prefix `mbqi_` is not
    reserved, so the axiom of a function `mbqi_f` gets it although MBQI is not asked for.
105. **Identifiers of variants end with a newline** (`z3rro/src/quantifiers.rs` 70, `writeln!` for `write!`; C56_one_line_refuted); they are used for the axioms of infima and suprema (`z3rro/src/orders.rs` 282).
106. **A type name that is no domain panics** (`src/front/resolve.rs` 259; C57_panic_refuted): `proc main(x: main)` reaches `panic!("this is not a type!")`, and so
   does a type with the name of an earlier parameter. C57_no_panic: this and 107 are the only reasons if identifiers are distinct.
107. **Loops with a wrong number of arguments panic** (`src/proof_rules/mciver_ast.rs` 92, `src/proof_rules/ost.rs` 89, `src/proof_rules/util.rs` 269-275, 285-291;
   C57_panic_refuted): `@ast` and `@ost` take their arguments apart in `resolve`, before the type check counts them.
108. **A parameter named like a calculus switches the calculus off** (`src/front/resolve.rs` 139-141, `src/proof_rules/mod.rs` 402-425,
   `src/proof_rules/calculus/calculus_checker.rs` 86-121; C57_calculus_refuted): the calculus is looked up like a variable, in the scope of the procedure.
   With a parameter or a procedure `wp`, `@wp proc main(wp: UInt)` is accepted, `get_proc_calculus` gives `Ok(None)`, and the checks for recursion and for
   the approximation of encodings are silently skipped. Annotations of statements are looked up among annotations only (C57_annotation).
109. **Variables of loops leak** (`src/proof_rules/omega.rs` 85, `src/proof_rules/mciver_ast.rs` 106; C57_loop_variable_refuted): the variable that
   `@omega_invariant` or `@ast` declares is declared in the block around the loop, so two loops of one block cannot use the same name, and later statements see it.
110. **Functions of domains are not known in front of the domain** (`src/front/resolve.rs` 155-174, `src/driver/front.rs` 352-361; C57_order_refuted), although
   procedures and domains are. C57_order: procedures after the last domain may be in any order.
111. **A domain may be named like a built-in type and can then not be used** (`src/front/resolve.rs` 307-319; C57_builtin_refuted); a module may also declare
   imported names again (C57_imports_refuted), and arguments of slicing and calculus annotations are not resolved (`src/intrinsic/annotations.rs` 231-242; C57_arguments_refuted).

112. **k-induction with k = 0 is unsound in the pGCL translator's direct mode** (`pgcl/pgcl2heyvl/pgcl2heyvl/direct_encode.py` 746-755, `cmd.py` 427;
   C58_zero_refuted): the encoding has the specification of the loop and no iteration, so that it only checks that the invariant implies the post-expectation.
   The command line accepts 0 and negative numbers. (Caesar itself rejects `@k_induction(0, ...)`: `k_induction_transform` in `Model/ProofRules.v`.)
113. **Bounded model checking with k = 0 skips the loop** (the same lines; C58_zero_unroll_refuted), so that a refutation may be wrong.
114. **Nested loops crash the direct translation if the outer loop has k >= 2** (`direct_encode.py` 823-830, 857-862; C58_single_refuted): the body is translated
   anew for every copy, and every translation takes an annotation for the inner loop off the stack. With more annotations the copies get different ones; this
   is still sound (C58_k_induction).
115. **Loops below conditionals or choices stay without annotation, and the next loop gets theirs** (`encode.py` 685-702; C58_annotate_refuted).
116. **A loop that assigns no variable yields `havoc` without variables** (`direct_encode.py` 833-841, `heyvl.py` 181-187; C58_havoc_refuted), which Caesar's
   parser rejects (`grammar.lalrpop` 215-216).
117. **The check of optional stopping in direct mode negates only the first operand of the guard** (`direct_encode.py` 553-556; C58_harmonize_refuted):
   for the guard `a && b` the text is `!a && b ==> ...`.

118. **The omega-invariant mode ignores the instructions around the loop** (`pgcl/pgcl2heyvl/pgcl2heyvl/direct_encode.py` 598-602; C59_rest_refuted): the generated
   comment claims a bound for the program, the procedures are about the loop. The modes for ast, past and optional stopping pick the loop in the same way
   (245-249, 394-398, 481-485; by reading).
119. **For wlp, the comment of the omega-invariant mode states the opposite bound** (`direct_encode.py` 645-650; C59_text_refuted): it claims that the supremum
   is a lower bound, but the procedures are coprocs that show each member to be an upper bound (C59_omega_upper).
120. **The omega-invariant mode fails on nested loops** (`direct_encode.py` 770-775, 857-862; C59_omega_nested): there is no annotation for the inner loop.
121. **For wlp, bounds above one can be verified** (`direct_encode.py` 98-137; C59_wlp_refuted): nothing checks that invariants are at most one, so that
   `while (b) { b := true }` has the lower bound infinity where `b` holds. With invariants and post-expectation of at most one, the bound is right (C59_wlp_lower).
122. **The translator accepts zero for eps** (`direct_encode.py` 400-405, also `encode.py` 313-318; C60_zero_refuted): the message speaks of positive numbers, but only eps < k
   is tested. With zero, the three procedures of `while (true) { skip }` verify.

## Seeded wrong programs

Definitions in `Model/` were edited one at a time, in a scratch copy, so that a claim no longer holds; `seeded/LOG.jsonl` has one
line per attempt. `lemmas_failed` are the lemmas whose proofs no longer go through, `theorems_failed` the property theorems
that are among them or depend on them. An edit that no theorem noticed has outcome `survived`; `theorems_tightened` then names
the theorems that were added or strengthened because of it. The first lines of `u054` and `u079` are an artefact of the runner;
their reruns are caught and no theorem was changed.

## Trusted base

Coq's kernel; the axioms listed by `Print Assumptions` under each theorem; the reading of the Rust source recorded in
the citations. Nothing of `/repo` was executed. No axiom is declared in this development. Axioms of the standard library
that occur:

* R1 `ClassicalDedekindReals.sig_forall_dec`, R2 `ClassicalDedekindReals.sig_not_dec` (construction of the reals)
* FE `FunctionalExtensionality.functional_extensionality_dep` (used by the reals)
* CL `Classical_Prop.classic`
* CE `ClassicalEpsilon.constructive_indefinite_description` (to define infima/suprema of arbitrary sets as functions)

<!-- assumptions -->
| axioms | theorems |
|---|---|
| none | C01_uint_monus, C02_bool_operators, C02_opp_dual, C02_opp_involutive, C03_no_loop_left, C07_bool_comparison_refuted, C07_size_refuted, C09_constfold_inf_refuted, C09_constfold_mul_refuted, C09_relational_terminates, C09_relational_type_refuted, C12_let_post_refuted, C13_transforms, C16_ill_typed, C18_unreliable, C19_calculus_checked, C19_recursive_found, C20_backwards_conegate_refuted, C20_backwards_negate, C20_forwards_step, C20_forwards_walk, C21_hyper_too_many_refuted, C21_hyper_underflow_refuted, C24_accept_panic_refuted, C24_accept_refuted, C24_assertions, C24_minimal, C24_terminates, C24_trial, C24_unknown_panic_refuted, C24_verdict, C25_block_sat, C25_block_unsat, C25_complete, C25_minimal, C25_reductive_refuted, C25_sound, C25_start, C26_free_variables_exact, C27_clone_var, C27_declarations_unique, C27_fresh_ident, C27_same_base_distinct, C27_undeclared_fresh_refuted, C28_enter, C28_leave, C28_local_iter, C28_lookup, C28_pop_mismatch, C28_resolve_complete, C28_resolve_expr, C28_resolve_stmt, C29_axioms_closed, C29_callees_closed, C29_closed, C29_dependencies, C29_graph, C29_only_needed, C29_only_needed_sorts, C29_recursive, C29_recursive_exact_refuted, C29_self_defined, C29_terminates, C29_unit_closed, C30_no_verify, C30_no_verify_output_fails, C30_no_verify_refuted, C30_proved_means_success, C30_shown_failed, C30_shown_order_refuted, C30_shown_verified, C30_success_means_proved, C31_answers_ignored, C31_generated_refuted, C31_mapping, C31_mapping_apart, C31_odd_refuted, C31_success, C32_define_fun_rec_refuted, C32_encoder, C32_recursion_fuelled, C33_again_refuted, C33_no_bool_comparison, C34_shown, C34_shown_differ, C34_store_oob, C34_stored, C35_names_refuted, C35_no_panic, C35_panics_refuted, C35_reward_name_refuted, C38_bare_loop_kept, C38_bare_loop_stays_loop, C38_inside_out, C38_loops_reported, C38_no_loop, C38_no_rule, C38_ost_is_last, C38_terminates, C40_stale_cache_refuted, C40_two_obligations_refuted, C42_collision_fresh_refuted, C42_collision_refuted, C42_distinct_partial, C42_same_name_distinct, C42_symbol_stable, C43_remove_parens_refuted, C44_agreement, C44_deadline_refuted, C44_first_wins, C44_never_blocks, C44_no_lost_wakeup, C44_stop_called, C44_stop_once, C44_stop_only, C44_stopped_ends, C44_terminates, C44_unsubscribed, C45_both, C45_both_rejects, C45_brackets, C45_fingerprints, C45_new_accepts, C45_new_reads, C45_new_unique, C45_no_panic, C45_old_accepts, C45_old_reads, C45_old_unique, C45_reported, C45_reports, C45_typable_refuted, C46_length, C46_none_left, C46_positions, C46_removes, C46_strings_refuted, C46_twice, C46_unclosed, C46_utf8, C47_dummy_refuted, C47_negation_rejected, C47_spans_refuted, C48_axioms, C48_calculus_lost, C48_calculus_refuted, C48_calls_refuted, C48_calls_unreadable, C48_checked, C48_expressions, C48_functions_unreadable, C48_lets_refuted, C48_procedures, C48_quantifiers_refuted, C48_reparsed, C48_statements, C48_triggers_refuted, C48_unambiguous, C49_division_refuted, C49_eureals, C49_infinity_refuted, C49_injective, C49_integers, C49_large_refuted, C49_literals, C49_model_integers, C49_negative_refuted, C49_one_meaning, C49_reals, C49_reals_exact, C49_reals_no_panic, C49_round_trip, C49_shown, C50_cancelled_refuted, C50_claims, C50_claims_refuted, C50_columns_refuted, C50_done_refuted, C50_empty_refuted, C50_explanations_refuted, C50_invalid, C50_latest, C50_lifetime, C50_limit, C50_no_crash, C50_no_crash_refuted, C50_protocol_refuted, C50_range, C50_raw_refuted, C50_replies, C50_replies_refuted, C50_shown, C50_timeout_refuted, C52_copies, C52_in_place, C52_no_leak, C52_no_panic, C52_others, C52_owners, C52_refused, C52_values, C52_walk, C53_enabled, C53_extra, C53_groups, C53_infinity_refuted, C53_once, C53_open_real_refuted, C53_server, C53_slice, C53_values_partial, C54_arguments, C54_diagnostic, C54_empty_refuted, C54_exact, C54_exit, C54_failed, C54_found, C54_kinds, C54_last_line_refuted, C54_not_found, C54_one_line, C54_other_refuted, C54_panics, C54_reward, C54_stop_seen, C54_stopped, C54_timeout, C54_timeout_given, C54_timeout_refuted, C54_werr_refuted, C55_collected, C55_documentation_refuted, C55_encoders, C55_names, C55_panics, C56_answer, C56_apart, C56_apart_refuted, C56_complexity, C56_file, C56_globals, C56_header, C56_header_text, C56_inside, C56_marked, C56_one_line_refuted, C56_option_lines, C56_options, C56_params, C56_prefix, C56_printed, C56_quantifiers, C56_shown, C56_silent, C56_table, C56_theories, C56_unmarked, C56_unmarked_refuted, C57_annotation, C57_arguments_refuted, C57_builtin, C57_builtin_refuted, C57_calculus, C57_calculus_refuted, C57_complete, C57_declared, C57_duplicates, C57_imports_refuted, C57_loop_variable_refuted, C57_no_panic, C57_order, C57_order_refuted, C57_panic_refuted, C57_sound, C58_annotate, C58_annotate_refuted, C58_erase, C58_havoc_refuted, C58_loop_free, C58_single, C58_single_refuted, C58_ticks_unchanged, C59_omega_nested, C59_one_loop, C60_rejects |
| R1 | C33_bool_lattice_refuted, C34_eq_complete, C34_eq_sound, C34_eq_sym, C34_eq_trans, C34_invariant, C34_one_value, C34_select, C34_store |
| CL | C40_assuming_verdict, C40_sat, C40_verdict |
| R1, FE | C01_datatype_range_refuted, C01_model_readback, C01_pair_constants, C02_embed, C21_ber_zero_refuted, C21_unif_empty_refuted, C33_accepts_iff, C33_again, C33_axiom, C33_block_iff, C33_block_no_panic, C33_block_result, C33_call, C33_conversion, C33_func, C33_no_panic, C33_order, C33_preconditions, C33_proc, C33_source_kept, C33_strict, C33_unique, C33_well_typed, C34_represented, C39_datatype_negative_junk_refuted |
| CE, CL | C19_components_exist, C32_recursion_recognised, C55_axioms |
| R1, CE | C34_exact |
| R1, CL, FE | C01_concrete, C01_datatype_arith, C01_datatype_order, C01_encodings_agree, C01_encodings_agree_refuted, C01_monus_is_residual, C01_pair_arith, C01_pair_canonical, C01_pair_order, C01_pair_sub_iff, C01_pair_sub_refuted, C02_coimplication_adjoint, C02_coimplication_adjoint_datatype, C02_implication_adjoint, C02_implication_adjoint_datatype, C02_operator_values, C02_operator_values_datatype |
| R1, CE, CL | C34_complete_refuted, C34_congruence_refuted, C34_elements_refuted, C34_len_refuted, C34_nested_eq_refuted, C34_no_panic |
| R1, CE, FE | C34_exact_only |
| R1, CE, CL, FE | C04_compare_is_validate_assume, C04_validate_correct_iff, C04_validate_not_extensional_refuted, C04_validate_refuted, C05_check_branches_refuted, C05_check_lone_negate_refuted, C09_constfold_div_refuted, C09_constfold_sub_refuted, C09_constfold_sup_refuted, C09_constfold_u128_refuted, C09_egraph_rules, C09_egraph_subtraction_refuted, C09_relational_eq_refuted, C09_relational_le_refuted, C10_unfold_unsound_solver_refuted, C11_encoding_iff_meets, C11_lower_bounds, C16_complete_refuted, C16_direction_refuted, C21_binom_refuted, C21_documented_mass, C21_flip_mass, C21_mass_one, C23_assumed_constraints_refuted, C23_threaded_direction_refuted, C32_no_synonym_refuted, C32_specs_only, C32_strengthening_refuted, C32_subtraction_refuted, C33_bool_heyting_refuted, C34_meaning, C34_proved, C35_bool_min_refuted, C35_dtmc, C35_expressions, C36_assignment, C36_expectation_is_weighted_sum, C41_bool_comparison_refuted, C41_division_refuted, C41_fits, C41_remainder_refuted, C41_subtraction_refuted, C43_question_refuted_program, C47_fold_refuted, C47_invariant, C47_negations_refuted, C47_validate_refuted, C48_decimals_refuted, C51_eureal_refuted, C51_off, C51_once, C51_wrapped_off, C51_wrapped_refuted, C53_unassigned_refuted, C55_constant, C55_no_axioms_refuted, C55_same, C56_answer_refuted, C58_harmonize_refuted, C58_ticks |
| R1, R2, CE, CL, FE | C03_vcgen_is_semantics, C05_check_sound_partial, C05_negation_free_monotone, C05_vc_monotone, C06_apply_subst_correct, C07_bot_question, C07_same_value, C07_top_question, C07_total, C07_verification_question, C08_duplicate_refuted, C08_qelim_pointwise_partial, C08_qelim_question_partial, C08_qelim_verified_partial, C09_constfold, C09_constfold_total, C09_relational, C10_unfold, C10_unfold_verified, C11_question_iff_meets_partial, C11_vc_iff_meets, C12_caller_sound, C12_duplicate_lhs_refuted, C12_greatest_solution, C12_initialiser_refuted, C12_least_recursion_refuted, C12_least_solution, C12_no_post_refuted, C12_permuted_arguments_refuted, C12_permuted_results_refuted, C12_recursion_sound, C13_condition_sound_partial, C13_havoc_refuted, C13_induction_sound_partial, C14_default_terminator_refuted, C14_gfp_terminator_refuted, C14_lfp_terminator_refuted, C14_one_terminator_refuted, C14_unroll_claims_partial, C15_omega_down_partial, C15_omega_no_havoc_refuted, C15_omega_rule_partial, C15_omega_up_refuted, C16_exact_refuted, C16_sound_partial, C16_sound_refuted, C17_decrease_of_state_refuted, C17_exact_refuted, C17_nondeterminism_refuted, C17_sound_partial, C17_zero_probability_refuted, C18_additive_refuted, C18_calculus_proofs_sound_partial, C18_calculus_refutations_sound_partial, C18_ost_proofs_sound_partial, C18_proofs_sound_partial, C18_refutations_sound_partial, C18_wlp_proof_refuted, C18_wlp_refutation_refuted, C18_wp_proof_refuted, C18_wp_refutation_refuted, C19_accepted_sound, C19_filter_refuted, C19_greatest_is_least, C19_nonrecursive_unique, C19_unannotated_callee_refuted, C22_all_on, C22_original, C22_slices, C22_vc, C23_counterexample, C23_default_verdict, C23_more_off, C23_verified_slice, C26_collected_complete_partial, C26_havoc_not_collected_refuted, C26_only_written_variables_change, C26_value_depends_on_free_only, C31_question_partial, C31_verdict_refuted, C32_counterexample, C32_infimum_refuted, C32_models, C32_no_panic, C32_sound, C32_strengthened_sound, C33_axiom_translates, C35_coassert_refuted, C35_loop_declaration_refuted, C35_reward, C35_skip_refuted, C37_exact_refuted, C37_lower_bound_partial, C37_nondeterminism_refuted, C37_procedure_partial, C37_replacement_partial, C39_datatype_infimum_partial, C39_extrema_exist, C39_infimum, C39_supremum, C41_models, C41_no_panic, C41_states, C41_valid, C43_lower_partial, C43_question_partial, C43_question_refuted, C43_remove_parens, C45_same_meaning, C47_call, C47_entries_partial, C47_procedure_partial, C47_total_partial, C47_unroll_partial, C47_value_partial, C51_models, C51_no_panic, C51_same, C51_session_models, C51_session_no_panic, C51_session_states, C51_states, C53_pre_partial, C55_models, C55_no_panic, C55_states, C55_valid, C58_bound, C58_k_induction, C58_plain, C58_procedure, C58_unroll, C58_zero_refuted, C58_zero_unroll_refuted, C59_counterexample, C59_omega_lower, C59_omega_meaning, C59_omega_upper, C59_rest_refuted, C59_text_refuted, C59_wlp_lower, C59_wlp_refuted, C60_past_sound, C60_zero_refuted |
<!-- end assumptions -->

### What is and is not modelled

Every definition in `Model/` cites the lines it stands for. By file of `/repo` (paths below `src/` unless they start with `z3rro`):

| code | model | left out |
|---|---|---|
| `ast/{expr,stmt,decl,symbol,ty}.rs` | `Syntax`, `Builder`, `Lits`, `Procs` | spans of nodes, pretty printing; types List, Tuple, Domain; triggers |
| `ast/{util,visit}.rs` | `AstUtil`, per visitor | |
| `tyctx.rs`, `scope_map.rs`, `front/resolve.rs` | `TyCtx`, `ScopeMap`, `Resolve` (bodies), `ResolveDecls` (modules) | what each expression contributes is in `Resolve`, modules in `ResolveDecls`: the two are not composed; type names nested in lists only |
| `vc/{vcgen,subst}.rs` | `VcGen`, `Subst` | |
| `vc/explain.rs` | `Explain` | hints for the language server, printing; the unrolling of loops inside explanations uses the model of `proof_rules/unroll.rs` |
| `pretty.rs`, `SimplePretty` in `ast/*.rs`, statements and declarations of `front/parser/grammar.lalrpop` | `Printing` | triggers, string literals, types; the renderer (every separator may be a line break or `; `) |
| `z3rro/src/util.rs` 161-242, `z3rro/src/model.rs` 172-196 and 217-255, `z3rro/src/eureal/pair.rs` 142-157, `front/parser/parser_util.rs` 19-31 | `Numerals` | `+` and `_` inside numbers; reducing quotients; SmtEval for Dynamic; Z3 itself: its text for numerals (both places for the sign) and that it may leave terms unreduced are assumed |
| `servers/lsp.rs`, `servers/mod.rs` 28-171, `ast/diagnostic.rs` 20-35, 78-169 and 234-315 | `LspServer` | JSON, the notes and labels of diagnostics, status counts, failing channels, the order of hash maps (order of insertion instead); a task's effect is computed when it is awaited, since nothing else uses the server meanwhile |
| `smt/translate_exprs.rs` 118-133, 179-528 (cache), 812-850, `ast/shared.rs` 105-109 | `TranslateCache` | instead of a heap: an address for each visited expression and a number of owners, both depending on time; hash maps are lists; wrapping is recorded, not performed |
| `ast/shared.rs`, `ast/visit.rs` 173-213 and `smt/funcs/fuel/literals.rs` 120-190 as to handles | `SharedHeap` | labels are arbitrary; addresses are not used again; a child visited mutably is taken out of its parent meanwhile; the other models use trees, which C52 justifies |
| `z3rro/src/model.rs` 36-196, 217-224, `slicing/model.rs`, `smt/pretty_model.rs`, `driver/smt_proof.rs` 538-675 | `CexDisplay` | the solver's evaluation is a parameter; texts, positions, messages, values of lists and of uninterpreted sorts left out |
| `mc/run_storm.rs`, `driver/commands/model_check.rs`, `driver/front.rs` 422-446 | `Storm` | Storm's exit state and output are inputs; paths, writing files, messages left out |
| `procs/{proc_verify,spec_call,monotonicity}.rs` | `Procs`, `Negations`/C05 | message texts |
| `proof_rules/{induction,unroll,omega,ost,past,mciver_ast,util,negations,mod}.rs` | `ProofRules`, `LoopProcs`, `Encode`, `Negations` | message texts, hover information |
| `proof_rules/calculus/*.rs` | `Encode`, `Recursion` | blame spans |
| `intrinsic/distributions.rs`, `intrinsic/annotations.rs` | `Dist`, `Encode` | |
| `opt/{boolify,constfold,egraph,qelim,relational,unfolder,mod}.rs` | `Boolify`, `Constfold`, `Egraph`, `Qelim`, `Relational`, `Unfolder`, `Pipeline` | the saturation of `egg` (only its rules) |
| `front/parser/mod.rs` 256-311 | `Comments` | the LALRPOP grammars as text |
| `front/parser/grammar.lalrpop` 84-177 and `precedence_update/*` | `Precedence` | lexing, triggers, string literals, the grammar of statements and declarations; LALRPOP (a generated parser is assumed to decide its grammar) |
| `intrinsic/list.rs`, `z3rro/list.rs`, `z3rro/array.rs` | `Lists` | the registry of sorts, triggers; Z3's model completion is assumed to give store chains or other terms |
| `mc/{mod,opsem,specs}.rs`, `jani/src` | `Jani` | JSON, metadata, features, the properties other than the reward, definitions of functions (calls stay calls), `mc/run_storm.rs` |
| `front/tycheck.rs` | `Tycheck` | domains' sorts, lists, strings, error texts |
| `smt/{symbols,symbolic,translate_exprs}.rs` | `Symbols`, `Translate` | the cache is in `TranslateCache`, literal wrapping in `Literals` |
| `smt/funcs/**`, `smt/mod.rs` 73-142, `driver/smt_proof.rs` 176-258 | `Funcs` | patterns, weights, the marks in the computation axiom, domains of uninterpreted sorts |
| `depgraph.rs`, parts of `smt/mod.rs`, `driver/front.rs`, `driver/core_verify.rs`, `driver/quant_proof.rs` | `Depgraph`, `Pipeline` | |
| `slicing/{transform,selection,solver,util,model,mod}.rs` | `Slicing`, `SliceSearch`, `Subsets` | message texts |
| `z3rro/src/{eureal/*,uint,ureal,orders,scope}.rs` | `EurEncodings`, `Orders` | |
| `resource_limits.rs` 130-251 | `Limits` | asynchronous timers, measuring memory; accesses are sequentially consistent |
| `smt/funcs/fuel/literals.rs`, `z3rro/src/lit.rs`, `smt/mod.rs` 198-240 | `Literals` | triggers, lists, the marks of the computation axiom (`fuel/mod.rs` 217-235) |
| `z3rro/src/{params,smtlib,probes}.rs`, `PrefixWriter` in `z3rro/src/util.rs`, `qid` in `z3rro/src/quantifiers.rs`, `driver/smt_proof.rs` 60-135, 300-339, 405-422, 453-503, `SourceUnitName` | `Dump` | what Z3 and raco print, the probes themselves, errors of the file system, Windows, `version.rs` |
| `pgcl/pgcl2heyvl/pgcl2heyvl/direct_encode.py` 71-213, 372-455, 578-674, 681-695, 746-767, 770-775, 807-904, `encode.py` 662-702 | `Pgcl`, `PgclProc`, `PgclOmega`, `PgclPast` | the parser of pGCL (the package `probably`), printing of expressions, declarations of variables and parameters; the encodings for ast and optional stopping (only one condition's text); substitution by `probably` is taken to be simultaneous |
| `z3rro/src/prover.rs` | `Prover` | SMT-LIB output, external solvers |
| `driver/commands/{verify,refinement}.rs`, `driver/{front,error}.rs`, parts of `driver/smt_proof.rs` and `servers/{mod,cli}.rs` | `Driver` | what the stages do (other files), printing, timing; the limits are inputs |

Not modelled at all: Z3 itself (its answers are an oracle), LALRPOP and lexing,
`driver/commands/{options,run_lsp}.rs`, `ast/stats.rs`, `smt/uninterpreted.rs`, `timing.rs`, `version.rs`,
`z3rro/src/interpreted.rs`, `scooter/`, the rest of `pgcl/`, the client in `vscode-ext/`, and the texts of diagnostics.
