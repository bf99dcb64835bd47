{"id": "C01", "title": "Free variables are exact", "statement": "Iterating over the free variables of a formula yields a variable if and only if the formula has an occurrence of that variable that is not below a quantifier binding the same variable id.", "quantifier": "every formula (any nesting of applications and quantifiers, any shadowing) and every variable", "why_tests_cant": "formulas are unboundedly deep and the traversal shares one mutable stack of bound variables between branches; a test fixes a few trees", "anchors": ["crates/logic_formula/src/iterators.rs: FreeVariableIterator", "crates/logic_formula/src/outers/owned_pile.rs: OwnedPile::next", "crates/logic_formula/src/traits.rs: free_vars_iter"]}
{"id": "C02", "title": "Used variables are exact and in a fixed order", "statement": "Iterating over the used variables of a formula yields exactly one item per variable leaf, and no others; the traversal always terminates.", "quantifier": "every formula", "why_tests_cant": "needs an induction over all trees of the explicit-stack traversal", "anchors": ["crates/logic_formula/src/iterators.rs: UsedVariableIterator", "crates/logic_formula/src/outers/owned_pile.rs", "crates/logic_formula/src/traits.rs: used_vars_iter"]}
{"id": "C03", "title": "Subterm traversal visits every subterm once, with its depth", "statement": "The all-terms iterator yields every subterm occurrence of a formula exactly once, and the depth iterator pairs each of them with its true depth.", "quantifier": "every formula", "why_tests_cant": "unbounded trees; the order of visits depends on the stack discipline", "anchors": ["crates/logic_formula/src/iterators.rs: AllTermsIterator, DepthIterator", "crates/logic_formula/src/outers/owned_pile.rs"]}
{"id": "C04", "title": "Substitution composition and identity laws", "statement": "Applying the chained substitution of a then b gives the same formula as applying a and then b; a substitution that maps no used variable leaves the formula unchanged; translating variables by 0 is the identity and translations add up.", "quantifier": "every formula and every pair of substitutions", "why_tests_cant": "algebraic law over an infinite domain", "anchors": ["crates/cryptovampire/src/formula/manipulation/substitution/substitution.rs", "crates/cryptovampire/src/formula/manipulation/substitution/variable_substitution/", "crates/cryptovampire/src/formula/formula/formula.rs: apply_substitution"]}
{"id": "C05", "title": "All substitution representations agree", "statement": "The one-variable, list-based and frozen substitutions, and the id/formula-list form of apply_substitution, agree: the first listed id wins and unlisted variables are unchanged.", "quantifier": "every formula, every list of (id, formula) pairs, including duplicates and lists of different length", "why_tests_cant": "needs quantification over all association lists and formulas", "anchors": ["crates/cryptovampire/src/formula/formula/formula.rs: apply_substitution", "crates/cryptovampire/src/formula/manipulation/substitution/variable_substitution/"]}
{"id": "C06", "title": "Substitution preserves meaning when no capture happens", "statement": "If no variable bound in the formula is substituted or is free in a substituted term, the value of the substituted formula equals the value of the formula in the updated environment, in every interpretation. Without this condition the code may change the meaning.", "quantifier": "every formula, substitution, interpretation and environment", "why_tests_cant": "quantifies over all first-order structures", "anchors": ["crates/cryptovampire/src/formula/formula/formula.rs: apply_substitution, apply_substitution2", "crates/cryptovampire/src/formula/manipulation/substitution/"]}
{"id": "C07", "title": "Fresh variable ids are fresh", "statement": "An id obtained from max_var / max_var_or_max over a set of formulas is strictly larger than every variable id occurring in those formulas, and translating a formula by it yields variables disjoint from the originals.", "quantifier": "every finite family of formulas and every starting bound", "why_tests_cant": "unbounded families of formulas; freshness is a universally quantified statement", "anchors": ["crates/cryptovampire/src/formula/variable.rs: max_var, max_var_or_max", "crates/cryptovampire/src/formula/manipulation/substitution/substitution.rs: Translate"]}
{"id": "C08", "title": "Unification is sound", "statement": "When the unifier search on two terms returns an answer, the conjunction of the returned equalities implies, in every interpretation, that the two terms are equal.", "quantifier": "every pair of terms", "why_tests_cant": "infinite set of term pairs; accumulation of partial assignments", "anchors": ["crates/cryptovampire/src/formula/manipulation/unifier.rs: Unifier::mgu, does_unify, as_equalities"]}
{"id": "C09", "title": "Unification terminates and never misses a match", "statement": "The unifier search terminates on every pair of terms and returns an answer whenever the two terms (with variables apart) have a common instance; otherwise a candidate would be dropped from the generated cryptographic axiom.", "quantifier": "every pair of terms with disjoint variables", "why_tests_cant": "termination and completeness are statements over all inputs; a test sees neither a missing answer nor an infinite recursion it does not trigger", "anchors": ["crates/cryptovampire/src/formula/manipulation/unifier.rs: mgu, aux (line 164)"]}
{"id": "C10", "title": "Name resolution follows lexical scope", "statement": "An identifier in a term refers to the innermost enclosing binder of that name; when shadowing is forbidden every accepted program has unique names, so resolution is unambiguous.", "quantifier": "every surface term, every stack of enclosing binders, with and without the shadowing option", "why_tests_cant": "nesting depth and name choices are unbounded", "anchors": ["crates/cryptovampire/src/parser/parser/parsable_trait.rs: Parsable for Application (ConstVar), VariableBinding", "crates/cryptovampire/src/cli.rs: allow_shadowing"]}
{"id": "C11", "title": "Applications with the wrong number of arguments are rejected", "statement": "A function application whose number of arguments is not the declared arity of the function is reported as an error, never silently accepted.", "quantifier": "every declared function, every list of argument terms", "why_tests_cant": "arity and argument count range over all naturals", "anchors": ["crates/cryptovampire/src/parser/parser/parsable_trait.rs: parse_application"]}
{"id": "C12", "title": "Infix chains mean the conjunction/disjunction/comparison of all operands", "statement": "Every operand of an accepted infix chain (a op b op c ...) contributes to the meaning of the produced formula: && and || are the n-ary connectives, = and <=> the conjunction of the adjacent comparisons, => keeps all its operands.", "quantifier": "every chain of two or more operands, both realms", "why_tests_cant": "number of operands is unbounded and the realm changes the code path", "anchors": ["crates/cryptovampire/src/parser/parser/parsable_trait.rs: Parsable for Infix, parse_application, as_pair_of_term", "crates/cryptovampire/grammar.pest: infix_term"]}
{"id": "C13", "title": "Term elaboration terminates", "statement": "Turning a parsed term into a formula terminates (with a formula or an error) for every term.", "quantifier": "every surface term, both realms", "why_tests_cant": "termination over all inputs", "anchors": ["crates/cryptovampire/src/parser/parser/parsable_trait.rs: Parsable for Infix (Iff, HardEq)"]}
{"id": "C14", "title": "Macro expansion does not capture the caller's variables", "statement": "Expanding a user macro at a call site substitutes the arguments for the parameters without any free variable of an argument becoming bound by a quantifier of the macro body.", "quantifier": "every macro body, every call site with any stack of bound variables", "why_tests_cant": "capture depends on the numeric variable ids of both sites", "anchors": ["crates/cryptovampire/src/parser/parser/parsable_trait.rs: Parsable for AppMacro (Other)", "crates/cryptovampire/src/formula/formula/formula.rs: apply_substitution"]}
{"id": "C15", "title": "Let bindings are local", "statement": "let x = t1 in t2 means t2 with x replaced by t1, and x is not visible outside t2.", "quantifier": "every pair of terms and every surrounding context", "why_tests_cant": "scoping is a property of all contexts", "anchors": ["crates/cryptovampire/src/parser/parser/parsable_trait.rs: Parsable for LetIn"]}
{"id": "C16", "title": "Elaborated formulas are well scoped", "statement": "A formula produced from a surface term only has free variables that belong to the binders in scope, distinct binders in scope have distinct ids, and the stack of binders is restored afterwards.", "quantifier": "every surface term and every stack of binders", "why_tests_cant": "induction over all terms", "anchors": ["crates/cryptovampire/src/parser/parser/parsable_trait.rs: Parsable (contract in the doc comment), VariableBinding, Quantifier"]}
{"id": "C17", "title": "Order declarations: a > b is b < a", "statement": "An order declaration t1 > t2 produces the same formula as t2 < t1, <> produces the two-sided exclusion, and a guard is an implication premise, for every pair of steps.", "quantifier": "all guards, terms and quantifiers of an order declaration, all interpretations", "why_tests_cant": "quantifies over all formulas and interpretations", "anchors": ["crates/cryptovampire/src/parser/parser/parse_step_cell_asserts/order.rs"]}
{"id": "C18", "title": "Operator spellings are unambiguous", "statement": "Every operator's canonical and alias spellings are recognised as that operator, no spelling belongs to two operators, and any other string is not an operator.", "quantifier": "all strings", "why_tests_cant": "the domain of strings is infinite", "anchors": ["crates/cryptovampire/src/parser/ast/infix.rs: Operation::get_operation, as_str, as_str_alias"]}
{"id": "C19", "title": "Sort inference variables are write-once and unification is sound", "statement": "Once a sort placeholder is resolved it never changes; a successful unification leaves both sides with the same sort (up to realm) and a failed one changes nothing.", "quantifier": "every history of expects/unify/set operations on any number of placeholders", "why_tests_cant": "history-dependent property over mutable cells", "anchors": ["crates/cryptovampire/src/formula/sort/sort_proxy.rs: SortProxy::set, unify, expects, matches"]}
{"id": "C20", "title": "Realm-insensitive sort equality is an equivalence", "statement": "Comparing sorts up to the realm is reflexive, symmetric and transitive, and identifies a sort exactly with itself and its evaluated counterpart.", "quantifier": "all sorts and realms", "why_tests_cant": "all triples of sorts", "anchors": ["crates/cryptovampire/src/formula/sort/mod.rs: Sort::eq_realm, maybe_evaluated_sort"]}
{"id": "C21", "title": "The sort checker accepts exactly the well-sorted connective applications", "statement": "Asking the sort of a boolean connective applied to argument sorts succeeds with Bool exactly when the number and sorts of the arguments are right.", "quantifier": "every connective and every list of argument sorts", "why_tests_cant": "argument lists are unbounded", "anchors": ["crates/cryptovampire/src/formula/function/inner/booleans.rs: Sorted for Connective, Equality"]}
{"id": "C22", "title": "Constant false is false", "statement": "The builtin false formula denotes false and the builtin true formula denotes true in every interpretation.", "quantifier": "every interpretation", "why_tests_cant": "universally quantified over interpretations", "anchors": ["crates/cryptovampire/src/formula/function/builtin.rs: TRUE, FALSE"]}
{"id": "C23", "title": "Ordering axioms are sound for traces", "statement": "Every generated axiom about happens/before/predecessor/init (the ordering theory) holds in every execution trace, i.e. in every finite linear sequence of step instances starting with init.", "quantifier": "every protocol, every trace (any length, any step instances)", "why_tests_cant": "traces are unbounded", "anchors": ["crates/cryptovampire/src/problem/general_assertions/order.rs: ax1-ax11"]}
{"id": "C24", "title": "Ordering axioms are adequate", "statement": "Any two structures' happening time points that satisfy the ordering axioms are linearly ordered with init as least element and pred the immediate predecessor.", "quantifier": "every model of the generated axioms", "why_tests_cant": "quantifies over all models", "anchors": ["crates/cryptovampire/src/problem/general_assertions/order.rs"]}
{"id": "C25", "title": "greater-than is the converse of less-than", "statement": "The axiom generated for > makes gt(a,b) equivalent to lt(b,a) in every trace.", "quantifier": "every trace and every pair of time points", "why_tests_cant": "quantifies over all traces", "anchors": ["crates/cryptovampire/src/problem/general_assertions/order.rs lines 65-66"]}
{"id": "C26", "title": "Step distinctness and exhaustiveness", "statement": "The generated axioms say that two step instances are equal only if they are the same step with equal indices, and that every happening time point is an instance of a declared step; both hold in every trace of the protocol.", "quantifier": "every protocol (any number of steps and parameters) and trace", "why_tests_cant": "number of steps and parameters unbounded", "anchors": ["crates/cryptovampire/src/problem/general_assertions/order.rs lines 73-117"]}
{"id": "C27", "title": "Evaluation axioms make evaluation a homomorphism", "statement": "In every computational interpretation, the generated evaluation axioms (connectives, equality, if-then-else, quantifiers, find-such-that, user functions) are satisfied, so an unsatisfiable file reflects a real proof.", "quantifier": "every interpretation, every function signature", "why_tests_cant": "quantifies over interpretations and signatures", "anchors": ["crates/cryptovampire/src/problem/general_assertions/evaluate.rs"]}
{"id": "C28", "title": "Memory cell axioms determine the cell contents", "statement": "In every trace the value of a cell at a step equals the content of the assignment of that step to that cell (for matching arguments) and is unchanged by every step that does not assign it.", "quantifier": "every protocol, cell, assignment, trace", "why_tests_cant": "unbounded protocols and traces; depends on variable ids", "anchors": ["crates/cryptovampire/src/problem/crypto_assumptions/cell.rs"]}
{"id": "C29", "title": "exec(s) means all conditions up to s hold", "statement": "In every trace the generated definition of exec makes exec at a time point equivalent to the conjunction of the conditions of all time points before or at it.", "quantifier": "every trace", "why_tests_cant": "induction over traces", "anchors": ["crates/cryptovampire/src/problem/crypto_assumptions/unfolding.rs lines 90-131"]}
{"id": "C30", "title": "Message/condition macros unfold to the step's own terms", "statement": "Unfolding message(s(args)) or condition(s(args)) anywhere gives the term written in the step with its parameters replaced by args, whatever variable ids are in use at the place of use.", "quantifier": "every step, every argument list, every context", "why_tests_cant": "depends on the numeric ids in use", "anchors": ["crates/cryptovampire/src/problem/step.rs: apply_message, apply_condition", "crates/cryptovampire/src/formula/utils/formula_expander.rs: unfold_step_macro", "crates/cryptovampire/src/problem/crypto_assumptions/unfolding.rs lines 133-155", "crates/cryptovampire/src/parser/parser/parsing_environement/cache/step.rs: args_vars"]}
{"id": "C31", "title": "Merging disjuncts under one existential preserves meaning", "statement": "Turning a list of partially existentially quantified disjuncts into a single existential formula yields a formula implied by (and, without capture, equivalent to) the disjunction of the originals.", "quantifier": "every list of disjuncts, every interpretation with non-empty sorts", "why_tests_cant": "all interpretations, all lists, all sharing patterns of variables", "anchors": ["crates/cryptovampire/src/subterm/mod.rs: into_exist_formula"]}
{"id": "C32", "title": "Subterm search is complete", "statement": "A subterm search over a term reports every occurrence of the searched function that the default recursion can reach, each with a guard describing the conditions and bound variables on the path.", "quantifier": "every term and every searched function", "why_tests_cant": "unbounded terms", "anchors": ["crates/cryptovampire/src/subterm/traits.rs: DefaultAuxSubterm, is_subterm_and_next", "crates/cryptovampire/src/subterm/mod.rs: preprocess_terms, PreprocessTermIterator"]}
{"id": "C33", "title": "UF-CMA general axiom is the verification-implies-signature statement", "statement": "The fallback unforgeability axiom says: if a signature verifies for a message under a key, then it is an honest signature of that message or the key leaks - with signature, message and key in the positions in which the protocol uses verify.", "quantifier": "every signature/message/key triple, every interpretation", "why_tests_cant": "quantifies over interpretations; both axiom shapes have the same sort so no type error reveals a swap", "anchors": ["crates/cryptovampire/src/problem/crypto_assumptions/uf_cma.rs lines 100-190", "crates/cryptovampire/src/problem/crypto_assumptions/euf_cma.rs lines 133-150"]}
{"id": "C34", "title": "MAC search inspects both sides of an equality", "statement": "In hmac mode the search for uses of a mac explores every subterm of an equality between a mac and another term.", "quantifier": "every term", "why_tests_cant": "unbounded terms", "anchors": ["crates/cryptovampire/src/problem/crypto_assumptions/uf_cma/subterm.rs: UfCmaMainSubtAux::var_eval_and_next_fun"]}
{"id": "C35", "title": "INT-CTXT candidates include nested encryptions", "statement": "The randomness side condition of the ciphertext-integrity axiom ranges over every encryption occurring in the protocol, at any depth.", "quantifier": "every protocol term", "why_tests_cant": "unbounded nesting", "anchors": ["crates/cryptovampire/src/problem/crypto_assumptions/int_ctxt.rs: candidates_enc"]}
{"id": "C36", "title": "Dependency graph answers are the transitive closure of real dependencies", "statement": "Asking which memory cells and inputs a macro may depend on returns every cell reachable through assignments, step messages, conditions and inputs.", "quantifier": "every protocol", "why_tests_cant": "graphs of any size and shape", "anchors": ["crates/cryptovampire/src/problem/cell_dependancies/graph.rs: ancestors, new", "crates/cryptovampire/src/problem/cell_dependancies/graph/process_functions.rs", "crates/cryptovampire/src/problem/cell_dependancies/preprocessed_graph.rs"]}
{"id": "C37", "title": "Macro unfolding renames apart", "statement": "When a macro is unfolded inside a formula, variables introduced by the unfolding are distinct from the variables already in use.", "quantifier": "every set of variables in use and every step/cell definition", "why_tests_cant": "depends on arbitrary ids", "anchors": ["crates/cryptovampire/src/formula/utils/formula_expander.rs: make_collision_avoiding_subst, unfold_cell_or_input, unfold_step_macro, unfold_quantifier"]}
{"id": "C38", "title": "Translation to SMT preserves meaning", "statement": "The SMT formula emitted for an internal formula is true in an interpretation exactly when the internal formula is.", "quantifier": "every formula, interpretation and environment", "why_tests_cant": "all formulas and interpretations", "anchors": ["crates/cryptovampire/src/smt/smt.rs: from_arichformula"]}
{"id": "C39", "title": "Printed SMT can be read back", "statement": "The printed text of an SMT formula is a well-formed s-expression from which the formula can be recovered, so no two different formulas print the same.", "quantifier": "every SMT formula whose symbols are legal tokens", "why_tests_cant": "unbounded formulas; printing is recursive", "anchors": ["crates/cryptovampire/src/smt/smt/display.rs lines 114-186"]}
{"id": "C40", "title": "The emitted file is unsatisfiable only if the query follows", "statement": "A generated file asserts all axioms, lemmas and user assertions and the negation of the query (exactly once), so it has no model if and only if the query follows from the rest.", "quantifier": "every problem, both the plain and the assert-not output mode", "why_tests_cant": "quantifies over models", "anchors": ["crates/cryptovampire/src/smt/smt.rs: from_axiom, from_general_file", "crates/cryptovampire/src/problem/problem/mod.rs: generate"]}
{"id": "C41", "title": "Lemma chain is sound", "statement": "Iterating over a problem with lemmas yields one problem per lemma plus the final query; lemma k is proved from the assertions and the previously proved lemmas only, and if all are valid, the query follows from the assertions alone.", "quantifier": "every list of lemmas", "why_tests_cant": "induction over lemma lists", "anchors": ["crates/cryptovampire/src/problem/problem/pbl_iterator.rs", "crates/cryptovampire/src/lib.rs: auto_run"]}
{"id": "C42", "title": "Every symbol used is declared exactly once", "statement": "Partitioning the functions of a problem for output declares every function exactly once, either as a datatype constructor or as a plain function.", "quantifier": "every list of functions", "why_tests_cant": "arbitrary lists", "anchors": ["crates/cryptovampire/src/problem/problem/mod.rs lines 193-218"]}
{"id": "C43", "title": "Protocol construction keeps every step and puts init first", "statement": "Building a protocol from a list of steps keeps exactly those steps, with init at position 0, and fails when there is no init step.", "quantifier": "every list of steps", "why_tests_cant": "arbitrary lists", "anchors": ["crates/cryptovampire/src/problem/protocol.rs: Protocol::new, steps_without_init"]}
{"id": "C44", "title": "A success answer is backed by an unsat answer", "statement": "The automatic runner only reports a problem as proved if some solver answered unsat for a file of that problem in one of the rounds.", "quantifier": "every schedule of solver answers, any number of solvers and rounds", "why_tests_cant": "answers arrive concurrently in any order", "anchors": ["crates/cryptovampire/src/runner/runners.rs: autorun, autorun_many", "crates/cryptovampire/src/runner/vampire.rs", "crates/cryptovampire/src/runner/z3.rs"]}
{"id": "C45", "title": "The number of rounds respects the limit", "statement": "The runner runs at most the requested number of rounds, reports the number of rounds actually used, and reports running out of tries only after that many timeouts.", "quantifier": "every limit and every sequence of solver outcomes", "why_tests_cant": "unbounded sequences", "anchors": ["crates/cryptovampire/src/runner/runners.rs: autorun"]}
{"id": "C46", "title": "The verdict does not depend on solver timing", "statement": "If some solver answers unsat and none answers sat in a round, the verdict of the round does not depend on the order in which the answers arrive.", "quantifier": "every set of solver answers and every arrival order", "why_tests_cant": "all interleavings", "anchors": ["crates/cryptovampire/src/runner/runners.rs: autorun_many"]}
{"id": "C47", "title": "No solver process survives a round", "statement": "After a round, every spawned solver process has terminated or has been killed, whatever the interleaving of spawning, answering and killing.", "quantifier": "every interleaving of threads, any number of solvers", "why_tests_cant": "all interleavings", "anchors": ["crates/cryptovampire/src/runner/runners.rs: killall, Handler::spawn_killable_child, autorun_many, kill_shared_child"]}
{"id": "C48", "title": "Solver output is classified correctly", "statement": "The status computed from a solver's exit code and output is unsat/sat/timeout only when the solver said so.", "quantifier": "every output text and exit code", "why_tests_cant": "all strings", "anchors": ["crates/cryptovampire/src/runner/z3.rs: run", "crates/cryptovampire/src/runner/vampire.rs: run"]}
{"id": "C49", "title": "Terms read back from the solver use distinct variables for distinct unknowns", "statement": "When solver output is converted back to formulas, two different unknown symbols are never mapped to the same variable.", "quantifier": "every solver term, every sequence of conversions sharing a variable table", "why_tests_cant": "stateful table over arbitrary sequences", "anchors": ["crates/cryptovampire/src/formula/base_formula/tmp_formula.rs: to_rich_formula_variable"]}
{"id": "C50", "title": "Terms read back from the solver respect arities", "statement": "A converted application has exactly as many arguments as the function's signature, otherwise an error is reported.", "quantifier": "every solver term and signature", "why_tests_cant": "all terms", "anchors": ["crates/cryptovampire/src/formula/base_formula/tmp_formula.rs: convert_app"]}
{"id": "C51", "title": "Quoted names are unquoted exactly", "statement": "Reading a quoted name returns the text between the quotes, and an unquoted name is unchanged.", "quantifier": "every string", "why_tests_cant": "all strings including non-ASCII", "anchors": ["crates/cryptovampire/src/runner/tptp.rs: trim_quotes"]}
{"id": "C52", "title": "Generated names are unique", "statement": "Two calls asking for a fresh function name never return the same name, and a fresh name is never the name of an existing function.", "quantifier": "every sequence of calls and base names", "why_tests_cant": "unbounded histories; counter wrap-around", "anchors": ["crates/cryptovampire/src/container/container.rs: find_free_function_name, is_name_available, name_hash_set"]}
{"id": "C53", "title": "Allocated definitions are initialised at most once", "statement": "A definition allocated in the container is readable only after initialisation, initialising twice is an error and never changes the stored value.", "quantifier": "every history of allocate/initialise/read operations", "why_tests_cant": "histories", "anchors": ["crates/cryptovampire/src/container/contained.rs: initialize_with", "crates/cryptovampire/src/container/allocator.rs", "crates/cryptovampire/src/container/reference.rs"]}
{"id": "C54", "title": "Tuple projections invert tupling", "statement": "Projecting the i-th component of a converted tuple gives its i-th element, under the two generated projection axioms.", "quantifier": "every tuple size n >= 1 and index i", "why_tests_cant": "unbounded n", "anchors": ["crates/cryptovampire/src/squirrel/converters/helper_functions/convertion_functions.rs: convert_tuple, convert_projection", "crates/cryptovampire/src/squirrel/converters/top_level_converter.rs: mk_assertions"]}
{"id": "C55", "title": "Sanitised names do not collide", "statement": "Two different source symbols of the same kind are converted to different target names, and never to a reserved name they did not ask for.", "quantifier": "every pair of symbol strings and kinds", "why_tests_cant": "all strings", "anchors": ["crates/cryptovampire/src/squirrel/converters/mod.rs: sanitize, REMMAPPED_FUNCTION", "crates/cryptovampire/src/squirrel/mod.rs: SanitizeKind"]}
{"id": "C56", "title": "Control-flow order of actions is the strict prefix order", "statement": "The dependency lemma generated for two actions states a < b exactly when a is a strict prefix of b in the control flow; the relation is a strict partial order; mutual exclusion is generated exactly for actions that diverge at an exclusive choice.", "quantifier": "every pair of actions", "why_tests_cant": "all action shapes", "anchors": ["crates/cryptovampire/src/squirrel/converters/convert_order.rs: MAT partial_cmp, depends, mutex_commun_vars"]}
{"id": "C57", "title": "Renamed indices are fresh", "statement": "The indices of the second action in a mutual-exclusion lemma are renamed to names that differ from every other index used in the lemma; the renaming loop terminates.", "quantifier": "every pair of index-name lists", "why_tests_cant": "all strings; termination", "anchors": ["crates/cryptovampire/src/squirrel/converters/convert_order.rs lines 159-234"]}
{"id": "C58", "title": "Each problem of a Squirrel file gets its own output location", "statement": "When a Squirrel dump gives several problems, problem i is written to <output>/i.", "quantifier": "every number of problems", "why_tests_cant": "unbounded count", "anchors": ["crates/cryptovampire/src/squirrel/mod.rs: run_from_json"]}
{"id": "C59", "title": "Alternatives are combined pointwise", "statement": "Combining a list of values that are either common to all alternatives or given per alternative yields, at each alternative, the list of the values at that alternative.", "quantifier": "every list of values, every number of alternatives", "why_tests_cant": "arbitrary lists", "anchors": ["crates/utils/src/all_or_one.rs: transpose_iter, try_merge, bind, owned_get"]}
{"id": "C60", "title": "Reference vectors report their length", "statement": "len and is_empty agree with the number of elements the iterator yields, and get(i) returns the i-th of them.", "quantifier": "every reference vector in every representation", "why_tests_cant": "all representations", "anchors": ["crates/utils/src/vecref.rs: VecRef, VecRefClone"]}
{"id": "C61", "title": "Shared-slice iterator is a correct double-ended iterator", "statement": "Any interleaving of next and next_back yields every element exactly once, from the front and from the back respectively, then none for ever.", "quantifier": "every slice and every sequence of calls", "why_tests_cant": "all call sequences", "anchors": ["crates/utils/src/arc_into_iter.rs: ArcIntoIter"]}
{"id": "C62", "title": "Derived comparisons are lexicographic orders", "statement": "The helper combining partial comparisons returns the first non-equal verdict, None if an earlier one is incomparable; extended naturals are totally ordered with both infinities at the ends.", "quantifier": "all lists of comparison results; all extended naturals", "why_tests_cant": "all inputs", "anchors": ["crates/utils/src/fast_partial_cmp.rs", "crates/utils/src/infinity.rs", "crates/utils/src/ord_util.rs"]}
{"id": "C63", "title": "Bag iteration yields every element once", "statement": "Iterating over a bag yields each element of it and of all merged bags exactly once.", "quantifier": "every bag", "why_tests_cant": "unbounded nesting", "anchors": ["crates/indistinguishability/src/mutils/mod.rs: BagIter"]}
{"id": "C64", "title": "Rewrite rules preserve meaning", "statement": "Every general rewrite rule and every if-then-else bubbling rule relates terms with the same value in every interpretation satisfying the basic equations (projections, decryption, conditionals, equality, lengths).", "quantifier": "every interpretation and every instance of a rule, every function arity", "why_tests_cant": "all interpretations", "anchors": ["crates/indistinguishability/src/main.rs: make_general_rules, mk_bubble_rules"]}
{"id": "C65", "title": "Occurrence check on e-graphs is sound", "statement": "If the check answers that a nonce does not occur in an e-class, then the class contains a finite term in which the nonce occurs in no searched position.", "quantifier": "every e-graph (including cyclic ones), every memo table produced by earlier searches", "why_tests_cant": "cyclic graphs and memo histories", "anchors": ["crates/indistinguishability/src/ind_cca.rs: not_subterm_down", "crates/indistinguishability/src/enc_kp.rs: not_subterm_down_nonce, not_subterm_down_key"]}
{"id": "C66", "title": "Iterating over the variables of a formula sees every variable and terminates", "statement": "Iterating over the variables of a formula, looking through symbolic quantifiers, ends and yields exactly the variables occurring in it.", "quantifier": "every formula, every symbolic quantifier definition", "why_tests_cant": "termination and exactness over all formulas", "anchors": ["crates/cryptovampire/src/formula/formula/expanding_formula.rs: Expander::destruct", "crates/cryptovampire/src/formula/formula/arc.rs: vars_iter", "crates/cryptovampire/src/formula/variable.rs: max_var_or_max"]}
{"id": "C67", "title": "Alternatives behave as a lawful computation", "statement": "Sequencing computations over alternatives satisfies the left and right identity laws and associativity, whenever nothing panics.", "quantifier": "every value with alternatives, every continuation", "why_tests_cant": "laws quantify over all values and functions", "anchors": ["crates/utils/src/all_or_one.rs: bind, pure, monad_continue", "crates/utils/src/monad.rs"]}
{"id": "C68", "title": "Collecting exactly N items reports the right error", "statement": "Collecting an iterator into an array of N items succeeds exactly when it has N items; for fallible items the first error is returned when one of the N items failed.", "quantifier": "every sequence of items", "why_tests_cant": "all sequences", "anchors": ["crates/utils/src/iter_array.rs: collect_array_exact"]}
{"id": "C69", "title": "The sort of an application is decided by the signature", "statement": "Asking the sort of a function applied to arguments of given sorts succeeds exactly when the signature accepts the number and the sorts of the arguments, and gives the result sort.", "quantifier": "every function signature, every list of argument sorts", "why_tests_cant": "argument lists are unbounded; signatures are user-defined", "anchors": ["crates/cryptovampire/src/formula/function/function.rs: Sorted for Function", "crates/cryptovampire/src/formula/function/signature/mod.rs: Signature::unify"]}
{"id": "C70", "title": "Every well-sorted formula has a sort", "statement": "get_sort returns the sort of every well-sorted formula.", "quantifier": "every well-sorted formula over any signature", "why_tests_cant": "formulas are unbounded", "anchors": ["crates/cryptovampire/src/formula/formula/formula.rs: get_sort", "crates/cryptovampire/src/formula/function/inner/if_then_else.rs"]}
{"id": "C71", "title": "message and condition of a step mean the step's definition", "statement": "message(s(args)) and condition(s(args)) in a term mean the message or condition declared for s, with its parameters standing for args and `in` for the input of s(args).", "quantifier": "every step, every argument list, every stack of enclosing binders, both realms, all interpretations", "why_tests_cant": "bodies, arguments and interpretations are unbounded", "anchors": ["crates/cryptovampire/src/parser/parser/parsable_trait.rs: Parsable for AppMacro (Msg, Cond)", "crates/cryptovampire/src/parser/parser/parsing_environement/cache/step.rs: substitution"]}
{"id": "C72", "title": "Unfolding exec reaches every condition it is made of", "statement": "When the subterm search meets exec at a time point, it goes on with the condition of every step at or before that point, guarded by being so.", "quantifier": "every protocol and time point", "why_tests_cant": "protocols and executions are unbounded; a missed condition only shows as a wrongly proved property", "anchors": ["crates/cryptovampire/src/formula/utils/formula_expander.rs: unfold_exec, unfold_cell_or_input", "crates/cryptovampire/src/problem/cell_dependancies/graph.rs: ancestors"]}
{"id": "C73", "title": "Unfolding an input or a cell reaches everything it can be made of, and nothing else", "statement": "When the subterm search meets an input at a time point, it goes on with exactly the message and condition of every step, guarded by that step being strictly earlier; for a memory cell, with exactly the content of every assignment of the cells reachable from it through assignments, guarded by the step being at or before the point. New variables are distinct from those in use and the new term has the meaning of the original at their values.", "quantifier": "every protocol, time point, search state and interpretation", "why_tests_cant": "protocols, states and interpretations are unbounded", "anchors": ["crates/cryptovampire/src/formula/utils/formula_expander.rs: unfold_cell_or_input", "crates/cryptovampire/src/problem/cell_dependancies/graph.rs: ancestors"]}
{"id": "C74", "title": "Key searches skip exactly the names in key positions", "statement": "When the unforgeability and ciphertext-integrity axioms look for leaks of a key (or of encryption randomness), every position of a term is visited except a name that stands in a key (randomness) position of the primitive.", "quantifier": "every term and every position in it, every primitive", "why_tests_cant": "terms are unbounded; one skipped position hides a leak and makes a wrong proof", "anchors": ["crates/cryptovampire/src/problem/crypto_assumptions/uf_cma/subterm.rs", "crates/cryptovampire/src/problem/crypto_assumptions/euf_cma.rs", "crates/cryptovampire/src/problem/crypto_assumptions/int_ctxt.rs: KeyAux, RandAux"]}
{"id": "C75", "title": "INT-CTXT axioms are well sorted and say that decryption inverts encryption", "statement": "The base axiom of ciphertext integrity says that decrypting an encryption gives back the message; in the general axiom every function is applied to arguments of its sorts.", "quantifier": "all symbols, all interpretations", "why_tests_cant": "quantifies over interpretations; the ill-sorted axiom is only met when the solver reads the file", "anchors": ["crates/cryptovampire/src/problem/crypto_assumptions/int_ctxt.rs: generate"]}
{"id": "C76", "title": "Propagating evaluations preserves assertions", "statement": "When evaluations are pushed towards the leaves before an assertion is printed, the printed assertion means the same as the original in every interpretation where evaluation commutes with the functions.", "quantifier": "every assertion and every interpretation", "why_tests_cant": "quantifies over interpretations; a changed assertion only shows as a proof or a failure that should not be", "anchors": ["crates/cryptovampire/src/problem/general_assertions/assertion_preprocessor.rs: propagate_evaluate"]}
{"id": "C77", "title": "Sanitised names are legal SMT-LIB symbols", "statement": "The name given to a Squirrel symbol is made of characters that SMT-LIB allows in a simple symbol.", "quantifier": "every symbol string and kind", "why_tests_cant": "all strings", "anchors": ["crates/cryptovampire/src/squirrel/converters/mod.rs: sanitize, SMT_SAFE"]}
{"id": "C78", "title": "Each alternative of a converted term is the conversion of the term of one system", "statement": "Converting a term with diff operators gives an error or one alternative per system, in the order of the names of the systems; alternative i is the conversion of the term in which every diff is replaced by its branch for system i. The conversion succeeds if that of the term of every system does, and never panics.", "quantifier": "every term, every number and nesting of diff operators, all declared functions, names and macros", "why_tests_cant": "terms and nestings are unbounded", "anchors": ["crates/cryptovampire/src/squirrel/converters/ast_convertion.rs: ToAst for Term", "crates/cryptovampire/src/squirrel/converters/helper_functions/convertion_functions.rs", "crates/utils/src/all_or_one.rs"]}
{"id": "C79", "title": "Functions and names are applied with the number of arguments they are declared with", "statement": "In the converted problem, every application of a Squirrel function or name has as many arguments as the declaration that is made for it, also when an argument is a tuple.", "quantifier": "every function type, every application, every term", "why_tests_cant": "types and terms are unbounded", "anchors": ["crates/cryptovampire/src/squirrel/converters/top_level_converter.rs: mk_funs_and_names", "crates/cryptovampire/src/squirrel/converters/helper_functions/convertion_functions.rs: convert_function, convert_name"]}
{"id": "C80", "title": "The query given to the prover is that of the Squirrel goal", "statement": "In each system, the converted query holds exactly when for all values of the variables of the goal the hypotheses imply the conclusion.", "quantifier": "all lists of variables and hypotheses, every interpretation of the connectives", "why_tests_cant": "lists and interpretations are unbounded", "anchors": ["crates/cryptovampire/src/squirrel/converters/top_level_converter.rs: mk_query", "crates/cryptovampire/src/squirrel/json/term.rs: mk_app"]}
{"id": "C81", "title": "In a step, an input variable stands for the input of the action that binds it", "statement": "The terms of a step with global macros are put below let bindings; the variable bound by the input at the k-th position of the control flow stands for the input of the action at the first k positions of the step.", "quantifier": "every step, control flow and list of input variables", "why_tests_cant": "control flows are unbounded", "anchors": ["crates/cryptovampire/src/squirrel/converters/ast_convertion.rs: prepare_term", "crates/cryptovampire/src/squirrel/json/mmacro.rs: inputs", "crates/cryptovampire/src/squirrel/json/action.rs: as_term"]}
{"id": "C82", "title": "The table of functions finds every function by its name", "statement": "The table of functions by name answers a name with a function of that name, built-in ones first and then the last one declared, answers nothing only if there is none, and is refused exactly while a function has no content.", "quantifier": "every container, every name", "why_tests_cant": "containers are unbounded", "anchors": ["crates/cryptovampire/src/container/container.rs: get_function_hash_map"]}
{"id": "C83", "title": "Literals read from the solver mean what the solver printed", "statement": "The formula read for a literal of the solver has the meaning of that literal, quoted or not: applications, equalities, and both kinds of negation.", "quantifier": "every literal, every interpretation of the symbols", "why_tests_cant": "literals and interpretations are unbounded", "anchors": ["crates/cryptovampire/src/runner/tptp.rs: TryFrom implementations, trim_quotes"]}
{"id": "C84", "title": "Occurrence check on e-graphs finds a term without the nonce if there is one", "statement": "The check answers that a nonce does not occur in an e-class whenever the class contains a finite term in which the nonce occurs in no searched position.", "quantifier": "every e-graph (including cyclic ones), every sequence of checks sharing a table", "why_tests_cant": "cyclic graphs and memo histories", "anchors": ["crates/indistinguishability/src/ind_cca.rs: not_subterm_down", "crates/indistinguishability/src/enc_kp.rs: not_subterm_down_nonce, not_subterm_down_key"]}
{"id": "C85", "title": "Merges made by the IND-CCA2 rule are instances of the axiom", "statement": "Each merge proposed by the rule relates a class with an equivalence to a term of it in which a ciphertext under a nonce key, with a nonce of its own as randomness, is replaced by a ciphertext of zeroes of the same length; the message and everything around the replaced ciphertext do not contain the randomness, and contain the key only in public keys and in decryptions of something else.", "quantifier": "every e-graph, every match, every order of the upward search", "why_tests_cant": "graphs and orders of exploration are unbounded", "anchors": ["crates/indistinguishability/src/ind_cca.rs: IndCCA2::find, find_searchs, into_search, search_up_once"]}
{"id": "C86", "title": "Merges made by the ENC-KP rule are instances of the axiom", "statement": "Each merge proposed by the rule relates a class with an equivalence to a term of it in which the key of a ciphertext is replaced by another nonce, different from the key and from the randomness; the message and everything around the replaced ciphertext do not contain the randomness nor, outside of decryptions, the two keys.", "quantifier": "every e-graph, every match, every list of keys, every order of the upward search", "why_tests_cant": "graphs and orders of exploration are unbounded", "anchors": ["crates/indistinguishability/src/enc_kp.rs: EnkKp::find, find_searchs, into_search, search_up_once"]}
{"id": "C87", "title": "The upward searches of the IND-CCA2 and ENC-KP rules end", "statement": "Starting from any match, the upward search stops after at most as many steps as the e-graph has classes, and no step panics, in whatever order the pending classes and the parents are visited.", "quantifier": "every e-graph (including cyclic ones), every match, every order", "why_tests_cant": "graphs and orders of exploration are unbounded", "anchors": ["crates/indistinguishability/src/ind_cca.rs: Searcher, search_up_once, next", "crates/indistinguishability/src/enc_kp.rs: Searcher, search_up_once, next"]}
{"id": "C88", "title": "The conversion of Squirrel terms preserves their meaning", "statement": "In every interpretation of the symbols that Squirrel and CryptoVampire share (functions, names, macros, pairs, find, quantifiers), the alternative produced for a system has, as a CryptoVampire term, the value of the Squirrel term seen from that system.", "quantifier": "every term, set of systems, interpretation over any domain, and assignment of the variables", "why_tests_cant": "quantifies over all terms and all interpretations", "anchors": ["crates/cryptovampire/src/squirrel/converters/ast_convertion.rs: ToAst for Term", "crates/cryptovampire/src/squirrel/converters/helper_functions/convertion_functions.rs: convert_application, convert_function_or_name_application, convert_macro_application, convert_diff, convert_projection, convert_findst, convert_quantifier"]}
{"id": "C89", "title": "The axioms that define a subterm relation say exactly where it looks", "statement": "The axioms generated for the subterm relations of UF-CMA, EUF-CMA and INT-CTXT hold in a structure exactly when the relation passes through every function of terms except the cryptographic ones, stops at those, relates nothing to values that are not terms, and obeys the assertions of inputs, cells, macros and quantifiers; they hold when the relation is occurrence.", "quantifier": "every set of functions and sorts, every protocol, every structure, Vampire and Regular relations", "why_tests_cant": "truth in all structures and for all protocols cannot be sampled", "anchors": ["crates/cryptovampire/src/subterm/mod.rs: generate_functions_assertions, preprocess_special_assertion_from_pbl, not_of_sort", "crates/cryptovampire/src/problem/crypto_assumptions/uf_cma.rs: define_subterms", "crates/cryptovampire/src/problem/crypto_assumptions/euf_cma.rs: define_subterms", "crates/cryptovampire/src/problem/crypto_assumptions/int_ctxt.rs: define_subterms"]}
{"id": "C90", "title": "A message worth a name is built from that name", "statement": "In every model of the axioms about names, a message that evaluates to the value of a name and that is built by functions from names, indices and other values contains that name; names with the same value are equal.", "quantifier": "every set of functions, every protocol, every model of the axioms, every term", "why_tests_cant": "quantifies over models and terms", "anchors": ["crates/cryptovampire/src/problem/crypto_assumptions/nonce.rs: generate"]}
{"id": "C91", "title": "Only keys that occur unprotected may be split", "statement": "The axiom about the split predicate of UF-CMA and EUF-CMA holds exactly when every name of which it holds is the value of a name found by the key search in a message, a condition or an assignment of the protocol; any name that occurs there outside of key positions qualifies.", "quantifier": "every protocol with its own quantifiers, every structure", "why_tests_cant": "all protocols and structures", "anchors": ["crates/cryptovampire/src/problem/crypto_assumptions/uf_cma.rs: generate (148-165)", "crates/cryptovampire/src/problem/crypto_assumptions/euf_cma.rs: generate (114-131)", "crates/cryptovampire/src/subterm/mod.rs: preprocess_whole_ptcl"]}
{"id": "C92", "title": "A generated file declares every function it uses, once", "statement": "Every function symbol of every axiom, assertion and of the query of a file is built into the solver or declared in the file, and no symbol is declared twice.", "quantifier": "every problem closed under its own symbols, all options, every order of declarations", "why_tests_cant": "problems and options are unbounded; a missing declaration shows only when a solver refuses the file", "anchors": ["crates/cryptovampire/src/smt/smt.rs: SmtFile::from_general_file", "crates/cryptovampire/src/problem/problem/mod.rs: into_general_file", "crates/cryptovampire/src/problem/general_assertions/evaluate.rs: generate"]}
{"id": "C93", "title": "A generated file declares every sort it uses, once", "statement": "Every sort of a quantified variable and of the signature of a declared function is built into the solver or declared in the file, and no sort is declared twice.", "quantifier": "every problem closed under its own symbols, all options", "why_tests_cant": "problems and options are unbounded", "anchors": ["crates/cryptovampire/src/problem/general_assertions/mod.rs", "crates/cryptovampire/src/smt/smt.rs: SmtFile::from_general_file"]}
{"id": "C94", "title": "Options of the command line do what their help says, independently of each other", "statement": "Every option decides exactly the behaviour its help text describes: realm, legacy evaluation, bitstring functions, preprocessing, subterm relations, rewrite rules, lemmas, shadowing, and the commands that files for Vampire, Z3 and the SMT-LIB standard may use; no combination of options panics.", "quantifier": "all combinations of options, every list of axioms", "why_tests_cant": "the combinations are many thousands, and standard files are a statement about all axioms", "anchors": ["crates/cryptovampire/src/cli.rs: into_with, Into<SolverConfig>", "crates/cryptovampire/src/environement/environement.rs: Environement, Flags, RewriteFlags, SubtermFlags", "crates/cryptovampire/src/smt/smt.rs: from_axiom", "crates/cryptovampire/src/runner/vampire.rs: write", "crates/cryptovampire/src/runner/z3.rs: write"]}
{"id": "C95", "title": "A run writes one file per lemma and one for the query, or calls the solvers that are enabled and found", "statement": "With to-file and lemmas, file k states lemma k under the lemmas before it and the last file states the query under all of them; without lemmas exactly one file is written, at the location; otherwise the solvers called are exactly those enabled and found, with the retries and time given, and having none is an error.", "quantifier": "all options, every problem with any number of lemmas, every behaviour of the file system", "why_tests_cant": "numbers of lemmas and behaviours of the file system are unbounded", "anchors": ["crates/cryptovampire/src/lib.rs: run_from_ast, run_to_dir, run_to_file, save_to_file", "crates/cryptovampire/src/runner/runners.rs: TryFrom<SolverConfig>", "crates/cryptovampire/src/cli.rs: get_output_location", "crates/cryptovampire/src/parser/parser/parsing_environement.rs: prbl_from_ast"]}
{"id": "C96", "title": "Every assertion of a generated file is a sentence", "statement": "No axiom, assertion or query of a file has a free variable, and the two sides of every rewrite rule only use the variables that the rule quantifies, for every problem whose steps, cells, quantifiers and assertions only use the variables they bind.", "quantifier": "every problem, both realms, all options, every cryptographic assumption", "why_tests_cant": "problems are unbounded, and an open formula shows only when a solver refuses the file", "anchors": ["crates/cryptovampire/src/problem/problem/mod.rs: into_general_file", "crates/cryptovampire/src/problem/crypto_assumptions/int_ctxt.rs: preprocess (366-370)", "crates/cryptovampire/src/problem/crypto_assumptions/uf_cma.rs: preprocess", "crates/cryptovampire/src/problem/general_assertions/evaluate.rs: generate", "crates/cryptovampire/src/problem/general_assertions/order.rs: generate"]}
{"id": "C97", "title": "A file passes the declarations exactly when its names are declared once and its types exist", "statement": "A file is accepted by the declaration phase exactly when every name is declared once and is not a keyword, the types of all parameters and results of functions exist (in whatever order they are declared), init has no parameters, and there is exactly one query; an accepted file yields a table in which each declaration is found under its name with the sorts it was given, the default init step if none is declared, and the assertions, lemmas, orders and cryptographic assumptions in the order of the file.", "quantifier": "every list of declarations, any number of them, every table of built-in names", "why_tests_cant": "files are unbounded; acceptance is an equivalence over all of them, and independence of the order of declarations quantifies over all permutations", "anchors": ["crates/cryptovampire/src/parser/parser/parsing_environement.rs: prbl_from_ast", "crates/cryptovampire/src/parser/parser/declare.rs: declare_sorts, fetch_all, declare_function, declare_step, declare_cell, declare_let"]}
{"id": "C98", "title": "A file with an undeclared type or a doubly declared name is rejected with an error", "statement": "Whenever a type that a declaration mentions does not exist, or a name is declared twice or is a keyword, reading the file ends in an error message: it neither panics nor is the file accepted.", "quantifier": "every list of declarations", "why_tests_cant": "files are unbounded, and the absence of panics is a statement about all of them", "anchors": ["crates/cryptovampire/src/parser/parser/declare.rs: declare_function, declare_cell", "crates/cryptovampire/src/formula/function/function.rs: new_user_term_algebra (297)", "crates/cryptovampire/src/parser/parser/parsing_environement.rs: parse_pbl_from_ast"]}
{"id": "C99", "title": "A step means what it says", "statement": "The step read from a declaration has one variable per parameter with the declared sort; in its condition, message and assignments a parameter denotes its variable and `in` the input at this very step; each assignment goes to the cell it names, with as many arguments of the right sorts as the cell has, and its fresh variables are bound in it only and differ from the parameters.", "quantifier": "every declared step, all terms, any number of assignments and fresh variables", "why_tests_cant": "steps, terms and environments are unbounded", "anchors": ["crates/cryptovampire/src/parser/parser/parse_step_cell_asserts/step.rs: parse_step", "crates/cryptovampire/src/parser/parser/parse_step_cell_asserts/cells.rs: parse_cells", "crates/cryptovampire/src/parser/parser/parsing_environement.rs: parse_pbl_from_ast"]}
{"id": "C100", "title": "A cryptographic assumption is accepted exactly when its functions have the right signatures, and is the one asked for", "statement": "`assert-crypto` with functions and options is accepted exactly when the name is known and the functions are declared, as many as needed, with the signatures the assumption requires; the result names these functions in the roles of their positions and carries the options that were given; it never panics.", "quantifier": "every table of declarations, every list of functions and options", "why_tests_cant": "tables of declarations and lists are unbounded", "anchors": ["crates/cryptovampire/src/parser/parser/parse_step_cell_asserts/assert_crypto.rs: parse_assert_crypto, parse_euf_cma, parse_uf_cma, parse_int_ctxt, parse_unfolding"]}
{"id": "C101", "title": "The assertions written for a file are sentences", "statement": "Every assertion and rewrite rule written for a file that is read without error has no free variable: the parser puts no variable out of scope in steps, cells, orders, assertions and quantifiers, and the generation adds none.", "quantifier": "every file (any declarations, steps, cells, orders, assertions), any order of the table of functions, both realms and all options", "why_tests_cant": "files, nesting of quantifiers and orders of hash tables are unbounded", "anchors": ["crates/cryptovampire/src/parser/parser/parsable_trait.rs: parse", "crates/cryptovampire/src/parser/parser/parsing_environement.rs: parse_pbl_from_ast", "crates/cryptovampire/src/problem/generator.rs", "crates/cryptovampire/src/smt/smt.rs"]}
{"id": "C102", "title": "The problem read from a file is what the file says", "statement": "The problem handed to the generator has exactly the steps of the file (with init first, added when missing), the cells with exactly the assignments written to them, and the assertions, lemmas, query, orders and cryptographic assumptions in their order; each is closed and has the value the text has. The order in which the hash table of functions is read changes nothing but the order of steps and cells.", "quantifier": "every accepted file, every order of the table of functions, every interpretation", "why_tests_cant": "files, orders of hash tables and interpretations are unbounded", "anchors": ["crates/cryptovampire/src/parser/parser/parsing_environement.rs: parse_pbl_from_ast", "crates/cryptovampire/src/parser/parser/parse_step_cell_asserts.rs: parse_steps, parse_cells, parse_assert_with_bvars, parse_orders_with_bvars"]}
{"id": "C103", "title": "The CryptoVampire file made from a Squirrel dump has the contents of the dump", "statement": "For each system, the converted file consists exactly of: the finite sorts and index; one cell for each state macro; the names and the abstract, monomorphic, non-builtin operators; one let for each global macro and each defined operator; the two projection equations; one step for each action with its indices, condition, output (under the bindings of its inputs) and updates; the orders of the pairs of steps; the cryptographic assumptions; and the query. When an entry is listed twice the last one counts; the order of the hash maps only permutes entries within a section.", "quantifier": "every dump, every order of the hash maps, every number of systems", "why_tests_cant": "dumps, hash map orders and systems are unbounded", "anchors": ["crates/cryptovampire/src/squirrel/converters/top_level_converter.rs: convert_squirrel_dump", "crates/cryptovampire/src/squirrel/converters/ast_convertion.rs: Action::convert, UpdateRef::convert, ConcreteMacro::convert", "crates/cryptovampire/src/squirrel/json/squirrel_dump.rs: ProcessedSquirrelDump::from"]}
{"id": "C104", "title": "The cryptographic assumptions of a Squirrel dump are passed on", "statement": "The converted file asks for exactly the assumptions of the dump (hash functions, symmetric encryptions, signatures) on the functions declared there, and the arguments of these functions stand where CryptoVampire expects them, so that the axioms written hold whenever the primitives are secure.", "quantifier": "every dump; every structure in which the primitives are correct and unforgeable", "why_tests_cant": "soundness is about all structures; a test sees one problem", "anchors": ["crates/cryptovampire/src/squirrel/converters/top_level_converter.rs: assert_crypto, assert_euf, assert_int_ctxt", "crates/cryptovampire/src/problem/crypto_assumptions/euf_cma.rs"]}
{"id": "C105", "title": "The declarations of a converted Squirrel file are accepted, and declare its symbols as what they are", "statement": "CryptoVampire accepts the declarations of a converted file (no clash of names, known types, one query, init without parameters). In an accepted file the names, functions, cells and steps of the Squirrel file denote names, functions, cells and steps with the sorts of their types, and different symbols denote different functions.", "quantifier": "every dump that is converted, every order of the hash maps, every numbering of names", "why_tests_cant": "dumps and names are unbounded; a test sees the symbols of one file", "anchors": ["crates/cryptovampire/src/squirrel/converters/top_level_converter.rs: convert_squirrel_dump", "crates/cryptovampire/src/squirrel/sanitizer.rs", "crates/cryptovampire/src/parser/parser/declare.rs: declare_sorts, fetch_all"]}
{"id": "C106", "title": "Converted Squirrel files mean what the Squirrel files mean", "statement": "The query of the problem read from a converted file has, for each system, the value of the query of the Squirrel file on that side, and the steps of the problem are exactly the actions of the Squirrel file (and init), with the values of their conditions and outputs, whenever the symbols of Squirrel are interpreted as those CryptoVampire reads; input variables have the values of the inputs of the actions at the positions above.", "quantifier": "every dump, system, order of hash maps, numbering of names, interpretation and valuation", "why_tests_cant": "dumps and interpretations are unbounded; a test compares one output with a fixed text", "anchors": ["crates/cryptovampire/src/squirrel/converters/ast_convertion.rs: Action::convert, prepare_term", "crates/cryptovampire/src/squirrel/converters/top_level_converter.rs: convert_squirrel_dump", "crates/cryptovampire/src/parser/parser/parsable_trait.rs: parse", "crates/cryptovampire/src/parser/parser/parse_step_cell_asserts/step.rs: parse_step"]}
{"id": "C107", "title": "The assignments of a converted Squirrel file are its updates", "statement": "In the problem read from a converted Squirrel file the cells are the state macros of the file, with parameters of their sorts. The assignments to a cell are exactly the updates of its macro by the actions of the file, in the step of the action and as often as written: for all values of the variables of the arguments that are no indices of the action, the arguments and the new content have the values of those of the update in the system.", "quantifier": "every dump, order of hash tables, system, structure, values of variables, and update that is proper", "why_tests_cant": "Which variables an update is universal in depends on the action and the arguments, and a wrong capture between the parameters of the step, its input and the fresh variables shows only in how the cells of a protocol evolve.", "anchors": ["crates/cryptovampire/src/squirrel/converters/ast_convertion.rs: UpdateRef::convert", "crates/cryptovampire/src/squirrel/json/term.rs: vars", "crates/cryptovampire/src/parser/parser/parse_step_cell_asserts/step.rs: parse_step", "crates/cryptovampire/src/parser/parser/parse_step_cell_asserts/cells.rs: parse_cell"]}
{"id": "C108", "title": "Functions are applied to as many arguments as they are declared with", "statement": "In every axiom of a generated file - those read from the source, those of the cryptographic assumptions, of the subterm and splitting functions and of the theories - each declared function is applied to as many arguments as it is declared with, whenever this is so for the formulas of the problem and for the functions named by the cryptographic assumptions. So printing never panics on a connective with the wrong number of arguments.", "quantifier": "every problem, set of options, answers of the solver and order of the hash maps for which a file is generated", "why_tests_cant": "the axioms are built by many functions from the protocol; a test sees the axioms of one protocol, and the solver rejects or misreads a file only when such an axiom is used", "anchors": ["crates/cryptovampire/src/problem/generator.rs: generate", "crates/cryptovampire/src/problem/problem/mod.rs: generate", "crates/cryptovampire/src/problem/crypto_assumptions/mod.rs: CryptoAssumption::generate", "crates/cryptovampire/src/smt/smt.rs: from_arichformula, from_axiom"]}
{"id": "C109", "title": "What the prover proves is true", "statement": "When the solver finds every file written for a problem unsatisfiable, the query of the source file is true in every execution of the protocol where the assertions and order axioms of the source file hold and the axioms of the cryptographic assumptions hold; with lemmas switched on, so are the lemmas. Here a query is true when its text, with its macros, lets and quantifiers, has the value true; an execution gives evaluation functions, steps, inputs and the relations between time points their meaning.", "quantifier": "every source file that is accepted, set of options, answers of the solver, order of the hash maps, execution and class of structures closed under changing Skolem functions", "why_tests_cant": "It is the composition of parsing, the preprocessing of the query, all generated axioms and printing. A wrong axiom anywhere makes the prover accept false claims, and a test sees only that a given protocol is proved.", "anchors": ["crates/cryptovampire/src/problem/problem/mod.rs: generate", "crates/cryptovampire/src/problem/problem/pbl_iterator.rs: PblIterator::next", "crates/cryptovampire/src/parser/parser/mod.rs: parse_pbl_from_ast", "crates/cryptovampire/src/problem/generator.rs: generate", "crates/cryptovampire/src/smt/smt.rs: from_arichformula, from_axiom"]}
{"id": "C110", "title": "What the prover proves about a Squirrel file is true", "statement": "When the solver finds every file written for the conversion of a Squirrel file unsatisfiable, the goal of the Squirrel file - its query under its hypotheses, for all values of its variables - is true, on the side of that conversion, in every execution where the actions follow the control flow of Squirrel, the projections give the components of pairs and the axioms of the cryptographic assumptions hold. The truth of the goal is that of the Squirrel terms, not of what they are converted to.", "quantifier": "every Squirrel file that is converted and whose conversion is accepted, side, set of options, answers of the solver, order of the hash maps and execution", "why_tests_cant": "It is the composition of the conversion, parsing, all generated axioms and printing; the order and mutual exclusion lemmas that the conversion adds are assumed by the prover, so a wrong one makes it accept false claims without any visible failure.", "anchors": ["crates/cryptovampire/src/squirrel/mod.rs: run_from_json", "crates/cryptovampire/src/squirrel/converters/top_level_converter.rs: convert_squirrel_dump", "crates/cryptovampire/src/squirrel/converters/convert_order.rs: mk_mutex_lemma, mk_depends_lemma", "crates/cryptovampire/src/problem/problem/mod.rs: generate", "crates/cryptovampire/src/problem/generator.rs: generate", "crates/cryptovampire/src/smt/smt.rs: from_arichformula, from_axiom"]}
{"id": "C111", "title": "Errors point to the place in the source where they occur", "statement": "An error located at a span or a position of the source file is printed with its message and with the line and column of that place in the source file; printing it does not panic.", "quantifier": "every source text, every span and position between characters of it, every error and backtrace", "why_tests_cant": "Tests look at whether an error is returned, hardly ever at how it prints, and the printing depends on the offset of the error in the file: the code works for the first item of a file and fails for all others.", "anchors": ["crates/cryptovampire/src/parser/location.rs: PestLocation::location_fmt, From<pest::Span>, From<pest::Position>", "crates/cryptovampire/src/error/location/pest.rs: SpanLocation::location_fmt, provide", "crates/cryptovampire/src/error/location/empty.rs: location_fmt", "crates/cryptovampire/src/error/location/str.rs: location_fmt"]}
{"id": "C112", "title": "Places in a source are totally ordered, in agreement with equality", "statement": "The order on the locations of syntax trees is antisymmetric, transitive and total, and two locations are equal in it exactly if they are equal.", "quantifier": "all spans and positions of all sources", "why_tests_cant": "The order compares texts and offsets while equality compares addresses; whether the two agree for every pair of places, and transitivity over mixed kinds, cannot be enumerated.", "anchors": ["crates/cryptovampire/src/parser/location.rs: InnerAstLocationHelper::cmp, int"]}
{"id": "C113", "title": "Assertions, queries and lemmas that are no truth values are rejected", "statement": "If a file is accepted, then none of its assertions, its query and, unless lemmas are ignored, its lemmas is a term whose outermost construct yields something other than a truth value, or uses such a term as an operand of a connective, as body of a quantifier or let, as branch of a conditional, or through a macro or the message of a step.", "quantifier": "all declarations, terms, fuel and states of the parser", "why_tests_cant": "A term may hide its sort behind any nesting of connectives, binders, macros and steps; tests only try a few of them.", "anchors": ["crates/cryptovampire/src/parser/parser/parse_step_cell_asserts/asserts.rs: parse_assert_with_bvars, parse_asserts_with_bvars", "crates/cryptovampire/src/parser/parser/parsable_trait.rs: Parsable for ast::Term", "crates/cryptovampire/src/parser/parser/parsing_environement.rs: prbl_from_ast"]}
