{
 "claims": [
  {
   "property": "C01",
   "status": "proved",
   "theorems": [
    "C01_free_vars_exact"
   ],
   "note": ""
  },
  {
   "property": "C02",
   "status": "proved",
   "theorems": [
    "C02_used_vars_exact"
   ],
   "note": ""
  },
  {
   "property": "C03",
   "status": "proved",
   "theorems": [
    "C03_all_terms_depths_exact"
   ],
   "note": ""
  },
  {
   "property": "C04",
   "status": "proved",
   "theorems": [
    "C04_subst_laws"
   ],
   "note": ""
  },
  {
   "property": "C05",
   "status": "proved",
   "theorems": [
    "C05_representations_agree",
    "C05_one_variable",
    "C05_variables"
   ],
   "note": ""
  },
  {
   "property": "C06",
   "status": "proved",
   "theorems": [
    "C06_subst_meaning",
    "C06_subst_meaning_refuted",
    "C06_translate_meaning_refuted"
   ],
   "note": "Proved under the no-capture condition of the statement; the two refuted theorems show the condition is needed and that the code does not check it."
  },
  {
   "property": "C07",
   "status": "partial",
   "theorems": [
    "C07_problem_max_var_fresh",
    "C07_translate_disjoint",
    "C07_max_var_or_max_fresh",
    "C07_formulas_max_var_fresh_partial",
    "C07_formulas_max_var_fresh_refuted"
   ],
   "note": "Problem-wide ids are fresh. Ids computed over formulas through the expanding iterator are fresh only without symbolic quantifiers; refuted with one."
  },
  {
   "property": "C08",
   "status": "proved",
   "theorems": [
    "C08_unifier_sound",
    "C08_equalities_sound"
   ],
   "note": ""
  },
  {
   "property": "C09",
   "status": "partial",
   "theorems": [
    "C09_linear_complete_partial",
    "C09_ground_right_complete_partial",
    "C09_most_general_partial",
    "C09_terminates_refuted",
    "C09_complete_refuted"
   ],
   "note": "Termination and completeness are false of the code (two witnesses); proved for linear terms and for variable-free right-hand terms."
  },
  {
   "property": "C10",
   "status": "partial",
   "theorems": [
    "C10_elaboration_meaning_partial",
    "C10_assertion_meaning_partial",
    "C10_no_shadowing",
    "C10_shadowing_refuted"
   ],
   "note": "Terms without lets, with calls of macros, messages and conditions of steps that capture nothing: what is called has at least as many parameters as there are binders in scope, or binds nothing; unique names. With shadowing the outermost binder is used (refuted)."
  },
  {
   "property": "C100",
   "status": "partial",
   "theorems": [
    "C100_accepted_partial",
    "C100_unique",
    "C100_recursive_refuted",
    "C100_fourth_refuted"
   ],
   "note": "Acceptance is decided for every declaration. Refuted: the option recursive of unfolding has no effect (it is spelled recurisve), a fourth function of INT-CTXT is not looked up."
  },
  {
   "property": "C101",
   "status": "partial",
   "theorems": [
    "C101_scoped_partial",
    "C101_sentences_partial",
    "C101_scoped_refuted",
    "C101_names_refuted",
    "C101_lets_refuted"
   ],
   "note": "No let but those of variables, constants and applications around the condition or the message of a step, and no let in the steps whose messages or conditions are used elsewhere; no bitstrings in declarations; the ite of the logic is not called by name; names, steps and macros are applied to variables, constants and applications (macros, in place of messages, to variables, names, inputs and the like); for encryption as in C96. Refuted without the condition on calls, and with lets elsewhere."
  },
  {
   "property": "C102",
   "status": "partial",
   "theorems": [
    "C102_problem_partial",
    "C102_refuted"
   ],
   "note": "Terms without lets except those around the conditions and messages of steps, with calls of macros, messages and conditions of steps that capture nothing: what is called has at least as many parameters as there are binders in scope, or binds nothing (the parameters of the values are those of C10, C14 and C99); the numbering of hash tables is an arbitrary permutation. Refuted otherwise: a let inside an assertion leaves a free variable in the problem."
  },
  {
   "property": "C103",
   "status": "proved",
   "theorems": [
    "C103_contents"
   ],
   "note": "Every dump that is converted without error. The orders are those of C56 for each pair, the query has the meaning of C80, terms those of C88; which inputs are bound is a defect shown in C81."
  },
  {
   "property": "C104",
   "status": "partial",
   "theorems": [
    "C104_assumptions_partial",
    "C104_checksign_refuted"
   ],
   "note": "The text of the assumptions, exactly. Refuted for signatures: the test of Squirrel takes the message first, CryptoVampire the signature first, and the axiom written for an honest signature is false."
  },
  {
   "property": "C105",
   "status": "partial",
   "theorems": [
    "C105_accepted_partial",
    "C105_symbols",
    "C105_refuted",
    "C105_tables"
   ],
   "note": "Accepted when the symbols have no fixed translation other than pair, fst, snd and fail, the types are listed, no function gives an index, and no cell (global macro) has the name of a function (defined operator); the tables of CryptoVampire are as assumed (C105_tables). C105_symbols holds for every accepted file. Refuted in general: a cell and a function of one name, a function named exec, an unlisted type; a function into an index type makes the reader panic."
  },
  {
   "property": "C106",
   "status": "partial",
   "theorems": [
    "C106_meaning_partial",
    "C106_refuted"
   ],
   "note": "From the dump to the formulas of the problem (composes C103, C88, C102 and C14): query and conditions and outputs of the steps; the updates are in C107. Partial: for files that are read without error and whose macro calls do not capture (gentle_item), that respect arities, and terms that are proper (see proper_step, proper_term, C88). Refuted in general: uses of defined or polymorphic operators make the converted file be rejected."
  },
  {
   "property": "C107",
   "status": "partial",
   "theorems": [
    "C107_updates_partial",
    "C107_refuted"
   ],
   "note": "From the dump to the cells of the problem. Partial: for files that are read without error and whose macro calls do not capture (gentle_item), that respect arities, and updates that are proper (see proper_update, C88). Refuted in general: a universal variable that occurs twice in the arguments, or an input variable of a global macro in the body, make the converted file be rejected."
  },
  {
   "property": "C108",
   "status": "proved",
   "theorems": [
    "C108_arities",
    "C108_printed",
    "C108_fail_needed",
    "C108_source",
    "C108_file"
   ],
   "note": "All axioms of Assumption_Model.whole_file. C108_source and C108_file start from the text of a source file: what is parsed applies functions to the declared numbers of arguments, hence so do the generated axioms, and printing succeeds. Skolem functions and the connectives that take any number of arguments are not counted. C108_fail_needed shows that the condition on the functions of the assumptions is needed."
  },
  {
   "property": "C109",
   "status": "partial",
   "theorems": [
    "C109_problem_partial",
    "C109_source_partial",
    "C109_gt_refuted"
   ],
   "note": "C109_problem_partial: a problem and the file written for it, with any options but the legacy evaluation; C109_source_partial: from the text of a source file, with C41, C97, C101, C102 and C108. The axioms of the cryptographic assumptions are premises (their soundness is computational; C95 and others say what they state). Missing: problems that use gt - false, C109_gt_refuted: the axiom of gt (C25) makes gt(A, A) provable; formulas whose leading evaluation C76 does not cover; legacy evaluation. The axioms of the subterm and splitting functions are part of the premise about cryptographic assumptions."
  },
  {
   "property": "C11",
   "status": "partial",
   "theorems": [
    "C11_too_few_rejected_partial",
    "C11_extra_arguments_refuted"
   ],
   "note": "Too few arguments are rejected; extra arguments are ignored without an error (refuted)."
  },
  {
   "property": "C110",
   "status": "partial",
   "theorems": [
    "C110_squirrel_partial"
   ],
   "note": "Composition of C58, C56, C101, C104, C106 and C109; the lets that the conversion puts around conditions and messages for inputs are covered. Missing: what C101, C106 and C109 leave out. That the actions follow the control flow, and that projections give components of pairs, are premises on the execution, stated on the Squirrel side (follows_flow, projects): the lemmas and assertions that the conversion adds are proved from them."
  },
  {
   "property": "C111",
   "status": "partial",
   "theorems": [
    "C111_line_col",
    "C111_span_partial",
    "C111_span_refuted",
    "C111_all",
    "C111_position_refuted",
    "C111_provide_refuted",
    "C111_nowhere"
   ],
   "note": "The message is always printed for spans of syntax trees, and errors about the whole file or at its start are reported there. Refuted otherwise: only the text of the span is kept, with offsets into the whole file, so no error that starts after the first character is reported at its line; at a position, and at a span of pest used directly, printing panics. Of the reports of pest only the line, the column and the message are modelled."
  },
  {
   "property": "C112",
   "status": "partial",
   "theorems": [
    "C112_order",
    "C112_sources_refuted"
   ],
   "note": "For places of one source. Refuted for two sources: the same text and offsets in two sources compare as equal but are different."
  },
  {
   "property": "C113",
   "status": "partial",
   "theorems": [
    "C113_assertion_partial",
    "C113_file_partial",
    "C113_variable_partial",
    "C113_constant_partial"
   ],
   "note": "By the outermost constructs of terms. Missing: variables and constants below connectives, equalities between terms of different sorts, and the terms of orders."
  },
  {
   "property": "C12",
   "status": "partial",
   "theorems": [
    "C12_chain_meaning_partial",
    "C12_long_chain_refuted"
   ],
   "note": "Any length for &&, ||, ===; two operands for the others; operands as in C10. The remaining operands of longer chains are ignored (refuted)."
  },
  {
   "property": "C13",
   "status": "partial",
   "theorems": [
    "C13_elaboration_terminates_partial",
    "C13_symbolic_iff_refuted",
    "C13_recursive_macro_refuted"
   ],
   "note": "Terminates without circular macros and without symbolic <=>; both cases loop (refuted)."
  },
  {
   "property": "C14",
   "status": "partial",
   "theorems": [
    "C14_macro_meaning_partial",
    "C14_calls_have_a_meaning",
    "C14_capture_refuted",
    "C14_nested_refuted"
   ],
   "note": "Correct, also for macros calling macros, when what is called binds nothing or has at least as many parameters as there are binders in scope; captured otherwise, and wrong when a macro calls another one with fewer parameters (refuted). The meaning of calls exists and is unique when macros and steps are not circular."
  },
  {
   "property": "C15",
   "status": "partial",
   "theorems": [
    "C15_let_meaning_partial",
    "C15_leak_refuted",
    "C15_double_evaluation_refuted"
   ],
   "note": "Chains of lets around and over terms as in C10; nested lets leak their variable and message definitions are evaluated twice (refuted)."
  },
  {
   "property": "C16",
   "status": "partial",
   "theorems": [
    "C16_well_scoped_partial",
    "C16_let_refuted"
   ],
   "note": "Terms without lets, with calls of macros, messages and conditions of steps that capture nothing: what is called has at least as many parameters as there are binders in scope, or binds nothing. A let inside a term leaves a free variable (refuted)."
  },
  {
   "property": "C17",
   "status": "proved",
   "theorems": [
    "C17_axiom",
    "C17_order_meaning_partial",
    "C17_exchange_partial"
   ],
   "note": "C17_axiom is for all declarations and says what the axiom is in terms of the formulas its terms are read as. In terms of the values of the source: terms without lets, with calls of macros, messages and conditions of steps that capture nothing: what is called has at least as many parameters as there are binders in scope, or binds nothing; distinct argument names, no shadowing."
  },
  {
   "property": "C18",
   "status": "proved",
   "theorems": [
    "C18_spellings",
    "C18_others",
    "C18_chain_operator"
   ],
   "note": ""
  },
  {
   "property": "C19",
   "status": "proved",
   "theorems": [
    "C19_write_once",
    "C19_unify_sound",
    "C19_unify_failure",
    "C19_unify_local",
    "C19_expects",
    "C19_errors"
   ],
   "note": ""
  },
  {
   "property": "C20",
   "status": "proved",
   "theorems": [
    "C20_equivalence",
    "C20_classes",
    "C20_evaluated_sort"
   ],
   "note": ""
  },
  {
   "property": "C21",
   "status": "partial",
   "theorems": [
    "C21_checker_partial",
    "C21_accepts_partial",
    "C21_checker_refuted"
   ],
   "note": "Exact for and, or, implication, equality. Negation is always refused and the constants accept arguments (refuted)."
  },
  {
   "property": "C22",
   "status": "partial",
   "theorems": [
    "C22_true_partial",
    "C22_false_refuted"
   ],
   "note": "TRUE is true; the constant FALSE is built from the true symbol and holds everywhere."
  },
  {
   "property": "C23",
   "status": "proved",
   "theorems": [
    "C23_ordering_axioms_sound"
   ],
   "note": ""
  },
  {
   "property": "C24",
   "status": "proved",
   "theorems": [
    "C24_ordering_axioms_adequate",
    "C24_ordering_laws"
   ],
   "note": ""
  },
  {
   "property": "C25",
   "status": "partial",
   "theorems": [
    "C25_gt_is_converse_refuted",
    "C25_gt_axiom_partial"
   ],
   "note": "The generated axiom negates the right-hand side: it is false whenever gt is the converse of lt (refuted); the partial theorem says exactly what it means."
  },
  {
   "property": "C26",
   "status": "proved",
   "theorems": [
    "C26_steps_distinct_exhaustive"
   ],
   "note": ""
  },
  {
   "property": "C27",
   "status": "partial",
   "theorems": [
    "C27_axioms_partial",
    "C27_homomorphism_partial",
    "C27_identity",
    "C27_legacy_refuted",
    "C27_negation_refuted"
   ],
   "note": "All axioms hold in every interpretation, with suitable skolems, unless use_legacy_evaluate is on (refuted: that option states that every user function is constant). Conversely they force evaluation to be a homomorphism except for the negation (refuted) and one direction of the quantifiers."
  },
  {
   "property": "C28",
   "status": "partial",
   "theorems": [
    "C28_cell_axioms_partial",
    "C28_max_var",
    "C28_used_parameters_partial",
    "C28_unhappened_writes_refuted",
    "C28_unused_parameter_refuted"
   ],
   "note": "Exact when the fresh bound is above every variable of the assignment, which it is when steps use their parameters in their message or condition. There is no happens guard, and the bound ignores parameters that are not used (refuted)."
  },
  {
   "property": "C29",
   "status": "partial",
   "theorems": [
    "C29_recursive_exec_partial",
    "C29_recursive_exec_sound_partial",
    "C29_direct_exec_refuted",
    "C29_direct_exec_partial"
   ],
   "note": "The recursive definition is right except for the condition of init; the direct one, which is the default, tests the current condition only (refuted)."
  },
  {
   "property": "C30",
   "status": "partial",
   "theorems": [
    "C30_macro_axioms_partial",
    "C30_apply_partial",
    "C30_apply_refuted",
    "C30_unfold_partial",
    "C30_unfold_refuted"
   ],
   "note": "The generated axioms are exact; apply_message and apply_condition are off by one for parsed steps (refuted). Unfolding a message or condition macro is right when no parameter of the step is in use; otherwise the guard is renamed and the content is not (refuted)."
  },
  {
   "property": "C31",
   "status": "proved",
   "theorems": [
    "C31_implied",
    "C31_equivalent"
   ],
   "note": "The order on sorts is any total order. Each disjunct implies the merged formula always; the converse needs distinct variables of one id to have one sort across disjuncts."
  },
  {
   "property": "C32",
   "status": "partial",
   "theorems": [
    "C32_explores",
    "C32_explores_term",
    "C32_assertion_partial",
    "C32_capture_refuted"
   ],
   "note": "exploration exact; generated assertion true when nothing visited binds its variables, occurrences in cells, exec and step macros not followed by the specification; refuted in general: the search variable can be captured by the variables of a symbolic quantifier"
  },
  {
   "property": "C33",
   "status": "partial",
   "theorems": [
    "C33_general_meaning_partial",
    "C33_general_refuted",
    "C33_forces",
    "C33_base",
    "C33_uf_candidates",
    "C33_euf_candidates",
    "C33_instance_partial",
    "C33_instance_evaluated_partial",
    "C33_premise",
    "C33_searched",
    "C33_key_partial"
   ],
   "note": "Refuted: message and signature are swapped in the general axioms of UF-CMA and EUF-CMA. Proved: what these axioms say, the base axiom, exactness of the candidates, and the meaning of the instances (both realms; no clashing bound variables; completeness of the key search within C09)."
  },
  {
   "property": "C34",
   "status": "partial",
   "theorems": [
    "C34_visits_partial",
    "C34_other_side_refuted"
   ],
   "note": "Every position is visited unless an equality has a mac on one side only; refuted then."
  },
  {
   "property": "C35",
   "status": "partial",
   "theorems": [
    "C35_top_level_partial",
    "C35_reuse_refuted",
    "C35_decryptions",
    "C35_instance_partial",
    "C35_condition_partial"
   ],
   "note": "Exactly the encryptions at top level are candidates; refuted for nested ones, and two messages under one randomness give no condition."
  },
  {
   "property": "C36",
   "status": "partial",
   "theorems": [
    "C36_ancestors_exact_partial",
    "C36_closed_partial",
    "C36_through_input_refuted",
    "C36_hidden_refuted"
   ],
   "note": "The answer lists exactly the cells reachable through assignments, with the input flag set exactly when the starting term mentions an input directly. Refuted in full: dependencies that go through an input are not followed from a cell, and cells hidden in arguments of cells or in the contents of symbolic quantifiers are not seen."
  },
  {
   "property": "C37",
   "status": "partial",
   "theorems": [
    "C37_renames_apart_partial",
    "C37_quantifier_partial",
    "C37_quantified_refuted"
   ],
   "note": "Unfolding never panics, adds distinct variables apart from those recorded in the state, and keeps the meaning. Variables of quantifiers of the evaluated logic are not recorded and do clash (refuted)."
  },
  {
   "property": "C38",
   "status": "proved",
   "theorems": [
    "C38_translation",
    "C38_arity_refuted"
   ],
   "note": "For formulas whose connectives have their number of arguments, as all parsed and generated ones do; C38_arity_refuted shows the hypothesis is needed."
  },
  {
   "property": "C39",
   "status": "partial",
   "theorems": [
    "C39_read_back",
    "C39_injective",
    "C39_meaning",
    "C39_capture_refuted",
    "C39_keyword_refuted"
   ],
   "note": "At the level of characters, for closed formulas whose function names are SMT symbols, not reserved and not shaped like variables, with one sort per variable id; refuted for names that the parser accepts: MX1 is captured, distinct and let are reserved in SMT-LIB, and a prime is not a symbol character. Commands other than formulas are not printed in the model."
  },
  {
   "property": "C40",
   "status": "partial",
   "theorems": [
    "C40_unsat_iff",
    "C40_lemmas",
    "C40_query_once",
    "C40_ground_partial",
    "C40_lemmas_refuted"
   ],
   "note": "In terms of the preprocessed assertions and query (C76). With assert-ground (not part of the claim) only that a file without a model proves the query. With lemmas each file assumes the earlier ones (C40_lemmas). Refuted when lemmas are not asked for: they are in no file."
  },
  {
   "property": "C41",
   "status": "proved",
   "theorems": [
    "C41_problems",
    "C41_one",
    "C41_sound",
    "C41_run"
   ],
   "note": ""
  },
  {
   "property": "C42",
   "status": "proved",
   "theorems": [
    "C42_declared_once",
    "C42_order",
    "C42_total"
   ],
   "note": ""
  },
  {
   "property": "C43",
   "status": "proved",
   "theorems": [
    "C43_steps",
    "C43_without_init"
   ],
   "note": ""
  },
  {
   "property": "C44",
   "status": "proved",
   "theorems": [
    "C44_success"
   ],
   "note": "For every execution of every round with any number of solvers. For Vampire the answer unsat is exit code 0 (C48)."
  },
  {
   "property": "C45",
   "status": "proved",
   "theorems": [
    "C45_rounds",
    "C45_complete",
    "C45_no_limit",
    "C45_no_limit_complete"
   ],
   "note": "For every sequence of round outcomes and every search for instances; no limit is 2^32 - 1 rounds."
  },
  {
   "property": "C46",
   "status": "partial",
   "theorems": [
    "C46_unsat_partial",
    "C46_order_partial",
    "C46_outputs",
    "C46_unsat_refuted"
   ],
   "note": "The verdict is independent of the interleaving if the conclusive answers (sat, unsat, error) agree, and the outputs that are searched after a timeout are those of the Vampires that ran out of time. Refuted with one solver answering unsat and one failing: the first to answer decides."
  },
  {
   "property": "C47",
   "status": "proved",
   "theorems": [
    "C47_no_process",
    "C47_ends",
    "C47_channels"
   ],
   "note": "Invariant over all interleavings of the threads; every execution ends. The exception is a process that the operating system refuses to kill."
  },
  {
   "property": "C48",
   "status": "partial",
   "theorems": [
    "C48_z3",
    "C48_vampire_partial",
    "C48_vampire_refuted"
   ],
   "note": "Exact for Z3, for all outputs. The output of Vampire is not looked at: exit code 0 is unsat, whatever it says."
  },
  {
   "property": "C49",
   "status": "partial",
   "theorems": [
    "C49_literal",
    "C49_distinct_partial",
    "C49_no_binder",
    "C49_distinct_refuted"
   ],
   "note": "Distinct unknowns of one literal, read with its own table, get distinct variables; so do sequences sharing a table as long as every unknown keeps one sort. Refuted when an unknown is met at two sorts by literals sharing a table."
  },
  {
   "property": "C50",
   "status": "partial",
   "theorems": [
    "C50_no_more_partial",
    "C50_exact_partial",
    "C50_refuted"
   ],
   "note": "Too many arguments are always refused. Refuted: missing arguments are accepted."
  },
  {
   "property": "C51",
   "status": "partial",
   "theorems": [
    "C51_unquote_partial",
    "C51_unquoted",
    "C51_unquote_refuted"
   ],
   "note": "Exact for ASCII text and for unquoted text. Refuted: the length in bytes is used as a number of characters, so that a quoted name with any other character keeps its closing quote."
  },
  {
   "property": "C52",
   "status": "partial",
   "theorems": [
    "C52_distinct_partial",
    "C52_existing_partial",
    "C52_name_set",
    "C52_refuted"
   ],
   "note": "Up to 65536 names are distinct, and distinct from names not starting with _. Refuted beyond: the counter wraps around; existing names are not looked at; is_name_available is inverted (and unused)."
  },
  {
   "property": "C53",
   "status": "proved",
   "theorems": [
    "C53_history",
    "C53_values_stay",
    "C53_cyclic",
    "C53_cyclic_pair",
    "C53_cyclic_many"
   ],
   "note": "For every program using the container. The memory itself (allocation, lifetimes, locks) is not modelled."
  },
  {
   "property": "C54",
   "status": "partial",
   "theorems": [
    "C54_projection_partial",
    "C54_projection_refuted"
   ],
   "note": "Projection i of a tuple of n elements is proved to be element n+1-i in every alternative, whatever the meaning of pairs; so the claim holds exactly for the middle component, and is refuted for the first component of a pair."
  },
  {
   "property": "C55",
   "status": "partial",
   "theorems": [
    "C55_injective_partial",
    "C55_reserved",
    "C55_remapped_refuted"
   ],
   "note": "Proved for every symbol without a fixed translation (and reserved names for all). Refuted for those with one: the table is consulted for every kind of symbol."
  },
  {
   "property": "C56",
   "status": "partial",
   "theorems": [
    "C56_depends",
    "C56_strict_order",
    "C56_lt",
    "C56_mutex_partial",
    "C56_none",
    "C56_total",
    "C56_pairs",
    "C56_index_choice_refuted",
    "C56_named_apart_refuted"
   ],
   "note": "The dependency order and both kinds of lemmas are proved sound, and complete for control flows with shared index names and for branches with different numbers; refuted for branches that differ by their index and for indices named apart."
  },
  {
   "property": "C57",
   "status": "partial",
   "theorems": [
    "C57_fresh_partial",
    "C57_lemma_partial",
    "C57_dummy_refuted"
   ],
   "note": "Proved, with termination, for all names but $dummy, for which the renaming panics. Distinct after sanitising for names without a fixed translation (C55)."
  },
  {
   "property": "C58",
   "status": "partial",
   "theorems": [
    "C58_location_partial",
    "C58_distinct",
    "C58_location_refuted"
   ],
   "note": "The location accumulates: problem i is written to out/0/1/.../i. The locations are distinct, but only the first is the one claimed."
  },
  {
   "property": "C59",
   "status": "proved",
   "theorems": [
    "C59_transpose_pointwise",
    "C59_transpose_sizes",
    "C59_bind_pointwise",
    "C59_options",
    "C59_single_alternative_refuted"
   ],
   "note": "Values known for a single alternative are outside the statement; combining any of them panics (last theorem)."
  },
  {
   "property": "C60",
   "status": "partial",
   "theorems": [
    "C60_iter_get",
    "C60_clone_iter_get",
    "C60_len_partial",
    "C60_clone_len_partial",
    "C60_len_refuted"
   ],
   "note": "len of the single-element representation is 0: refuted; proved for all other representations."
  },
  {
   "property": "C61",
   "status": "proved",
   "theorems": [
    "C61_arc_iter_deque"
   ],
   "note": ""
  },
  {
   "property": "C62",
   "status": "partial",
   "theorems": [
    "C62_lexicographic_partial",
    "C62_incomparable_absorbs",
    "C62_lexicographic_refuted",
    "C62_infinity_total_order",
    "C62_sort2"
   ],
   "note": "The field-combining helper is lexicographic only when every field is comparable; otherwise it answers None."
  },
  {
   "property": "C63",
   "status": "proved",
   "theorems": [
    "C63_bag_iter",
    "C63_bag_iter_fused"
   ],
   "note": ""
  },
  {
   "property": "C64",
   "status": "partial",
   "theorems": [
    "C64_general_partial",
    "C64_bubble",
    "C64_derivable_partial",
    "C64_refuted"
   ],
   "note": "All rules except simpl-tuple-2 and ite-eq-1. Refuted for these: p2 of a tuple is rewritten to the first component, and ite(a=b,a,b) to a although ite-eq-2 rewrites it to b; together the rules identify all terms. egg itself is represented by derivability."
  },
  {
   "property": "C65",
   "status": "proved",
   "theorems": [
    "C65_cca",
    "C65_nonce",
    "C65_key"
   ],
   "note": "For rebuilt e-graphs (nodes in one class, children in range, every class inhabited); also shows that the checks end and do not panic."
  },
  {
   "property": "C66",
   "status": "partial",
   "theorems": [
    "C66_vars_iter_exact_partial",
    "C66_vars_iter_terminates_refuted"
   ],
   "note": "False of the code with a symbolic quantifier; proved for formulas without one."
  },
  {
   "property": "C67",
   "status": "partial",
   "theorems": [
    "C67_right_identity",
    "C67_left_identity_partial",
    "C67_left_identity_refuted",
    "C67_associative"
   ],
   "note": "Left identity fails (panics) when the continuation selects one alternative."
  },
  {
   "property": "C68",
   "status": "partial",
   "theorems": [
    "C68_collect_exact",
    "C68_collect_fallible_partial",
    "C68_fallible_partial",
    "C68_collect_fallible_refuted"
   ],
   "note": "Plain items: proved. Fallible items: C68_fallible_partial says what the answer is in all cases; the error position changes the verdict, so the full claim is refuted."
  },
  {
   "property": "C69",
   "status": "partial",
   "theorems": [
    "C69_fixed_partial",
    "C69_and_or_refuted",
    "C69_ite_refuted",
    "C69_eq_refuted"
   ],
   "note": "Exact for fixed signatures. and/or/ite are always refused, equality accepts different sorts."
  },
  {
   "property": "C70",
   "status": "partial",
   "theorems": [
    "C70_get_sort_partial",
    "C70_get_sort_ite_refuted"
   ],
   "note": "Every well-sorted formula gets its sort unless its head is if-then-else, which never does."
  },
  {
   "property": "C71",
   "status": "partial",
   "theorems": [
    "C71_step_meaning_partial",
    "C71_capture_refuted"
   ],
   "note": "Same restriction on what is called as C14. C71_capture_refuted: under three binders the argument of a step with one parameter is captured by a quantifier of its condition."
  },
  {
   "property": "C72",
   "status": "partial",
   "theorems": [
    "C72_exec_partial",
    "C72_exec_refuted"
   ],
   "note": "Only conditions of strictly earlier steps, and only when some condition reads an input; refuted in full."
  },
  {
   "property": "C73",
   "status": "proved",
   "theorems": [
    "C73_input_covered",
    "C73_cell_covered"
   ],
   "note": "The free variables of the time point are assumed to be recorded in the search state (see C37); dependencies of cells through inputs are C36."
  },
  {
   "property": "C74",
   "status": "proved",
   "theorems": [
    "C74_uf_key",
    "C74_euf_key",
    "C74_ctxt_key",
    "C74_ctxt_rand"
   ],
   "note": ""
  },
  {
   "property": "C75",
   "status": "partial",
   "theorems": [
    "C75_base_partial",
    "C75_sorts_refuted"
   ],
   "note": "The base axiom says so; refuted for the sorts of the general axiom, which decrypts with a name that is not cast to a message."
  },
  {
   "property": "C76",
   "status": "partial",
   "theorems": [
    "C76_meaning_partial",
    "C76_elsewhere",
    "C76_quantifier_panics",
    "C76_variable_refuted",
    "C76_quantifier_refuted"
   ],
   "note": "Proved, with termination, for evaluated terms without symbolic forall/exists and without variables of an evaluated sort above the first opaque function; both remaining cases are refuted."
  },
  {
   "property": "C77",
   "status": "partial",
   "theorems": [
    "C77_smt_symbol_partial",
    "C77_smt_symbol_refuted",
    "C77_wide_partial"
   ],
   "note": "Exact condition for ASCII symbols; refuted as # is a digit of the encoding. Symbols with wide characters that are not letters or digits are encoded; those with wide letters are kept."
  },
  {
   "property": "C78",
   "status": "partial",
   "theorems": [
    "C78_alternatives_partial",
    "C78_complete_partial",
    "C78_sizes_panic",
    "C78_tuple_refuted",
    "C78_complete_refuted"
   ],
   "note": "Proved for all terms except where a function of a single tuple argument is applied to a diff; completeness for terms without nested diff. Both exceptions are refuted, and diffs with different numbers of alternatives panic."
  },
  {
   "property": "C79",
   "status": "partial",
   "theorems": [
    "C79_operator_partial",
    "C79_name_partial",
    "C79_variable_refuted",
    "C79_last_refuted"
   ],
   "note": "Proved when the last argument type is no tuple or the only argument is a literal tuple of the right size; refuted for other arguments and for a tuple after other arguments."
  },
  {
   "property": "C80",
   "status": "proved",
   "theorems": [
    "C80_query"
   ],
   "note": "For every interpretation of true, and, implies and forall, in every alternative. The side condition excludes that the declared && or => takes one argument of a tuple type."
  },
  {
   "property": "C81",
   "status": "partial",
   "theorems": [
    "C81_inputs_partial",
    "C81_inputs_refuted"
   ],
   "note": "What each variable is bound to is proved exactly; it is not what is claimed, as the dummies are left out before counting and positions are counted from 0."
  },
  {
   "property": "C82",
   "status": "proved",
   "theorems": [
    "C82_lookup",
    "C82_panics"
   ],
   "note": ""
  },
  {
   "property": "C83",
   "status": "partial",
   "theorems": [
    "C83_literal_partial",
    "C83_refuted"
   ],
   "note": "For literals with ASCII names. Refuted for other quoted names, which keep a quote (C51)."
  },
  {
   "property": "C84",
   "status": "partial",
   "theorems": [
    "C84_exact_partial",
    "C84_refuted"
   ],
   "note": "Exact on graphs without cycles. Refuted on cyclic ones: a class examined below itself is remembered as containing the nonce."
  },
  {
   "property": "C85",
   "status": "partial",
   "theorems": [
    "C85_instance_partial",
    "C85_refuted"
   ],
   "note": "Shape of the merge and conditions on the message and the other branches, up to the ciphertext itself. Refuted: the ciphertext may remain in the other branches, also below an unguarded decryption."
  },
  {
   "property": "C86",
   "status": "partial",
   "theorems": [
    "C86_instance_partial",
    "C86_refuted"
   ],
   "note": "As C85. Refuted: the new key may be the randomness, and the ciphertext may remain in the other branches."
  },
  {
   "property": "C87",
   "status": "proved",
   "theorems": [
    "C87_cca",
    "C87_kp"
   ],
   "note": "The matches themselves are those of egg."
  },
  {
   "property": "C88",
   "status": "partial",
   "theorems": [
    "C88_meaning_partial",
    "C88_refuted"
   ],
   "note": "Every kind of term that is converted; variables and constants are kept apart as in the AST. Functions taking a tuple must be applied to a literal tuple (refuted otherwise: the conversion makes a function of several arguments into one of one argument), sanitized variable names must stay distinct (C54) and diffs must not stand for the tuple of a function (C78)."
  },
  {
   "property": "C89",
   "status": "partial",
   "theorems": [
    "C89_which",
    "C89_uf",
    "C89_euf",
    "C89_ctxt",
    "C89_true_partial",
    "C89_occurrence_refuted"
   ],
   "note": "The axioms are characterised exactly, except that the assertions of functions that hide something are those of C32. True when being below means being inside, seen through the functions that are not ignored. Refuted for real occurrence: for the axioms nothing is below a mac (signature, ciphertext), not even a key inside of its message."
  },
  {
   "property": "C90",
   "status": "partial",
   "theorems": [
    "C90_meaning",
    "C90_derives_partial",
    "C90_vampire_refuted"
   ],
   "note": "Regular relations. Refuted for the relations built into Vampire, read as plain axioms: the step through the functions is then left to the solver (the first-order reading of the file has a model where a constant is worth a name). Leaves that are inputs, cells or macros are left to C32."
  },
  {
   "property": "C91",
   "status": "partial",
   "theorems": [
    "C91_uf_partial",
    "C91_euf_partial",
    "C91_true_partial",
    "C91_capture_refuted"
   ],
   "note": "For protocols that do not bind the variable of the axiom; refuted otherwise: the variable of the axiom can be captured by the variables of a symbolic quantifier, and the axiom is false although every name that may be split occurs. Occurrences inside quantifiers are described by the visits of the search."
  },
  {
   "property": "C92",
   "status": "partial",
   "theorems": [
    "C92_symbolic_partial",
    "C92_partial",
    "C92_theories",
    "C92_once",
    "C92_whole_symbolic_partial",
    "C92_whole_partial",
    "C92_whole_once",
    "C92_commuting",
    "C92_evaluated_refuted",
    "C92_no_bitstring_refuted"
   ],
   "note": "The whole file, cryptographic axioms and subterm relations included, for the flags that the command line sets. Holds in the symbolic realm with evaluated functions; otherwise only the evaluated functions of user functions in assertions and the query may lack a declaration, and they do (refuted) in the default realm and with --no-bitstring."
  },
  {
   "property": "C93",
   "status": "partial",
   "theorems": [
    "C93_partial",
    "C93_once",
    "C93_whole_partial",
    "C93_whole_once",
    "C93_names_refuted"
   ],
   "note": "The whole file, for problems with a name and steps. Refuted without names: the sort of names is a datatype without constructor and is not declared."
  },
  {
   "property": "C94",
   "status": "partial",
   "theorems": [
    "C94_options_partial",
    "C94_standard_partial",
    "C94_z3_partial",
    "C94_vampire",
    "C94_standard_refuted",
    "C94_z3_refuted",
    "C94_skolemnise_refuted",
    "C94_shadowing_refuted",
    "C94_rewrite_refuted",
    "C94_default_refuted"
   ],
   "note": "All options but those named: --skolemnise is never read, --disallow-shadowing only counts with to-file, the two rewrite options are one, --cvc5 and Z3 still get rewrite rules (Z3 also the subterm relations of Vampire), and auto written down turns lemmas off."
  },
  {
   "property": "C95",
   "status": "partial",
   "theorems": [
    "C95_total",
    "C95_one",
    "C95_directory",
    "C95_solvers_partial",
    "C95_cvc5_refuted"
   ],
   "note": "Vampire and Z3; cvc5 is never called even if it is the only solver found (refuted)."
  },
  {
   "property": "C96",
   "status": "partial",
   "theorems": [
    "C96_sentences_partial",
    "C96_sentences_refuted"
   ],
   "note": "Every problem whose encryptions (as whole messages, conditions or contents of cells, with INT-CTXT) have the variables of their key in their randomness or message. Refuted without: of two encryptions with unifiable randomness and message, the variables of the second key are left free."
  },
  {
   "property": "C97",
   "status": "proved",
   "theorems": [
    "C97_accepted",
    "C97_declared",
    "C97_order"
   ],
   "note": "The abstract syntax of a file is given; the grammar is not modelled."
  },
  {
   "property": "C98",
   "status": "partial",
   "theorems": [
    "C98_rejected_partial",
    "C98_panic_refuted",
    "C98_cell_type_refuted"
   ],
   "note": "Rejected with an error unless a function has an index type (or bitstring) as result: declaring it panics (refuted). The result type of a cell is never looked up (refuted)."
  },
  {
   "property": "C99",
   "status": "partial",
   "theorems": [
    "C99_step_partial",
    "C99_cell_arguments_refuted",
    "C99_parameters_refuted"
   ],
   "note": "Terms without lets except those around the conditions and messages of steps, with calls of macros, messages and conditions of steps that capture nothing: what is called has at least as many parameters as there are binders in scope, or binds nothing. Arguments of cells are not counted (refuted) and two parameters may have the same name (refuted)."
  }
 ]
}