# Formal model of CryptoVampire in Rocq

## Trusted base

* Coq 8.16.1's kernel (and `coqc`, `vm_compute` inside it).
* The reading of /repo recorded in the comments of the `*_Model.v` files. Nothing is extracted from the Rust code;
  every model definition cites the file and the lines it follows.
* `Print Assumptions` is run under every property theorem. Unless a line below says otherwise, it prints
  `Closed under the global context`.
* Behaviour of code outside /repo (hash map iteration order, solver processes, threads, egg's e-graph) enters as a
  universally quantified parameter of the theorem, never as an axiom.

## Conventions

* `X_Model.v` holds the functions, written after the Rust code, function by function. No proofs there.
* `X_Spec.v` (or the head of `X_Proofs.v`) holds the independent specification.
* `X_Proofs.v` holds lemmas.
* `X_Props.v` holds only the property theorems, each closed by `exact`, with an `Example` meeting its hypotheses
  and `Print Assumptions`.
* Panics, `unwrap` on `None` and infinite recursion become explicit error values.
* When the code violates a property, the theorem `..._refuted` exhibits a witness and `..._partial` gives the strongest
  condition under which it holds. These are the findings of this work.

## Semantics used by the formula properties

A structure has one carrier with a predicate per sort, boolean injection/test, an interpretation of every function symbol,
a decision procedure for equality and one for each bounded quantifier (specified by reflection, so that formulas evaluate
to a value and no classical axiom is needed). Quantified variables range over the elements of their sort.

The value of a surface term (`Parser_Spec.value`) is given in a structure together with a meaning `qsem` of the symbolic quantifiers
and a meaning `mval` of the calls of macros, messages and conditions of steps. `mval` is constrained by `unfolds`: a call has the value
of what it calls, with the parameters standing for the arguments. When macros and steps are not circular (`layered`) there is exactly one
such meaning (`C14_calls_have_a_meaning`); theorems quantify over all of them. The terms covered are `gentle`: no let, and whatever
is called has at least as many parameters as there are binders in scope, or binds nothing; outside of this the code captures variables
(`C14_capture_refuted`, `C14_nested_refuted`).

## Plan per property

| id | model | proof |
|----|-------|-------|
| C01-C03 | `formula` tree, the explicit stack loop of `OwnedPile::next` with fuel, each iterator's step function | loop invariant: remaining output = concatenation over the stack; spec is an inductive occurrence relation |
| C04, C05 | `Substitution::apply`, `Chain`, `Translate`, the association-list forms | structural induction |
| C06 | same, with the semantics above | induction with environment update; capture witness |
| C07 | `max_var`, `max_var_or_max`, `translate` | induction over used variables |
| C08, C09 | `mgu`/`aux` with fuel, including the argument order of line 164 | soundness by induction on fuel; divergence by showing every fuel is exhausted; a missed unifier as witness |
| C10-C16, C71 | surface terms, `bvars` stack, `parse` for each term former | induction over surface terms; witnesses for each violated clause |
| C17 | `parse_orders` | semantic equality of the generated formulas |
| C18 | table of spellings | finite table, lifted to all strings |
| C19 | heap of sort cells, `set/expects/matches/unify` | invariant over operation histories |
| C20-C22 | sorts, `eq_realm`, `Sorted for Connective`, builtin constants | case analysis, induction over argument lists |
| C23-C26 | generated axioms as formulas; traces as lists of step instances | evaluation of the axioms in the trace structure; models of the axioms for adequacy |
| C27 | evaluation axioms as formulas | evaluation in a computational structure |
| C76 | `preprocess_before_eval`, `preprocess_after_eval` with fuel | induction on fuel and formulas; countermodels |
| C28-C30 | cell, exec, message and condition axioms; `apply_message` | induction over traces; witnesses |
| C31 | `into_exist_formula` | semantics with non-empty sorts |
| C32, C34, C35 | subterm search auxiliaries | induction over terms, occurrence relation as spec |
| C33, C74, C75 | base and general axioms, candidates, instances, auxiliaries of UF-CMA, EUF-CMA, INT-CTXT | semantic statement; induction over terms; countermodel |
| C36 | dependency graph construction and `ancestors` | closure property; witness for missing input edges |
| C37, C72, C73, C30 | collision-avoiding substitution and `FormulaUnfolder::unfold` | disjointness, meaning of the renamed terms and guards for all interpretations; witnesses |
| C38-C40 | SMT AST, printer to characters, commands of a file | semantic preservation; independent lexer, s-expression parser and reader with scopes, round trip by induction; model-theoretic statement |
| C41-C43 | `PblIterator`, declaration partition, `Protocol::new` | induction over lists |
| C44-C48 | output classification over code points; the threads of a round, their channels and processes as a transition system; the loop over rounds | invariant over all interleavings, decreasing measure, progress; induction over rounds |
| C49-C53, C82, C83 | conversion of solver terms with a variable table, `trim_quotes`, name counter, container cells, function table | invariants over histories; witnesses |
| C78-C81, C54 | conversion of Squirrel terms into alternatives, declarations, query, inputs | induction over terms (nested), projection to one system; abstract meanings of pairs and connectives; witnesses |
| C88 | meaning of converted Squirrel terms | compositional values of source and target terms over any domain, `find` and quantifiers being any functionals; agreement of the symbols up to sanitized names; induction over terms; every target reading induces a source reading that agrees |
| C55-C59, C77 | tuple encoding, sanitising (base64), prefix order, index renaming, output path, alternatives | induction; executions of actions with index values; decoding of base64; witnesses |
| C60-C63 | reference vectors, double-ended iterator, comparisons, bags | refinement to lists |
| C69, C70 | `Signature::unify` with fuel, `Function::sort`, `get_sort` | induction over argument lists; witnesses |
| C67, C68 | `abind`, `collect_exact` | pointwise reasoning; witnesses |
| C66 | `Expander::destruct`, `vars_iter` with fuel | loop invariant; divergence witness |
| C89-C91 | `Define_Model`: `generate_functions_assertions`, `not_of_sort`, special assertions, `define_subterms`, nonce axioms, split axiom | truth of each axiom in a structure equivalent to a first-order reading of the relation (`passes`, `stops`, `nothing_below`); induction over terms; merging of disjuncts |
| C92, C93 | `File_Model`: declarations and axioms of `into_general_file` put together, printed by realm; `Assumption_Model`: the `generate` of each cryptographic assumption and the whole file with them | invariants of each generator (symbols used are listed, listed symbols are declared); counting; witnesses |
| C94, C95 | `Cli_Model`: options, flags as bits, questions to the environment, the writers' flags, files and solvers of a run | bitwise reasoning; prefix invariant of the iteration; witnesses |
| C96 | `Assumption_Model`, `File_Model`; `Sentence_Spec`: sentences, problems that only use what they bind | one lemma per generator that bounds free variables; states of the expander (C76) and unifiers for the searches; witness for INT-CTXT |
| C97, C98 | `Source_Model`: the passes over the declarations of a file; `Source_Spec`: well-declared files, what a table declares | the passes as folds, the final table computed exactly (`declared_full`); witnesses |
| C99 | `parse_step_decl`, assignments; `Source_Spec`: values of parameters, of `in` and of fresh variables | terms through `parse_good` (C10), lets around conditions and messages through C15, induction over assignments; witnesses |
| C100 | `parse_assert_crypto`, `verify_sign`; `Source_Spec`: `asks` | sort heap of fixed signatures, case analysis over assumptions; witnesses |
| C101 | `parse_parts`, `parse`, `whole_file`; `Source_Closed_Spec`: `tame_file`, `assembled`, `table_of` | induction over terms with an invariant on the variables in scope, the table of quantifiers and the realm (`parse_strict`), and over the lets around the bodies of steps (`lets_strict`), then C96; witnesses |
| C102 | `parse_parts`; `Source_Problem_Spec`: `problem_read`, `cell_read`, `step_of`, `writes` | induction over the table of functions with relations kept as quantifiers are added, permutations; C10, C14, C99, C100 for the contents |
| C103 | `convert_dump`; `Dump_Spec`: `listing`, `section`, the items | hash maps as last entries, relation of each section to its entries; alternatives of sequenced results |
| C104 | `assert_crypto`; `Dump_Spec`: `assumed` | from C103; structure with exact signatures in which the axiom is false |
| C105 | `Dump_Source_Model`: `to_item`; `Dump_Source_Spec`: `declarable`, `coded`, `sort_read` | from C103 the names are those of the entries, then C97 |
| C106 | `Dump_Meaning_Spec`: `reading`, `constant`, `environment`, `proper_step`, `step_means` | C103 gives the items, C102 the formulas of the problem, C88 the values of converted terms; `Dump_Meaning_Proofs.read_value` relates `Meaning_Spec` and `Parser_Spec`, `Dump_Step_Proofs` the input variables |
| C107 | `Dump_Update_Spec`: `universal`, `update_environment`, `proper_update`, `update_means`, `is_update`, `updates_of` | as C106; `writes_section` relates the updates of the actions to the assignments of the file, `update_value` the scopes of C99 (`ar_names`: fresh variables are distinct) to environments of the Squirrel file |
| C108 | `Arity_Spec`: `takes`, `counts`, `counts_whole`; `Arity_Source_Spec`: `signatures` (what the declarations of a file say about the functions) | for source files: the parser checks the number of arguments of each application (`Arity_Source_Proofs.file_counts`, a Hoare logic over the parser monad); for the axioms: each generator preserves `counts` (`Arity_Proofs.whole_counts`): substitution, unfolding and the ancestors of cells keep the numbers of arguments; printing then succeeds by C40 |
| C109 | `Sound_Spec`: `execution`, `variation`, `unsatisfiable`; `Sound_Source_Spec`: `model_of`, `read_from`, `proved` | an execution is changed only at `gt` and the Skolem functions so that all generated axioms hold (`Sound_Proofs.problem_sound`, with C20-C29, C74, C76, C90, C92), then C41 over the problems and C102 for the text (`Sound_Source_Proofs.source_sound`) |
| C110 | `Sound_Dump_Spec`: `follows_flow`, `projects`, `goal` | the items of a conversion are those of the Squirrel file plus order lemmas (true by `follows_flow`, with C56) and the axiom of projections; the query has the value of the goal (C106), then C109 (`Sound_Dump_Proofs.dump_sound`) |
| C111 | `Location_Spec`: `between`, `place`, `reported_at`, `tells` | what is kept of a place (`Location_Proofs.kept_span`, `kept_position`) and the invariant of counting lines and columns (`line_col_spec`) |
| C112 | equality of places | the order is the lexicographic order of a key that determines the place (`Location_Proofs.cmp_key`, `key_inj`) |
| C113 | the inductive predicate `Truth_Spec.not_truth` on terms | induction over `not_truth`; the sort expected of every operand reaches its parser |
| C64, C65, C84-C87 | rewrite rules over terms, memoised search over an e-graph, upward search of the IND-CCA2 and ENC-KP rules | semantics of rules; invariants of the memo table and of the pending classes; witnesses |

## Not modelled

The PEG grammar and text parsing (pest; its spans, positions and the line and column of its reports are modelled for C111), the parsing of the command line (clap), logging, JSON deserialisation, file and process I/O beyond the
classification of results, memory safety of the arena allocator, and macros that only generate boilerplate.

## Findings

Each of these is a theorem with suffix `_refuted` about the model.

* C06: substitution does not avoid capture, and `translate_vars` renames variable leaves but not binders.
* C07, C66: `Expander::destruct` (formula/formula/expanding_formula.rs 83-95) pairs the free variables of a symbolic quantifier with
  its contents instead of with the arguments, and iterates over the arguments. Iterating over the variables of the quantifier built for
  `exists y. p(x,y)` never ends; with a find-such-that, a variable is skipped and `max_var_or_max` is not fresh.
* C09: unifier.rs line 164 calls itself with the same arguments, so the search never ends when a right-hand variable is met twice;
  `f(x,x)` against `f(y,g(z))` is unifiable but answered no.
* C59, C67: a value known for one alternative only makes every combination panic.
* C60: `VecRef::len` is 0 for a single element (vecref.rs 39), so `is_empty` is true although one element is yielded.
* C62: the `partial_order!` macro answers None as soon as any later field is incomparable.
* C68: collecting fallible items reports "too many" when an error is followed by another item, and ignores a trailing error.
* C21: the sort checker of connectives refuses every negation and lets `true`/`false` take arguments (booleans.rs 64, 72).
* C22: the constant `FALSE` is built with the symbol of `true` (builtin.rs 73).
* C69: `Function::sort` refuses every and/or (the signature's argument iterator is infinite) and every if-then-else (both result
  placeholders unknown), and accepts an equality between different sorts (its two placeholders are not linked).
* C70: consequently `get_sort` never succeeds on an if-then-else.
* C10: an identifier resolves to the outermost binder of that name (`find` from the bottom of `bvars`), so with shadowing allowed
  `forall x, exists x, x` is read as `forall x, exists y, x`.
* C11: `parse_application` zips the signature with the arguments, so extra arguments are dropped without being read.
* C12: for the same reason `a => b => c`, `a == b == c` and `a <=> b <=> c` are read as `a => b`, `a == b`, `a <=> b`.
* C13: `<=>` in the symbolic realm rewrites to itself forever; macros may call themselves, which also never ends.
* C71: the same for steps: under three binders, the argument of `condition(s(z))` is captured by the first quantifier of the
  condition of a step with one parameter (`C71_capture_refuted`).
* C14: macro bodies are elaborated with ids from 0 and the arguments are substituted without renaming: under two binders, an
  argument can be captured by a quantifier of the body.
  When a macro calls another one, the arguments of the outer call also replace the variables bound in the body of the inner
  one, even in an assertion without other binders (`C14_nested_refuted`).
* C15, C16: the variable of a let is pushed and never popped, so it is visible after the let and produces formulas with free
  variables; `let x = x in x` is accepted; a message-sorted let used in the evaluated realm is evaluated twice.
* C25: the axiom for `>` (order.rs 65-66) reads `gt(a,b) <=> !lt(b,a)`, so it is false as soon as gt is the converse of lt.
* C28: cell axioms have no `happens` guard, so two assignments of steps that do not happen (and may denote the same point) must
  agree; `max_var` of a protocol ignores the parameters of steps that are not used, so the quantified time variable can be captured.
* C29: the direct definition of `exec`, which is the default, puts `cond(s)` under the quantifier over earlier points `s2` instead of
  `cond(s2)`; both definitions state `exec(init)` whatever the condition of init.
* C30: `apply_message`/`apply_condition` replace the ids 1..=arity while the parser numbers parameters from 0.
* C36: edges to inputs are kept in a separate list (graph.rs 120-166) that the search never follows: the ancestors of a cell never
  include the input, and those of the input never include a cell; arguments of cells and contents of symbolic quantifiers are not
  visited. A search that starts from a cell assigned from an input therefore misses the messages that input can be made of.
* C37: `FormulaUnfolder` records no variable when it goes below a quantifier of the evaluated logic, so parameters of steps unfolded
  below it are not renamed apart from its variables (`input@A(i)` under `forall i` reaches the message of `A` guarded by `A(i) < A(i)`).
* C30: `unfold_step_macro` renames the parameters of the step in the guard but returns the content unrenamed.
* C72: `exec` is unfolded through the graph as if it were a cell: nothing is reached when no condition reads an input or a cell, and the
  condition of the last step itself is never reached.
* C32: `generate_special_functions_assertions` (subterm/mod.rs 249-290) takes the id `ptcl.max_var() + 1` for the search variable, with the
  comment "no variable collision", and starts the search with no bound variables. `Protocol::max_var` does not count the variables bound by
  symbolic quantifiers, so a quantifier over three variables in a protocol whose other terms are closed binds the search variable itself; the
  assertion then says that an index is a name, and is false (`C32_capture_refuted`). When nothing visited binds the variables of the assertion, it is
  true (`C32_assertion_partial`).
* C27: the legacy congruence axioms (evaluate.rs 169-194, option `use_legacy_evaluate`) compare `eval(v1)` with itself in the premise, so they
  say that every user function is constant (`C27_legacy_refuted`). The axiom of the negation is an implication only: `eval(not a)` may be false
  although `eval(a)` is false (`C27_negation_refuted`); this loses proofs, it does not make wrong ones.
* C33: the general axioms of UF-CMA (uf_cma.rs 168-185) and EUF-CMA (euf_cma.rs 133-150) apply `verify` to the message first and the signature second
  while the base axiom, the candidates and the instances use signature first. In a structure where signatures are unforgeable the general axiom is
  false (`C33_general_refuted`); together with the base axiom it asks that a mac of a mac of every message occurs somewhere, or the key leaks
  (`C33_forces`).
* C34: in hmac mode an equality with a mac on one side is not searched on the other side (`C34_other_side_refuted`).
* C35: candidates for the randomness condition of INT-CTXT are top-level encryptions only; the condition of a pair of encryptions is dropped when
  their messages or keys do not unify, which is when it matters (`C35_reuse_refuted`).
* C75: the general axiom of INT-CTXT applies `dec` to a name that is not cast to a message (`C75_sorts_refuted`).
* C39: nothing stops a user from naming a constant `MX1`, which is how variable 1 of sort `Message` is printed; it is then captured by a
  binder (`C39_capture_refuted`). `USED_KEYWORDS` (parser/mod.rs 25-52) lacks `distinct` and `let`, and identifiers may have primes, which SMT-LIB
  symbols may not (`C39_keyword_refuted`).
* C76: `preprocess_after_eval` gives a variable of an evaluated sort the evaluated sort but leaves its binder as it is, so that the printed
  variable is not bound and its value is not evaluated (`C76_variable_refuted`). For a symbolic quantifier it substitutes the arguments
  for the bound variables and quantifies over the free ones (`C76_quantifier_refuted`), and stops the program when their numbers
  differ (`C76_quantifier_panics`). `preprocess_before_eval` rebuilds a function application with the old arguments (line 44), so that only
  evaluations directly below the leading quantifiers are touched (`C76_elsewhere`).
* C55: the table of fixed translations is consulted for symbols of every kind, so that variables called `empty` and `ø` become the same
  name, which is also that of a function (`C55_remapped_refuted`).
* C77: the encoding of other symbols uses `#` as a digit, which is not allowed in an SMT-LIB symbol; `-->` becomes `fun__base64_LS0#`
  (`C77_smt_symbol_refuted`). Symbols with letters beyond ASCII are kept as they are (`C77_wide_partial`).
* C56: instances that choose different indices in the same branch are exclusive and no lemma says so (`C56_index_choice_refuted`); control
  flows are compared with the names of their indices, so that no lemma orders actions whose indices are named apart
  (`C56_named_apart_refuted`).
* C57: an index called `$dummy`, the only symbol that may contain `$`, cannot be renamed and stops the program (`C57_dummy_refuted`).
* C58: the output location is updated in place: problem i goes to `out/0/1/.../i` instead of `out/i` (`C58_location_refuted`).
* C54: the elements of a tuple are folded from the left, so that projection i gives element n+1-i; the first projection of (x, y) is y
  (`C54_projection_refuted`).
* C78: a function of one argument of a tuple type takes the elements of a literal tuple as its arguments, but a `diff` of tuples as one
  argument (`C78_tuple_refuted`); every branch of a nested `diff` is converted, also those of no system, and an error in one of them is an
  error of the whole (`C78_complete_refuted`); `diff`s with different numbers of branches stop the program (`C78_sizes_panic`).
* C79: such a function applied to anything but a literal tuple has one argument and is declared with the elements
  (`C79_variable_refuted`); of several arguments with a tuple last only the elements of the tuple are declared (`C79_last_refuted`).
* C81: input variables are bound to the inputs of the wrong actions: the dummies are removed before counting, and counting starts with
  the initial action (`C81_inputs_refuted`). Only the inputs of the first global macro of a step are bound at all.
* Not modelled: `json::Ident` keeps the name of a variable and drops its tag (squirrel/json/mod.rs 97-102), so that different variables
  with the same name become one.
* C40: without the option for lemmas, the lemmas of a file are neither proved nor assumed (`C40_lemmas_refuted`): they are silently ignored.
* C46: a solver that fails decides the round if it does so before another one answers unsat: the same answers give a proof or an error
  (`C46_unsat_refuted`).
* C48: Vampire's answer is its exit code; an output that says satisfiable counts as unsat if the code is 0 (`C48_vampire_refuted`). Whether
  that happens depends on the version of Vampire, which is not part of the repository.
* C49: the table of variables is keyed by the unknown, and a new sort for a known one replaces its entry without growing the table, so
  that the next unknown gets the number of an earlier one (`C49_distinct_refuted`; only with a table shared between literals). A binder
  that binds anything is always refused: its variables have no sort and are entered under keys that no occurrence uses
  (`C49_no_binder`).
* C50: the loop over arguments stops at the end of the arguments, so that missing arguments are not noticed (`C50_refuted`).
* C51: `trim_quotes` (runner/tptp.rs) compares a byte length with a number of characters: a quoted name with a non-ASCII character keeps
  its closing quote, and a lone quote disappears (`C51_unquote_refuted`).
* C52: the counter of generated names has 16 bits and wraps around, generated names are not compared with existing ones, and
  `is_name_available` is true for names that are taken (`C52_refuted`).
* C64: the rule `simpl-tuple-2` rewrites `p2 (tuple a b)` to `a`; `ite-eq-1` rewrites `ite (eq a b) a b` to `a`, and `ite-eq-2`
  rewrites the same term to `b`. With these two, every two terms are derivably equal (`C64_refuted`), so the prover accepts
  every goal once enough rules have been applied.
* C83: as a consequence of C51, a literal of the solver with a quoted non-ASCII name is read with another symbol.
* C84: `not_subterm_down` (and its variants in enc_kp.rs) remember a negative answer obtained while a class on the current path counts as
  containing the nonce. On a cyclic e-graph the answer stays negative although the class has a term without the nonce.
* C85: the IND-CCA2 rule replaces the ciphertext on one path and ignores its class in the other branches, so that
  `equiv (tuple c (p1 c))` is merged with `equiv (tuple c' (p1 c))`: the randomness of the replaced ciphertext still occurs. An unguarded
  decryption of a function of the ciphertext is accepted as well (`SearchKind::KeyAfterEnc` is never used).
* C86: the ENC-KP rule has the same defect, and does not require the new key to differ from the randomness.
* C88: a function of one tuple argument applied to anything but a literal tuple (a variable, a projection, another application) becomes a
  function of one argument, while elsewhere it has as many arguments as the tuple has elements; no meaning of the symbol fits both
  (`C88_refuted`). Agreement takes `<=>` to be equality, since the name is replaced by `=` before the operations are looked up.
* C89: for the key relations the cryptographic functions are `ignored`, so they get the assertion of a special function; there the search
  starts from `f(x1, ..)` with variables as arguments, a variable of sort message never matches a name, and the assertion becomes
  `~ (n below f(x1, ..))`. A key sent inside of a mac, a signature or a ciphertext as (part of) the message is therefore not below it:
  the axioms contradict occurrence (`C89_occurrence_refuted`) and a key used as a message of its own mac counts as unused. The same holds
  for macs inside of macs for the main relation of UF-CMA.
* C90: with Regular relations nothing says when a name is below a name except `nonce_same`, which is generated only here: for the key
  relations `n below n'` is unconstrained.
* C90: with the relations built into Vampire, the axioms about names have a first-order model where a constant is worth a name
  (`C90_vampire_refuted`); other provers than the modified Vampire must not be given these files.
* C91: the variable of the axiom about splittable keys can be one that a symbolic quantifier of the protocol binds: the axiom is then false
  (`C91_capture_refuted`), as in C32.
* C92: the evaluated functions `eval$f` are declared only in the symbolic realm without `--no-bitstring` (evaluate.rs 115-125), while
  `propagate_evaluate` puts them into assertions and queries with all options: in the default (evaluated) realm and with `--no-bitstring`
  an assertion `f(x) = x` of the user uses an undeclared symbol (`C92_evaluated_refuted`, `C92_no_bitstring_refuted`).
* C93: the sort of names is a datatype in every realm and is left out of the declared sorts; its datatype is declared only if there is a
  name, while the conversion of names to messages is always declared (`C93_names_refuted`).
* C94: the README promises a standard file with `--cvc5`, but the option leaves the rewrite rules of `--eval-rewrite` and
  `--crypto-rewrite` in (`C94_standard_refuted`); the file for Z3 also keeps the subterm relations of Vampire (`C94_z3_refuted`).
  `--skolemnise` is never read (`C94_skolemnise_refuted`), `--disallow-shadowing` is dropped unless files are written
  (`C94_shadowing_refuted`), only the emptiness of the two rewrite options is ever looked at (`C94_rewrite_refuted`), and the default
  command uses the lemmas while `auto` without options does not (`C94_default_refuted`).
* C95: `cvc5` is in the options and never called (`C95_cvc5_refuted`).
* C96: the side condition of INT-CTXT about two encryptions (`int_ctxt.rs` 366-370) collects its variables from
  `[r1, m1, k1, r2, m2, r2]`: the last one should be `k2`. When the key of the second encryption has an index that neither its randomness
  nor its message has, the index stays free and the solver refuses the file (`C96_sentences_refuted`, a whole file, in both realms).
* C98: declaring a function whose result is an index type panics instead of giving an error (`function.rs` 297, `C98_panic_refuted`);
  the type of a cell is never looked up, so that a cell of an unknown type is accepted (`C98_cell_type_refuted`).
* C99: the arguments of a cell in an assignment are zipped with its parameters: superfluous ones are dropped without being read, missing
  ones are left out (`C99_cell_arguments_refuted`). Two parameters of a step may have the same name; the second one cannot be
  referred to (`C99_parameters_refuted`).
* C100: the option `recursive` of `unfolding` is looked up as `recurisve` (`assert_crypto.rs` 167), so that the documented spelling has no
  effect (`C100_recursive_refuted`). A fourth function of INT-CTXT (the verification function) is dropped without being looked up
  (`C100_fourth_refuted`).
* C101: the built-in `ite` of the logic can be called by name in a message; its first argument is then read as a formula of the logic, and a
  quantifier with bound variables ends up inside a message (`C101_scoped_refuted`). An index may be `if exists ... then i else j`, which puts
  one under the symbol of a name (`C101_names_refuted`). The variable of a let can be used after the let, as in `(let x = m in x) = x`, and the
  query then has a free variable (`C101_lets_refuted`, see C15).
* C104: Squirrel's `checksign(message, signature, public key)` is passed on as it is, but the assumption EUF-CMA takes `verify(signature,
  message, public key)` (`euf_cma.rs` 52, 172, 238): the axiom for the test of an honest signature `checksign(b, sign(b, k), pk(k))` says
  `sign(b, k) = b` (`C104_checksign_refuted`).
* C105: macros and operators share the prefix `fun_`, so that a state macro and an abstract operator of the same name clash and the
  converted file is rejected. An operator named `input`, `cond`, `output` or `exec` keeps a name that CryptoVampire already has. A type
  used but not listed is undeclared. An operator into an index or finite type makes `declare_function` panic (`C105_refuted`).
* C102: a let inside an assertion of a file leaks its variable, so that the assertion of the problem has a free variable (`C102_refuted`).
* C106: a defined operator of a Squirrel file is converted to a macro (`let`), its uses to function applications, and operators with type
  variables are not declared. A file that uses either is converted and rejected when read (`C106_refuted`).
* C107: the fresh variables of an update are collected with repetitions (`flat_map` of `vars`), so `s(j,j) := ..` is converted to an
  assignment with `j` declared twice, which is rejected when read. The bodies of updates are not given the inputs that conditions and
  outputs get (`prepare_term`), so an input variable is unbound in an update and the file is rejected (`C107_refuted`).
* C109: because of the axiom of `gt` (C25) the prover accepts `gt(A, A)`, which no execution makes true when `gt` is the converse of
  `lt` (`C109_gt_refuted`). Squirrel's `>` is converted to `gt`, so that the finding reaches users who never write `gt`.
* C111: errors do not show where they are. `PestLocation` (parser/location.rs 164-183) keeps the text of the span only, but its offsets in
  the whole file; when the error is printed, the span is rebuilt with these offsets in that text, which fails unless the span starts the
  file. Every error about a later item is printed as "!!! FAILED TO BUILD SPAN !!!" (`C111_span_refuted`). For positions the failure is a
  panic (`C111_position_refuted`); the code makes only position 0. `SpanLocation` (error/location/pest.rs) has the same mistake and panics
  (`C111_provide_refuted`); it is used by `bail_at!(p.as_span(), ..)` in parser/ast/mod.rs 81, 107, 156 and parser/ast/ordering.rs 42, where
  the grammar leaves little to go wrong. Keeping the whole input (`span.get_input()`) would repair all three.
* C112: places of two sources with the same text and offsets are equal in the order but not equal (`C112_sources_refuted`); within a
  run there is one source.
* `smt/writer/` is not part of the crate (no `mod writer`), and is not modelled.
