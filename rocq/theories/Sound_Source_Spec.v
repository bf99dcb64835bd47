(** From a source file to the answers of the prover. *)
From Coq Require Import List Arith Bool Permutation.
From Verif Require Import Syntax_Model Traversal_Spec Semantics_Spec Order_Model Sort_Model Evaluate_Model Macro_Model Parser_Model Parser_Spec Problem_Model Problem_Spec File_Model File_Spec Assumption_Model Expander_Props
  Source_Model Source_Spec Source_Closed_Spec Source_Problem_Spec Arity_Source_Spec Sound_Spec.
From Verif Require Smt_Model Smt_Spec.
Import ListNotations.

(** The problem of a file with the assertions, lemmas and query that are asked next. *)
Definition asking (w : whole_problem) (q : problem) : whole_problem :=
  mkWhole (mkGen (gp_sorts (wp_gen w)) (gp_funs (wp_gen w)) (gp_evs (wp_gen w)) (gp_steps (wp_gen w)) (gp_orders (wp_gen w)) (pb_assertions q) (pb_query q))
          (wp_cells w) (wp_assumptions w) (pb_lemmas q) [].

(** A file has been written for [w], with any options but the legacy evaluation, and the prover found it unsatisfiable in a class of structures;
    [crypto] are the axioms of the cryptographic assumptions in it, and its skolem functions are numbered from [skolem]. *)
Definition proved (sig : fsym -> option (list sort * sort)) (table : nat -> option quantifier) (r : realm) (K : structure -> Prop)
    (ground : forall M : structure, sort -> Smt_Model.smt -> Semantics_Spec.env M -> Prop) (w : whole_problem) (crypto : list formula) (skolem : nat) : Prop :=
  exists vampire_flag defined preprocess anc scmp mfuel fuel no_bitstring n split le ds axs out xs kind o file,
    whole_file sig table r vampire_flag defined preprocess anc scmp mfuel fuel w no_bitstring false skolem n split le = Some (ds, axs) /\
    generate_assumptions sig table r vampire_flag defined preprocess anc scmp mfuel fuel w (wp_assumptions w) n split = Some out /\ crypto = o_axioms out /\
    answers_cells anc (wp_cells w) /\ (forall i, split <= i -> ~ In (Fuser i) (gp_funs (wp_gen w))) /\
    lines axs xs /\ Smt_Model.file_of kind o xs = Some file /\ unsatisfiable K ground file.
(** The skolem functions of the file of a problem. *)
Definition skolems_of (sig : fsym -> option (list sort * sort)) (table : nat -> option quantifier) (w : whole_problem) (skolem : nat) : list (nat * (list sort * sort)) :=
  skolem_sorts skolem (map (classify sig table) (gp_funs (wp_gen w))).

(** Applications in the items have no more arguments than declared, and the variables of an order are distinct. *)
Definition counted_terms (env : penv) (i : item) : Prop :=
  match i with
  | IAssert t | ILemma t | IQuery t => counted env t
  | IOrder o => NoDup (map fst (od_args o)) /\ counted env (od_t1 o) /\ counted env (od_t2 o) /\ forall g, od_guard o = Some g -> counted env g
  | _ => True
  end.

(** A structure gives the items of a file their meaning: orders and assertions are true. *)
Record model_of (env : penv) (qs : list tquant) (l : list item) (M : structure) (qsem : qkind -> list sort -> (list (D M) -> list (D M)) -> D M)
    (mval : callee -> realm -> list (D M) -> list (D M) -> D M) : Prop := mkModelOf {
  mo_calls : unfolds env qsem mval;
  mo_binders : extensional M qsem;
  mo_table : respects qsem qs;
  mo_orders : forall o, In o (orders_of l) -> order_meaning env qsem mval o = true;
  mo_asserts : forall t, In t (asserts_of l) -> dtest M (value env qsem mval t REvaluated (fun _ => None)) = true
}.

(** A file [l] is accepted, within the conditions of C101, C102 and C108, and its parts [p] and quantifiers [s'] make a problem [w] with the signature [sig];
    [es]: the order in which the table of functions is read, [il]: lemmas are ignored. *)
Record read_from (bs : list (name * sort)) (bf : list (name * fcache)) (kw : list name) (l : list item) (so : source) (es : list (name * entry)) (il : bool) (fuel : nat)
    (p : parts) (s' : pst) (sig : fsym -> option (list sort * sort)) (w : whole_problem) : Prop := mkReadFrom {
  rf_builtins : builtins bs bf kw;
  rf_declared : declare_all bs bf kw false l = DOk so;
  rf_tame : tame_file bs bf l;
  rf_gentle : Forall (gentle_item (penv_of (so_env so))) l;
  rf_counted : Forall (counted_terms (penv_of (so_env so))) l;
  rf_order : Permutation es (d_funs (so_env so));
  rf_parsed : parse_parts so es il fuel (mkPst [] [] []) = Parser_Model.Done p s';
  rf_fuel : arities_below (so_env so) fuel /\ 4 <= fuel;
  rf_assembled : assembled p w;
  rf_assumptions : forall a, In a (wp_assumptions w) -> exists c, In c (pa_crypto p) /\ same_assumption c a;
  rf_signatures : signatures bf (so_env so) (p_qs s') sig (gp_funs (wp_gen w));
  rf_usual : usual sig (table_of (p_qs s')) w;
  rf_settled : forall f, In f (pa_query p :: pa_asserts p ++ pa_lemmas p) -> settled sig (table_of (p_qs s')) w f
}.
(** Nothing in the parts of a file uses [gt] or a skolem function. *)
Record direct_parts (qs : list tquant) (p : parts) : Prop := mkDirectParts {
  dp_quants : forall k q f, table_of qs k = Some q -> In f (quantifier_formulas q) -> direct f;
  dp_orders : forall o, In o (pa_orders p) -> direct (order_axiom o);
  dp_formulas : forall f, In f (pa_query p :: pa_asserts p ++ pa_lemmas p) -> direct f
}.
(** The files written for the query, and for the lemmas when they are used, have been proved. *)
Definition all_proved (sig : fsym -> option (list sort * sort)) (table : nat -> option quantifier) (r : realm) (K : structure -> Prop)
    (ground : forall M : structure, sort -> Smt_Model.smt -> Semantics_Spec.env M -> Prop) (w : whole_problem) (p : parts) (with_lemmas : bool) (crypto : nat -> list formula) (skolem : nat -> nat) : Prop :=
  forall k pk, yielded k (pbl_new (mkProblem (pa_asserts p) (pa_lemmas p) (pa_query p)) with_lemmas) = Some pk -> proved sig table r K ground (asking w pk) (crypto k) (skolem k).
