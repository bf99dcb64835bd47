(** What the axioms of cryptographic assumptions may use. *)
From Coq Require Import List Arith Bool.
From Verif Require Import Syntax_Model Semantics_Spec Order_Model Macro_Model Evaluate_Model File_Model File_Spec Assumption_Model.
Import ListNotations.

(** The functions that an assumption is about. *)
Definition assumption_functions (a : assumption) : list fsym :=
  match a with
  | AUf mac verify _ => [Fuser mac; Fuser verify]
  | AEuf sign verify pk => [Fuser sign; Fuser verify; Fuser pk]
  | ACtxt enc dec fail => [Fuser enc; Fuser dec; Fuser fail]
  | ANonce | ACell | AUnfolding _ _ => []
  end.

(** The terms of a problem. *)
Inductive problem_term (w : whole_problem) : formula -> Prop :=
| pt_assert g : In g (gp_asserts (wp_gen w)) -> problem_term w g
| pt_query : problem_term w (gp_query (wp_gen w))
| pt_lemma g : In g (wp_lemmas w) -> problem_term w g
| pt_extra g : In g (wp_extra w) -> problem_term w g
| pt_cond s : In s (gp_steps (wp_gen w)) -> problem_term w (ps_cond s)
| pt_msg s : In s (gp_steps (wp_gen w)) -> problem_term w (ps_msg s)
| pt_cell c a : In c (wp_cells w) -> In a (ce_asgs c) -> problem_term w (as_content a).

(** The parts of the problem only use its functions, the evaluations and its sorts. *)
Record closed_whole (sig : fsym -> option (list sort * sort)) (table : nat -> option quantifier) (w : whole_problem) : Prop := mkClosedWhole {
  cw_gen : closed_problem sig table (wp_gen w);
  cw_evs : In SMessage (gp_evs (wp_gen w)) /\ In SCondition (gp_evs (wp_gen w));
  cw_assumptions : forall a f, In a (wp_assumptions w) -> In f (assumption_functions a) -> In f (gp_funs (wp_gen w));
  cw_terms : forall g, problem_term w g -> within_known (wp_gen w) g;
  cw_vars : forall g v, problem_term w g -> occurs v g -> In (vsort v) (gp_sorts (wp_gen w));
  cw_cells : forall c, In c (wp_cells w) -> In (Fcell (ce_fun c)) (gp_funs (wp_gen w)) /\ forall s, In s (ce_args c) -> In s (gp_sorts (wp_gen w));
  cw_asgs : forall c a, In c (wp_cells w) -> In a (ce_asgs c) -> In (Fstep (ps_fun (as_step a))) (gp_funs (wp_gen w)) /\
    (forall v, In v (ps_vars (as_step a) ++ as_fresh a) -> In (vsort v) (gp_sorts (wp_gen w))) /\ forall g, In g (as_args a) -> within_known (wp_gen w) g
}.

(** The symbols that the generation takes are not those of the problem. *)
Record fresh_symbols (w : whole_problem) (n split : nat) : Prop := mkFresh {
  fr_subterm : forall i, n <= i -> ~ In (Fsubterm i) (gp_funs (wp_gen w));
  fr_split : forall i, split <= i -> ~ In (Fuser i) (gp_funs (wp_gen w))
}.
