(** Numbers of arguments: those of the symbols of the logic, and of the declared functions those of their declaration. *)
From Coq Require Import List Arith Bool.
From Verif Require Import Syntax_Model Traversal_Spec Order_Model Macro_Model Evaluate_Model File_Model File_Spec Assumption_Model Assumption_Spec.
From Verif Require Parser_Model.
Import ListNotations.

Section Numbers.
  (** Signatures, and the functions of the problem. *)
  Context (sig : fsym -> option (list sort * sort)) (funs : list fsym).
  Definition declares_number (s : fsym) (n : nat) : Prop := In s funs -> forall ins out, sig s = Some (ins, out) -> n = length ins.
  (** A function that is not of the problem is a splitting predicate, which is declared on names (crypto_assumptions/uf_cma.rs 150, euf_cma.rs 115).
      Of skolem functions nothing is asked. *)
  Definition takes (s : fsym) (n : nat) : Prop :=
    match s with
    | Fb CAnd | Fb COr | Fta TAnd | Fta TOr | Fskolem _ | Ftmp _ => True
    | Fb CTrue | Fb CFalse | Fta TTrue | Fta TFalse => n = 0
    | Fb CNot | Fta TNot | Fhappens | Fpred | Feval _ | Fcast _ | Fmacro _ => n = 1
    | Fb CImplies | Fb CEq | Fta TImplies | Fta TIff | Fta TEq | Flt | Fgt | Fleq | Fsubterm _ => n = 2
    | Fite | Fta TIte => n = 3
    | Fstep _ | Fcell _ | Fname _ | Fquant _ => declares_number s n
    | Fuser _ => declares_number s n /\ (~ In s funs -> n = 1)
    | Fuser_eval i => declares_number (Fuser i) n
    end.
  (** Everywhere in a formula. *)
  Definition counts (f : formula) : Prop := forall p s args, at_path f p (FFun s args) -> takes s (length args).
  Definition counts_axiom (a : eaxiom) : Prop := match a with ABase f => counts f | ARewrite _ l t => counts l /\ counts t end.

  (** The functions that an assumption names. *)
  Definition names_right (a : assumption) : Prop :=
    match a with
    | AUf mac verify _ => takes (Fuser mac) 2 /\ takes (Fuser verify) 3
    | AEuf sign verify pk => takes (Fuser sign) 2 /\ takes (Fuser verify) 3 /\ takes (Fuser pk) 1
    | ACtxt enc dec fail => takes (Fuser enc) 3 /\ takes (Fuser dec) 2 /\ takes (Fuser fail) 0
    | ANonce | ACell | AUnfolding _ _ => True
    end.
End Numbers.

(** The parts of a problem have the right numbers of arguments; steps, cells and quantifiers are declared with their parameters. *)
Record counts_whole (sig : fsym -> option (list sort * sort)) (table : nat -> option quantifier) (w : whole_problem) : Prop := mkCounts {
  nw_sigs : forall f ins out, In f (gp_funs (wp_gen w)) -> sig f = Some (ins, out) -> takes sig (gp_funs (wp_gen w)) f (length ins);
  nw_steps : forall s, In s (gp_steps (wp_gen w)) -> declares_number sig (gp_funs (wp_gen w)) (Fstep (ps_fun s)) (length (ps_vars s));
  nw_writers : forall c a, In c (wp_cells w) -> In a (ce_asgs c) -> In (as_step a) (gp_steps (wp_gen w));
  nw_cells : forall c, In c (wp_cells w) -> declares_number sig (gp_funs (wp_gen w)) (Fcell (ce_fun c)) (S (length (ce_args c)));
  nw_quants : forall k q, table k = Some q -> declares_number sig (gp_funs (wp_gen w)) (Fquant k) (length (qt_free q)) /\
    forall f, In f (quantifier_formulas q) -> counts sig (gp_funs (wp_gen w)) f;
  nw_orders : forall o f, In o (gp_orders (wp_gen w)) -> In f (order_formulas o) -> counts sig (gp_funs (wp_gen w)) f;
  nw_args : forall c a t, In c (wp_cells w) -> In a (ce_asgs c) -> In t (as_args a) -> counts sig (gp_funs (wp_gen w)) t;
  nw_terms : forall g, problem_term w g -> counts sig (gp_funs (wp_gen w)) g;
  nw_assumptions : forall a, In a (wp_assumptions w) -> names_right sig (gp_funs (wp_gen w)) a
}.
