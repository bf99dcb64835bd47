(** Specification for C113: terms that are no truth values, by their outermost construct. *)
From Coq Require Import List.
From Verif Require Import Syntax_Model Sort_Model Parser_Model.
Import ListNotations.

(** A declared function of a fixed result. *)
Definition yields (env : penv) (f : name) (o : sort) : Prop :=
  ~ In f [n_true; n_True; n_false; n_False; n_not] /\ exists g a c st, e_functions env f = Some (mkFc g (SgFixed a o) c st).

(** Terms that do not yield a truth value, or use such a term where a truth value is needed. *)
Inductive not_truth (env : penv) : term -> Prop :=
| nt_find vs c l d : not_truth env (TFind vs c l d)
| nt_app f args o : yields env f o -> o <> SBool -> o <> SCondition -> not_truth env (TApp f args)
| nt_let x ty t b : not_truth env b -> not_truth env (TLet x ty t b)
| nt_if_condition c l d : not_truth env c -> not_truth env (TIf c l d)
| nt_if_left c l d : not_truth env l -> not_truth env (TIf c l d)
| nt_if_right c l d : not_truth env d -> not_truth env (TIf c l d)
| nt_quant q vs b : not_truth env b -> not_truth env (TQuant q vs b)
| nt_not t args : not_truth env t -> not_truth env (TApp n_not (t :: args))
| nt_infix o t ts : In o [OAnd; OOr] -> In t ts -> not_truth env t -> not_truth env (TInfix o ts)
| nt_premise t ts : not_truth env t -> not_truth env (TInfix OImplies (t :: ts))
| nt_conclusion u t ts : not_truth env t -> not_truth env (TInfix OImplies (u :: t :: ts))
| nt_macro m args mc : e_macros env m = Some mc -> not_truth env (mc_body mc) -> not_truth env (TMac m args)
| nt_message f args g k c sc : e_functions env f = Some (mkFc g k c (Some sc)) -> not_truth env (st_msg sc) -> not_truth env (TStepMac true f args).
