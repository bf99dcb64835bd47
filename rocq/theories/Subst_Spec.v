(** Specification of substitutions. *)
From Coq Require Import List Arith Bool.
From Verif Require Import Syntax_Model Traversal_Spec Semantics_Spec Subst_Model.
Import ListNotations.

(** [g] is [f] where every variable leaf [v] is replaced by a term related to [v] by [R]; nothing else changes. *)
Inductive replaces (R : var -> formula -> Prop) : formula -> formula -> Prop :=
| rep_var v t : R v t -> replaces R (FVar v) t
| rep_fun s args args' : Forall2 (replaces R) args args' -> replaces R (FFun s args) (FFun s args')
| rep_quant q vs b b' : replaces R b b' -> replaces R (FQ q vs b) (FQ q vs b').

(** The first pair of the list with that id decides; other variables are left alone. *)
Definition first_listed (l : list (nat * formula)) (v : var) (t : formula) : Prop :=
  (exists l1 l2, l = l1 ++ (vid v, t) :: l2 /\ ~ In (vid v) (map fst l1)) \/
  (~ In (vid v) (map fst l) /\ t = FVar v).

(** No quantifier of [f] interferes with [s]: a leaf bound above is kept, and a free leaf is replaced by a term
    none of whose free ids is bound above the leaf. *)
Definition no_capture (s : subst) (f : formula) : Prop :=
  forall p v, at_path f p (FVar v) ->
    (binds_above f p (vid v) -> s v = Some (FVar v)) /\
    (~ binds_above f p (vid v) -> forall t i, s v = Some t -> occurs_free i t -> ~ binds_above f p i).

(** No symbolic quantifier symbol in the formula. *)
Definition no_ta_quant (f : formula) : Prop := forall p k args, ~ at_path f p (FFun (Fquant k) args).
