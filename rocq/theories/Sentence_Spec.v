(** Sentences: formulas without a free variable, and the problems whose files should only have those. *)
From Coq Require Import List Arith Bool.
From Verif Require Import Syntax_Model Traversal_Spec Semantics_Spec Order_Model Macro_Model Expander_Spec Search_Spec Evaluate_Model File_Model File_Spec
  Assumption_Model Assumption_Spec.
From Verif Require Parser_Model.
Import ListNotations.

(** Every free id is one of [ids]. *)
Definition bound_by (ids : list nat) (f : formula) : Prop := forall i, occurs_free i f -> In i ids.
Definition sentence (f : formula) : Prop := forall i, ~ occurs_free i f.
(** The variables of a rewrite rule are quantified. *)
Definition closed_axiom (a : eaxiom) : Prop :=
  match a with ABase f => sentence f | ARewrite vs l t => bound_by (map vid vs) l /\ bound_by (map vid vs) t end.

(** A term has no quantifier of the logic inside, neither has an equation between terms: what sorts imply. *)
Definition term_function (s : fsym) : Prop :=
  match s with Fuser _ | Fta _ | Fcast _ | Fname _ | Feval _ => True | _ => False end.
Definition sorted_terms (t : formula) : Prop :=
  forall p s args, at_path t p (FFun s args) ->
    term_function s \/ s = Fb CEq /\ (exists f l, In (FFun (Fuser f) l) args) -> plain (FFun s args).

(** A problem whose parts only use the variables that they bind. *)
Record scoped_whole (table : nat -> option quantifier) (w : whole_problem) : Prop := mkScoped {
  sw_orders : forall o, In o (gp_orders (wp_gen w)) -> scoped (order_formulas o) (Parser_Model.or_vars o);
  sw_steps : forall s, In s (gp_steps (wp_gen w)) -> step_closed s;
  sw_init : forall s l, gp_steps (wp_gen w) = s :: l -> ps_vars s = [];
  sw_asgs : forall c a, In c (wp_cells w) -> In a (ce_asgs c) -> asg_closed a /\ scoped (as_args a) (ps_vars (as_step a) ++ as_fresh a);
  sw_quants : forall k q, table k = Some q ->
    NoDup (map vid (qt_free q ++ qt_bound q)) /\ scoped (quantifier_formulas q) (qt_free q ++ qt_bound q) /\ forall f, In f (quantifier_formulas q) -> plain f;
  sw_asserts : forall g, In g (gp_asserts (wp_gen w) ++ [gp_query (wp_gen w)]) -> sentence g;
  sw_terms : forall g, problem_term w g -> sorted_terms g
}.
(** The variables of the key of an encryption are those of its randomness or of its message. *)
Definition keys_covered (w : whole_problem) : Prop :=
  forall enc dec fail m n l k i, In (ACtxt enc dec fail) (wp_assumptions w) -> problem_term w (FFun (Fuser enc) [m; FFun (Fcast SMessage) (n :: l); k]) ->
    occurs_free i k -> occurs_free i m \/ occurs_free i n.
