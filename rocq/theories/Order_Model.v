(** Steps, and the ordering theory that is put in every generated file. *)
From Coq Require Import List Arith Bool.
From Verif Require Import Syntax_Model Subst_Model.
Import ListNotations.

(** problem/step.rs 56-70 [InnerStep]; [ps_fun] identifies the step (48: steps are references, compared by address, and
    [Step::new] 106-146 allocates one function per step), [ps_vars] is [free_variables]. [occuring_variables] (213) is
    computed from the message and the condition, see [Macro_Model.v]. *)
Record pstep : Type := mkPStep {
  ps_fun : nat;
  ps_vars : list var;
  ps_cond : formula;
  ps_msg : formula
}.

(** formula/utils/applicable.rs [f]: a function applied to a list of variables. *)
Definition fv (f : fsym) (vs : list var) : formula := FFun f (map FVar vs).

(** problem/step.rs 286-291 [into_formula], and [s.function().f(vars)]. *)
Definition step_term (s : pstep) (vs : list var) : formula := fv (Fstep (ps_fun s)) vs.
Definition into_formula (s : pstep) : formula := step_term s (ps_vars s).

Definition happens (t : formula) : formula := FFun Fhappens [t].
Definition leq (a b : formula) : formula := FFun Fleq [a; b].
Definition lt (a b : formula) : formula := FFun Flt [a; b].
Definition gt (a b : formula) : formula := FFun Fgt [a; b].
Definition pred (a : formula) : formula := FFun Fpred [a].
(** The variable written [t!i:step] in [mforall!]. *)
Definition sv (i : nat) : var := mkVar i SStep.
Definition st (i : nat) : formula := FVar (sv i).

(** problem/general_assertions/order.rs 36-63, everything but the last general axiom. *)
Definition order_theory (init : formula) : list formula :=
  [ mk_forall [sv 1; sv 2] (meq (fand (leq (st 1) (st 2)) (fnot (meq (st 1) (st 2)))) (lt (st 1) (st 2)));
    happens init;
    mk_forall [sv 1] (fimp (happens (st 1)) (leq init (st 1)));
    mk_forall [sv 0] (fimp (happens (st 0)) (for_ (meq (st 0) init) (happens (pred (st 0)))));
    mk_forall [sv 1; sv 2] (for_ (for_ (happens (st 1)) (happens (st 2))) (meq (st 1) (st 2)));
    mk_forall [sv 1; sv 2; sv 3] (fimp (fand (leq (st 1) (st 2)) (leq (st 2) (st 3))) (leq (st 1) (st 3)));
    mk_forall [sv 1; sv 2] (fimp (fand (leq (st 1) (st 2)) (leq (st 2) (st 1))) (meq (st 1) (st 2)));
    mk_forall [sv 1; sv 2] (meq (fand (happens (st 1)) (happens (st 2))) (for_ (leq (st 1) (st 2)) (leq (st 2) (st 1))));
    mk_forall [sv 0] (fimp (happens (pred (st 0))) (leq (pred (st 0)) (st 0)));
    mk_forall [sv 0] (fimp (happens (st 0)) (fnot (meq (pred (st 0)) (st 0))));
    mk_forall [sv 0] (fimp (happens (pred (st 0))) (happens (st 0)));
    mk_forall [sv 1; sv 2] (fimp (fand (happens (pred (st 1))) (happens (st 2)))
                                 (for_ (leq (st 2) (pred (st 1))) (leq (st 1) (st 2)))) ].

(** problem/general_assertions/order.rs 65-66, as written. *)
Definition gt_axiom : formula :=
  mk_forall [sv 0; sv 1] (fnot (meq (gt (st 0) (st 1)) (lt (st 1) (st 0)))).

(** problem/general_assertions/order.rs 78-102: one axiom per step. *)
Definition distinct_axiom (steps : list pstep) (s : pstep) : formula :=
  let vars := ps_vars s in
  let k := max_var vars in
  let t := step_term s vars in
  let one (s2 : pstep) :=
    if Nat.eqb (ps_fun s) (ps_fun s2) then
      let vars2 := map (fun v => var_add v k) vars in
      mk_forall vars2 (fimp (meq t (step_term s2 vars2))
                            (ands (map (fun '(v1, v2) => meq (FVar v1) (FVar v2)) (combine vars vars2))))
    else
      let vars2 := map (fun v => var_add v k) (ps_vars s2) in
      mk_forall vars2 (fnot (meq t (step_term s2 vars2))) in
  mk_forall vars (fimp (happens t) (ands (map one steps))).

(** problem/general_assertions/order.rs 106-117. *)
Definition exhaustive_axiom (steps : list pstep) : formula :=
  let t := mkVar (max_var (flat_map ps_vars steps)) SStep in
  let one (s : pstep) := mk_exists (ps_vars s) (meq (FVar t) (step_term s (ps_vars s))) in
  mk_forall [t] (fimp (happens (FVar t)) (ors (map one steps))).

(** problem/general_assertions/order.rs 72-117. *)
Definition step_axioms (steps : list pstep) : list formula :=
  map (distinct_axiom steps) steps ++ [exhaustive_axiom steps].
