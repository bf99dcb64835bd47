(** The axioms about memory cells, [exec], and the message and condition macros. *)
From Coq Require Import List Arith Bool.
From Verif Require Import Syntax_Model Traversal_Model Subst_Model Order_Model.
Import ListNotations.

(** problem/cell/inner/assignement.rs 11-20. *)
Record assignment : Type := mkAsg {
  as_step : pstep;
  as_args : list formula;
  as_content : formula;
  as_fresh : list var
}.
(** problem/cell/inner.rs 13-24; the function returns a message (formula/function/inner/term_algebra/cell.rs). *)
Record mcell : Type := mkCell {
  ce_fun : nat;
  ce_args : list sort;
  ce_asgs : list assignment
}.

(** problem/step.rs 125-127: the used variables of the message and the condition. *)
Definition occuring_variables (fuel : nat) (s : pstep) : option (list var) :=
  used_vars_with fuel [ps_msg s; ps_cond s].

(** problem/protocol.rs 138-152 [Protocol::max_var]; parameters of steps and the variables of the assignments' contents
    and arguments do not count. *)
Definition protocol_max_var (fuel : nat) (steps : list pstep) (cells : list mcell) : option nat :=
  match mapM (occuring_variables fuel) steps with
  | None => None
  | Some vss =>
      let vs := concat vss ++ flat_map (fun c => flat_map as_fresh (ce_asgs c)) cells in
      Some (match ids_max (map vid vs) with Some m => m | None => 0 end + 1)
  end.

(** [pbl.evaluator().eval] on a message or a condition (formula/function/inner/evaluate.rs 61-76). *)
Definition ev_msg (f : formula) : formula := FFun (Feval SMessage) [f].
Definition ev_cond (f : formula) : formula := FFun (Feval SCondition) [f].

(** itertools [zip_eq]: panics on lists of different lengths. *)
Fixpoint zip_eq {A B : Type} (l : list A) (m : list B) : option (list (A * B)) :=
  match l, m with
  | [], [] => Some []
  | a :: l', b :: m' => match zip_eq l' m' with Some r => Some ((a, b) :: r) | None => None end
  | _, _ => None
  end.

(** crypto_assumptions/cell.rs 65-86, for one assignment: its variables, the equations, and the content. *)
Definition asg_vars (a : assignment) : list var := ps_vars (as_step a) ++ as_fresh a.
Definition asg_eqs (vars : list var) (step_var : var) (a : assignment) : option formula :=
  match zip_eq vars (as_args a) with
  | None => None
  | Some ps => Some (ands (map (fun '(v, t) => meq (FVar v) t)
                               (ps ++ [(step_var, into_formula (as_step a))])))
  end.

(** crypto_assumptions/cell.rs 41-115, for one cell: first the frame axiom, then one axiom per assignment. *)
Definition cell_axioms (max_var : nat) (c : mcell) : option (list formula) :=
  let step_var := mkVar max_var SStep in
  let vars := sorts_to_variables (max_var + 1) (ce_args c) in
  let nvars := vars ++ [step_var] in
  let call := fv (Fcell (ce_fun c)) nvars in
  let call_prev := FFun (Fcell (ce_fun c)) (map FVar vars ++ [pred (FVar step_var)]) in
  match mapM (asg_eqs vars step_var) (ce_asgs c) with
  | None => None
  | Some eqs =>
      let positive := map (fun '(a, e) => mk_forall (asg_vars a) (fimp e (meq call (as_content a)))) (combine (ce_asgs c) eqs) in
      let negative := map (fun '(a, e) => mk_forall (asg_vars a) (fnot e)) (combine (ce_asgs c) eqs) in
      Some (mk_forall nvars (fimp (ands negative) (meq (ev_msg call) (ev_msg call_prev)))
            :: map (mk_forall nvars) positive)
  end.

Definition mac (m : macro) (t : formula) : formula := FFun (Fmacro m) [t].

(** crypto_assumptions/unfolding.rs 65-75: which definition of [exec] is generated; [direct], [recursive] are the flags
    given by the user (neither by default). *)
Definition use_recursive (direct recursive : bool) : bool := recursive.
Definition use_direct (direct recursive : bool) : bool := direct || negb recursive.

(** crypto_assumptions/unfolding.rs 104-111. *)
Definition exec_recursive (s : pstep) : formula :=
  let tau := into_formula s in
  mk_forall (ps_vars s)
    (fimp (happens tau) (meq (ev_cond (mac MExec tau)) (fand (ev_cond (mac MCondition tau)) (ev_cond (mac MExec (pred tau)))))).
(** crypto_assumptions/unfolding.rs 117-122, as written. *)
Definition exec_direct : formula :=
  mk_forall [sv 1]
    (fimp (happens (st 1))
       (meq (ev_cond (mac MExec (st 1))) (mk_forall [sv 2] (fimp (leq (st 2) (st 1)) (ev_cond (mac MCondition (st 1))))))).
(** crypto_assumptions/unfolding.rs 90-131; [steps] has [init] first (problem/protocol.rs 60-67, 154). *)
Definition exec_axioms (direct recursive : bool) (init : pstep) (others : list pstep) : list formula :=
  [ev_cond (mac MExec (into_formula init))]
    ++ (if use_recursive direct recursive then map exec_recursive others else [])
    ++ (if use_direct direct recursive then [exec_direct] else []).

(** crypto_assumptions/unfolding.rs 133-155. *)
Definition msg_cond_axiom (s : pstep) : formula :=
  let tau := into_formula s in
  mk_forall (ps_vars s)
    (fimp (happens tau)
       (fand (meq (ev_cond (mac MCondition tau)) (ev_cond (ps_cond s)))
             (meq (ev_msg (mac MMessage tau)) (ev_msg (ps_msg s))))).

(** problem/step.rs 255-265: the parameters are taken to be the variables 1 to arity. *)
Definition apply_message (s : pstep) (args : list formula) : option formula :=
  apply_substitution (seq 1 (length (ps_vars s))) args (ps_msg s).
Definition apply_condition (s : pstep) (args : list formula) : option formula :=
  apply_substitution (seq 1 (length (ps_vars s))) args (ps_cond s).
