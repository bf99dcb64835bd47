(** What unfolding a macro should give. *)
From Coq Require Import List Arith Bool.
From Verif Require Import Syntax_Model Traversal_Spec Semantics_Spec Subst_Model Order_Model Order_Spec Macro_Model Binding_Proofs Expander_Model.
Import ListNotations.

(** Every free id of the formulas is one of the variables. *)
Definition scoped (fs : list formula) (vs : list var) : Prop :=
  forall f i, In f fs -> occurs_free i f -> In i (map vid vs).
(** No quantifier of the evaluated logic inside (terms of a protocol only have symbolic quantifiers). *)
Definition plain (f : formula) : Prop := forall p q vs b, ~ at_path f p (FQ q vs b).

(** The variables already in use in a state are distinct and its guard only talks about them. *)
Definition state_ok (st : sstate) : Prop :=
  NoDup (map vid (ss_bound st)) /\ scoped (match ss_guard st with Some g => [g] | None => [] end) (ss_bound st).

Definition guard_holds {M : structure} (st : sstate) (rho : env M) : Prop :=
  match ss_guard st with Some g => holds g rho | None => True end.

(** The state [st'] uses the variables of [st] and the new ones, all distinct. *)
Definition adds (st st' : sstate) (new : list var) : Prop :=
  ss_bound st' = ss_bound st ++ new /\ NoDup (map vid (ss_bound st')).

(** [(g, st')] stands for all instances of [content], whose parameters are [params], that satisfy [reached]: the new
    variables are distinct from those in use, and for all values [ds] of them, the new term is [content] at [ds] and the
    new guard says that the old one holds and the instance is reached. *)
Definition represents (st : sstate) (params : list var) (content : formula) (u : formula * sstate)
    (reached : forall M : structure, env M -> list (D M) -> Prop) : Prop :=
  exists new, adds st (snd u) new /\ map vsort new = map vsort params /\
    forall (M : structure) (rho : env M) ds, typed new ds ->
      eval (fst u) (bindv rho new ds) = eval content (bindv rho params ds) /\
      (guard_holds (snd u) (bindv rho new ds) <-> guard_holds st rho /\ reached M rho ds).

(** Time points of a structure, read from the term they are given by. *)
Definition strictly_before (s : pstep) (origin : formula) (M : structure) (rho : env M) (ds : list (D M)) : Prop :=
  tholds M Flt [inst M (ps_fun s) (firstn (length (ps_vars s)) ds); eval origin rho].
Definition before_or_at (s : pstep) (origin : formula) (M : structure) (rho : env M) (ds : list (D M)) : Prop :=
  strictly_before s origin M rho ds \/ inst M (ps_fun s) (firstn (length (ps_vars s)) ds) = eval origin rho.
Definition is_the_point (s : pstep) (arg : formula) (M : structure) (rho : env M) (ds : list (D M)) : Prop :=
  eval arg rho = inst M (ps_fun s) (firstn (length (ps_vars s)) ds).

(** A term whose free variables are its distinct parameters. *)
Definition closed_over (params : list var) (f : formula) : Prop :=
  NoDup (map vid params) /\ scoped [f] params /\ plain f.
Definition asg_closed (a : assignment) : Prop := closed_over (ps_vars (as_step a) ++ as_fresh a) (as_content a).
Definition step_closed (s : pstep) : Prop := closed_over (ps_vars s) (ps_msg s) /\ closed_over (ps_vars s) (ps_cond s).

(** What may still be unfolded: inputs, respectively cells, no more; the rest as before. *)
Definition only_input_off (f f' : uflags) : Prop :=
  uf_input f' = false /\ uf_quant f' = uf_quant f /\ uf_cells f' = uf_cells f /\ uf_macros f' = uf_macros f /\ uf_exec f' = uf_exec f.
Definition only_cells_off (f f' : uflags) : Prop :=
  uf_cells f' = false /\ uf_quant f' = uf_quant f /\ uf_input f' = uf_input f /\ uf_macros f' = uf_macros f /\ uf_exec f' = uf_exec f.
Definition only_exec_off (f f' : uflags) : Prop :=
  uf_exec f' = false /\ uf_quant f' = uf_quant f /\ uf_input f' = uf_input f /\ uf_macros f' = uf_macros f /\ uf_cells f' = uf_cells f.
