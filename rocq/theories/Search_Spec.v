(** What a subterm search should find. *)
From Coq Require Import List Arith Bool.
From Verif Require Import Syntax_Model Traversal_Model Traversal_Spec Semantics_Spec Subst_Model Order_Model Order_Spec Macro_Model Binding_Proofs
  Graph_Model Expander_Model Expander_Spec Exists_Model.
Import ListNotations.

(** The terms the recursion can reach: the next terms, in the same state, and what terms unfold to. *)
Inductive visits (steps : list pstep) (anc : mref -> option ancestors) (tq : nat -> ta_quant) (nexts : formula -> list formula) :
    formula * sstate -> formula * sstate -> Prop :=
| vi_here e : visits steps anc tq nexts e e
| vi_child f st a e : In a (nexts f) -> visits steps anc tq nexts (a, st) e -> visits steps anc tq nexts (f, st) e
| vi_unfold f st us u e : unfold steps anc tq (f, st) = Some us -> In u us -> visits steps anc tq nexts u e -> visits steps anc tq nexts (f, st) e.

Section Occurrences.
  Context (steps : list pstep) (tq : nat -> ta_quant) (M : structure).

  (** [occurs_now rho f h vs]: at the values [rho], the term [f] contains an instance of the function [h] at the values [vs], possibly
      inside a symbolic quantifier. *)
  Inductive occurs_now : env M -> formula -> fsym -> list (D M) -> Prop :=
  | on_here rho h args : occurs_now rho (FFun h args) h (map (fun a => eval a rho) args)
  | on_arg rho s args a h vs : In a args -> occurs_now rho a h vs -> occurs_now rho (FFun s args) h vs
  | on_quant rho k args f ds h vs : In f (tq_contents (tq k)) -> typed (tq_bound (tq k)) ds ->
      occurs_now (bindv (bindv rho (tq_free (tq k)) (map (fun a => eval a rho) args)) (tq_bound (tq k)) ds) f h vs ->
      occurs_now rho (FFun (Fquant k) args) h vs.
  (** The same, also looking into what was sent or tested strictly before the time of an input. *)
  Inductive occurs_at : env M -> formula -> fsym -> list (D M) -> Prop :=
  | oa_now rho f h vs : occurs_now rho f h vs -> occurs_at rho f h vs
  | oa_input rho f e s c ds h vs : occurs_now rho f (Fmacro MInput) [e] -> In s steps -> typed (ps_vars s) ds ->
      c = ps_msg s \/ c = ps_cond s -> tholds M Flt [inst M (ps_fun s) ds; e] ->
      occurs_at (bindv rho (ps_vars s) ds) c h vs -> occurs_at rho f h vs.

  (** Inside a step, inputs are read at the time of the step or before. *)
  Definition reads_past : Prop :=
    forall s ds c rho e, In s steps -> typed (ps_vars s) ds -> c = ps_msg s \/ c = ps_cond s ->
      occurs_now (bindv rho (ps_vars s) ds) c (Fmacro MInput) [e] ->
      e = inst M (ps_fun s) ds \/ tholds M Flt [e; inst M (ps_fun s) ds].
  Definition lt_trans_ : Prop := forall a b c, tholds M Flt [a; b] -> tholds M Flt [b; c] -> tholds M Flt [a; c].
End Occurrences.

(** The ids of a term. *)
Definition within (f : formula) (ids : list nat) : Prop := forall v, occurs v f -> In (vid v) ids.
(** What a result says at [rho]: the variable searched for has the value of the term, and the term is reached. *)
Definition says {M : structure} (v : var) (f : formula) (keep : bool) (st : sstate) (g : formula) (rho : env M) : Prop :=
  holds g rho <-> rho (vid v) = eval f rho /\ (keep = true -> guard_holds st rho).
