(** Instances of terms in the free term algebra. *)
From Coq Require Import List Arith Bool.
From Verif Require Import Syntax_Model Traversal_Spec Semantics_Spec.
Import ListNotations.

(** Ground terms of the free algebra. *)
Inductive gterm : Type := G (f : fsym) (args : list gterm).

(** Quantifier-free terms. *)
Definition qfree (t : formula) : Prop := forall p q vs b, ~ at_path t p (FQ q vs b).

(** [inst s t g]: the ground term [g] is the instance of the quantifier-free term [t] under [s] (by id). *)
Inductive inst (s : nat -> gterm) : formula -> gterm -> Prop :=
| inst_var v : inst s (FVar v) (s (vid v))
| inst_fun f args gs : Forall2 (inst s) args gs -> inst s (FFun f args) (G f gs).

(** The two terms have a common instance. *)
Definition unifiable (l r : formula) : Prop := exists s g, inst s l g /\ inst s r g.

(** Every id occurs at most once. *)
Definition linear (t : formula) : Prop :=
  forall p p' v v', at_path t p (FVar v) -> at_path t p' (FVar v') -> vid v = vid v' -> p = p'.

Definition vars_apart (l r : formula) : Prop :=
  forall v w, occurs v l -> occurs w r -> vid v <> vid w.

Definition no_vars (t : formula) : Prop := forall v, ~ occurs v t.
