(** Independent specification of traversals: subterm positions are paths of child indices. *)
From Coq Require Import List Arith Bool.
From Verif Require Import Syntax_Model.
Import ListNotations.

(** [at_path f p g]: following the child indices [p] from [f] leads to [g]. *)
Inductive at_path : formula -> list nat -> formula -> Prop :=
| at_here f : at_path f [] f
| at_fun s args i p a g :
    nth_error args i = Some a -> at_path a p g -> at_path (FFun s args) (i :: p) g
| at_quant q vs b p g :
    at_path b p g -> at_path (FQ q vs b) (0 :: p) g.

(** [binds_above f p i]: some quantifier strictly above position [p] of [f] binds id [i]. *)
Inductive binds_above : formula -> list nat -> nat -> Prop :=
| ba_here q vs b p i v : In v vs -> vid v = i -> binds_above (FQ q vs b) (0 :: p) i
| ba_quant q vs b p i : binds_above b p i -> binds_above (FQ q vs b) (0 :: p) i
| ba_fun s args k a p i :
    nth_error args k = Some a -> binds_above a p i -> binds_above (FFun s args) (k :: p) i.

(** [out] lists, without repetition and without omission, the positions of [f] that satisfy [keep]
    with what [val] says about each. *)
Definition enumerates {U} (f : formula) (keep : list nat -> formula -> U -> Prop) (out : list U) : Prop :=
  exists ps : list (list nat),
    NoDup ps /\
    length ps = length out /\
    (forall n p u, nth_error ps n = Some p -> nth_error out n = Some u ->
       exists g, at_path f p g /\ keep p g u) /\
    (forall p g u, at_path f p g -> keep p g u -> In p ps).
