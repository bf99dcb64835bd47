(** What the iteration over lemmas, the declarations and the construction of a protocol should be. *)
From Coq Require Import List Arith Bool.
From Verif Require Import Syntax_Model Semantics_Spec Problem_Model.
Import ListNotations.

(** [q] holds wherever the formulas of [l] do, in the structures of a class. *)
Definition follows (K : structure -> Prop) (l : list formula) (q : formula) : Prop :=
  forall (M : structure), K M -> forall rho : env M, (forall a, In a l -> holds a rho) -> holds q rho.

(** The problem that iterating yields at position [k]. *)
Fixpoint yielded (k : nat) (it : piter) : option problem :=
  match k with
  | 0 => fst (pbl_next it)
  | S k' => match pbl_next it with (Some _, it') => yielded k' it' | (None, _) => None end
  end.

Section Declared.
  Context {F : Type}.
  (** The functions that a declaration declares. *)
  Definition declares (d : declaration F) : list F :=
    match d with
    | DSort _ | DAlias _ _ => []
    | DDataTypes l => flat_map snd l
    | DFun f => [f]
    | DSubterm f _ => [f]
    end.
  Definition declares_sort (d : declaration F) : list nat :=
    match d with DSort s => [s] | DAlias _ s => [s] | DDataTypes l => map fst l | DFun _ | DSubterm _ _ => [] end.
  (** The order of the kinds of declarations. *)
  Definition rank (d : declaration F) : nat :=
    match d with DSort _ => 0 | DAlias _ _ => 1 | DDataTypes _ => 2 | DFun _ => 3 | DSubterm _ _ => 4 end.
End Declared.
