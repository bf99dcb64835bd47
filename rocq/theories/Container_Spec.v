(** What users of the container rely on, in terms of what is observed. *)
From Coq Require Import List Arith Ascii.
From Verif Require Import Smt_Model Container_Model.
Import ListNotations.

Section Spec.
  Variable V : Type.

  (** The first value given to [r], if any. *)
  Fixpoint given (es : list (event V)) (r : nat) : option V :=
    match es with
    | [] => None
    | EAlloc r' (Some v) :: es' | EInit r' v _ :: es' => if Nat.eq_dec r' r then Some v else given es' r
    | _ :: es' => given es' r
    end.
  Definition allocated (es : list (event V)) (r : nat) : Prop := exists v, In (EAlloc r v) es.
  Fixpoint fresh_names (es : list (event V)) : list text :=
    match es with [] => [] | EFresh n :: es' => n :: fresh_names es' | _ :: es' => fresh_names es' end.

  (** A reference is used only after it has been allocated. *)
  Fixpoint proper (known : list nat) (es : list (event V)) : Prop :=
    match es with
    | [] => True
    | EAlloc r _ :: es' => proper (r :: known) es'
    | EInit r _ _ :: es' | ERead r _ :: es' => In r known /\ proper known es'
    | EFresh _ :: es' => proper known es'
    end.

  (** The program asking [n] times for a fresh name. *)
  Fixpoint asking (n : nat) (base : text) : prog V unit :=
    match n with 0 => Ret tt | S n' => Fresh base (fun _ => asking n' base) end.

  (** [r] is a function named [n]. *)
  Definition function_named (name_of : V -> text) (st : store V) (n : text) (r : nat) : Prop :=
    exists v, nth_error (cells V st) r = Some (BFunction, Some v) /\ name_of v = n.

  Definition new_container : store V := mkStore [] 0.
End Spec.
