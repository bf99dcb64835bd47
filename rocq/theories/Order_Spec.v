(** What an execution trace is, independently of the generated axioms. *)
From Coq Require Import List Arith Bool.
From Verif Require Import Syntax_Model Semantics_Spec.
Import ListNotations.

Section Trace.
  Context (M : structure).

  Definition tholds (f : fsym) (ds : list (D M)) : Prop := dtest M (fint M f ds) = true.
  Definition is_time (d : D M) : Prop := dom M SStep d.

  (** [tr] lists the time points of an execution in order; [u] is the one point standing for everything that did not
      happen. *)
  Record is_trace (init : D M) (tr : list (D M)) (u : D M) : Prop := mkTrace {
    tr_points : forall d, is_time d <-> In d tr \/ d = u;
    tr_undef : ~ In u tr;
    tr_once : NoDup tr;
    tr_first : nth_error tr 0 = Some init;
    tr_happens : forall d, is_time d -> (tholds Fhappens [d] <-> In d tr);
    tr_leq : forall a b, is_time a -> is_time b ->
      (tholds Fleq [a; b] <-> exists i j, nth_error tr i = Some a /\ nth_error tr j = Some b /\ i <= j);
    tr_lt : forall a b, is_time a -> is_time b ->
      (tholds Flt [a; b] <-> exists i j, nth_error tr i = Some a /\ nth_error tr j = Some b /\ i < j);
    tr_lt_bool : forall a b, is_time a -> is_time b -> exists t, fint M Flt [a; b] = dinj M t;
    tr_pred : forall i a b, nth_error tr i = Some a -> nth_error tr (S i) = Some b -> fint M Fpred [b] = a;
    tr_pred_init : fint M Fpred [init] = u;
    tr_pred_undef : fint M Fpred [u] = u
  }.

  (** A step seen from outside: its function and the sorts of its parameters. *)
  Definition inst (f : nat) (ds : list (D M)) : D M := fint M (Fstep f) ds.
  Definition args_of (ss : list sort) (ds : list (D M)) : Prop := Forall2 (fun s d => dom M s d) ss ds.

  (** Happening instances of distinct steps, or of one step at distinct indices, are distinct. *)
  Definition steps_distinct (sig : list (nat * list sort)) : Prop :=
    forall f ss g ss' ds ds', In (f, ss) sig -> In (g, ss') sig -> args_of ss ds -> args_of ss' ds' ->
      tholds Fhappens [inst f ds] -> inst f ds = inst g ds' -> f = g /\ ds = ds'.

  (** No happening point is different from all step instances (the constructive reading of "every happening point is
      an instance of a step"). *)
  Definition steps_exhaustive (sig : list (nat * list sort)) : Prop :=
    forall d, is_time d -> tholds Fhappens [d] ->
      ~ (forall f ss ds, In (f, ss) sig -> args_of ss ds -> d <> inst f ds).
End Trace.
