(** What cells, [exec] and the macros should be in an execution. *)
From Coq Require Import List Arith Bool.
From Verif Require Import Syntax_Model Semantics_Spec Order_Spec.
Import ListNotations.

Section MacroSpec.
  Context (M : structure).
  Definition vmsg (d : D M) : D M := fint M (Feval SMessage) [d].
  Definition vcond (d : D M) : D M := fint M (Feval SCondition) [d].
  (** The truth value of the condition, and of [exec], at a point. *)
  Definition cond_at (d : D M) : bool := dtest M (vcond (fint M (Fmacro MCondition) [d])).
  Definition exec_at (d : D M) : bool := dtest M (vcond (fint M (Fmacro MExec) [d])).

  (** An assignment seen from outside: for values [ds] of its parameters it happens at the step instance [w_step ds],
      and writes [w_value ds] at the arguments [w_args ds]. *)
  Record write : Type := mkWrite {
    w_sorts : list sort;
    w_step : list (D M) -> D M;
    w_args : list (D M) -> list (D M);
    w_value : list (D M) -> D M
  }.
  Definition cell_at (c : nat) (es : list (D M)) (t : D M) : D M := fint M (Fcell c) (es ++ [t]).

  (** The cell holds what was assigned. *)
  Definition cell_written (c : nat) (ss : list sort) (ws : list write) : Prop :=
    forall w ds, In w ws -> args_of M (w_sorts w) ds -> is_time M (w_step w ds) -> args_of M ss (w_args w ds) ->
      cell_at c (w_args w ds) (w_step w ds) = w_value w ds.
  (** The (evaluated) cell is unchanged where nothing is assigned. *)
  Definition cell_kept (c : nat) (ss : list sort) (ws : list write) : Prop :=
    forall es t, args_of M ss es -> is_time M t ->
      (forall w ds, In w ws -> args_of M (w_sorts w) ds -> ~ (t = w_step w ds /\ es = w_args w ds)) ->
      vmsg (cell_at c es t) = vmsg (cell_at c es (fint M Fpred [t])).

  (** [exec] at a point of the trace: the conditions of all points up to it. *)
  Definition exec_correct (tr : list (D M)) : Prop :=
    forall k d, nth_error tr k = Some d ->
      (exec_at d = true <-> forall j e, j <= k -> nth_error tr j = Some e -> cond_at e = true).
End MacroSpec.
