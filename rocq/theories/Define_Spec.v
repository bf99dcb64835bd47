(** What the axioms about subterm relations should say. *)
From Coq Require Import List Arith Bool.
From Verif Require Import Syntax_Model Semantics_Spec Order_Spec Order_Model Macro_Model Graph_Model Search_Model Crypto_Spec.
Import ListNotations.

(** The symbol of a relation on terms of sort [s]. *)
Inductive symbol : skind -> sort -> nat -> Prop :=
| sy_vampire i s : symbol (KVampire i) s i
| sy_regular l s i l' : ~ In s (map fst l) -> symbol (KRegular (l ++ (s, i) :: l')) s i.

Section Occurrence.
  Context (M : structure).

  (** [x] is below [m] for the relation, [m] being of sort [s]. *)
  Definition below (k : skind) (s : sort) (x m : D M) : Prop := exists i, symbol k s i /\ tholds M (Fsubterm i) [x; m].

  (** Being [m] or inside of [m], seen through the functions [funs]. *)
  Inductive inside (funs : list (fsym * list sort)) (x : D M) : D M -> Prop :=
  | in_same : inside funs x x
  | in_under f ss ds d : In (f, ss) funs -> args_of M ss ds -> In d ds -> inside funs x d -> inside funs x (app f ds).
  (** The functions build terms: their values are never the same by chance. *)
  Definition free_over (funs : list (fsym * list sort)) : Prop :=
    forall f ss ds g ts es, In (f, ss) funs -> In (g, ts) funs -> args_of M ss ds -> args_of M ts es -> app f ds = app g es -> f = g /\ ds = es.

  (** What is said of a function [f] that is looked through: what is below [f(ds)] is below an argument, or is [f(ds)]. *)
  Definition passes (below_ : sort -> D M -> D M -> Prop) (sort_ : sort) (f : fsym) (ins : list sort) (out : sort) : Prop :=
    forall ds x, args_of M ins ds -> dom M sort_ x -> below_ out x (app f ds) ->
      (exists j s d, nth_error ins j = Some s /\ nth_error ds j = Some d /\ below_ s x d) \/ out = sort_ /\ x = app f ds.
  (** What is said of a function that is not: what is below [f(ds)] is an argument or [f(ds)]. *)
  Definition stops (below_ : sort -> D M -> D M -> Prop) (sort_ : sort) (f : fsym) (ins : list sort) (out : sort) : Prop :=
    forall ds x, args_of M ins ds -> dom M sort_ x -> below_ out x (app f ds) ->
      (exists j, nth_error ins j = Some sort_ /\ nth_error ds j = Some x) \/ out = sort_ /\ x = app f ds.
  Definition nothing_below (below_ : sort -> D M -> D M -> Prop) (sort_ s : sort) : Prop :=
    forall x m, dom M sort_ x -> dom M s m -> ~ below_ s x m.

  (** A message that has the value of a name contains it. *)
  Definition names_fresh (inside_ : D M -> D M -> Prop) : Prop :=
    forall n m, dom M SName n -> dom M SMessage m -> value M (named M n) = value M m -> inside_ n m.
  Definition names_distinct : Prop :=
    forall n n', dom M SName n -> dom M SName n' -> value M (named M n) = value M (named M n') -> n = n'.
End Occurrence.
Arguments passes {M}.
Arguments stops {M}.
Arguments nothing_below {M}.
Arguments names_fresh {M}.

(** Variables have their sort. *)
Definition sorts_of (get_sort : formula -> option sort) : Prop := forall v, get_sort (FVar v) = Some (vsort v).
(** The functions return values of sort [out]. *)
Definition outs_of (get_sort : formula -> option sort) (funs : list (fsym * list sort)) (out : fsym -> sort) : Prop :=
  forall f ins args, In (f, ins) funs -> get_sort (FFun f args) = Some (out f).
Definition well_sorted (M : structure) (funs : list (fsym * list sort)) (out : fsym -> sort) : Prop :=
  forall f ins ds, In (f, ins) funs -> args_of M ins ds -> dom M (out f) (app f ds).
(** Sorts of bitstrings, truth values and indices: not of terms. *)
Inductive plain_sort : sort -> Prop := ps_bool : plain_sort SBool | ps_bits : plain_sort SBitstring | ps_eval i : plain_sort (SUserEval i) | ps_index i : plain_sort (SIndex i).

(** The functions of terms: connectives, functions, casts of names, and those that hide something. *)
Inductive term_function : fsym -> Prop :=
| tf_ta c : term_function (Fta c) | tf_user i : term_function (Fuser i) | tf_cast s : term_function (Fcast s)
| tf_quant i : term_function (Fquant i) | tf_cell i : term_function (Fcell i) | tf_macro m : term_function (Fmacro m).
Inductive hides : fsym -> Prop := hi_quant i : hides (Fquant i) | hi_cell i : hides (Fcell i) | hi_macro m : hides (Fmacro m).

(** [made funs out s m ls]: the term [m] of sort [s] is built with the functions [funs] on the terms [ls]. *)
Inductive made (funs : list (fsym * list sort)) (out : fsym -> sort) : sort -> formula -> list (sort * formula) -> Prop :=
| ma_leaf s t : made funs out s t [(s, t)]
| ma_fun f ins args ls : In (f, ins) funs -> made_all funs out ins args ls -> made funs out (out f) (FFun f args) ls
with made_all (funs : list (fsym * list sort)) (out : fsym -> sort) : list sort -> list formula -> list (sort * formula) -> Prop :=
| ma_nil : made_all funs out [] [] []
| ma_cons s ss a args l ls : made funs out s a l -> made_all funs out ss args ls -> made_all funs out (s :: ss) (a :: args) (l ++ ls).

(** What the axioms say of a relation [R] on values of sort [sort_]: it goes through the functions of [funs], but stops at [ignored];
    nothing is below a value that is not a term. Of the functions that hide something it says nothing. *)
Definition goes_through {M : structure} (R : sort -> D M -> D M -> Prop) (sort_ : sort) (ignored : list fsym) (funs : list (fsym * list sort)) (out : fsym -> sort)
    (sorts : list sort) : Prop :=
  (forall f ins, In (f, ins) funs -> term_function f -> ~ hides f -> ~ In f ignored -> passes R sort_ f ins (out f)) /\
  (forall s, In s sorts -> plain_sort s -> s <> sort_ -> nothing_below R sort_ s).
Definition stops_at {M : structure} (R : sort -> D M -> D M -> Prop) (sort_ : sort) (ignored : list fsym) (funs : list (fsym * list sort)) (out : fsym -> sort) : Prop :=
  forall f ins, In (f, ins) funs -> In f ignored -> stops R sort_ f ins (out f).

(** The terms of a protocol with their variables: conditions and messages of the steps, contents of the assignments. *)
Inductive protocol_term (steps : list pstep) (cells : list mcell) : formula -> list var -> Prop :=
| pt_cond s : In s steps -> protocol_term steps cells (ps_cond s) (ps_vars s)
| pt_msg s : In s steps -> protocol_term steps cells (ps_msg s) (ps_vars s)
| pt_cell c a : In c cells -> In a (ce_asgs c) -> protocol_term steps cells (as_content a) (ps_vars (as_step a) ++ as_fresh a).
