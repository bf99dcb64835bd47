(** The updates of converted actions, as they are read by CryptoVampire. *)
From Coq Require Import List Arith Bool String Ascii.
From Verif Require Import Syntax_Model Traversal_Spec Semantics_Spec Sort_Model Order_Model Macro_Model Parser_Model Parser_Spec Source_Model Smt_Model Squirrel_Model Convert_Model Convert_Spec
  Meaning_Spec Dump_Model Dump_Spec Dump_Source_Model Dump_Meaning_Spec.
Import ListNotations.
Local Open Scope list_scope.

(** The terms of the assignments of the item do not apply functions to more arguments than they take. *)
Definition counted_updates (env : penv) (i : Source_Model.item) : Prop :=
  match i with
  | IStep a => forall g, In g (sa_asgs a) -> counted env (aa_term g) /\ forall t, In t (aa_args g) -> counted env t
  | _ => True
  end.

Section Updates.
  Context (wide : text -> bool) (table : nat -> jsort) (d : dump) (names operators : path -> option jfun) (macros : path -> option jmacro).

  (** The variables of the arguments that are not indices of the action: the update is for all their values. *)
  Definition universal (x : jaction) (u : jupdate) (v : jvar) : Prop := (exists t, In t (u_args u) /\ occurs v t) /\ ~ In v (a_indices (x_action x)).

  (** The values of the variables in an update: the indices have those of the parameters of the step, the universal variables [vs] those of the fresh
      variables, and the other names are constants. *)
  Record update_environment {M : structure} (env : penv) (code : text -> name) (x : jaction) (vs : list jvar) (params fresh : list var)
      (rho : Semantics_Spec.env M) (e : text -> D M * D M) : Prop := mkUpdateEnvironment {
    ue_index : forall k v w, nth_error (a_indices (x_action x)) k = Some v -> nth_error params k = Some w -> e (j_name v) = stands (vsort w) (rho (vid w));
    ue_fresh : forall k v w, nth_error vs k = Some v -> nth_error fresh k = Some w -> e (j_name v) = stands (vsort w) (rho (vid w));
    ue_other : forall y, ~ In y (map j_name (a_indices (x_action x) ++ vs)) -> e y = constant env code (sanitize wide KVariable y)
  }.

  (** The terms are proper, the indices have distinct names, and the names stay apart. *)
  Record proper_update (systems : list text) (s : text) (x : jaction) (u : jupdate) : Prop := mkProperUpdate {
    pu_terms : forall t, In t (u_body u :: u_args u) -> systems_of systems t /\ no_diff_tuple names operators t /\ proper_term wide names operators macros (side s t);
    pu_distinct : NoDup (map j_name (a_indices (x_action x)));
    pu_names : let used y := In y (map j_name (a_indices (x_action x))) \/ (exists v, universal x u v /\ y = j_name v) \/
                             exists t, In t (u_body u :: u_args u) /\ variable_of macros (side s t) y in
      forall y z, used y -> used z -> sanitize wide KVariable y = sanitize wide KVariable z -> y = z
  }.

  (** The function of the state macro is that of the cell. *)
  Definition is_cell (env : penv) (code : text -> name) (p : path) (m : mcell) : Prop :=
    exists fc, e_functions env (code (sanitize wide KMacro (path_text p))) = Some fc /\ fc_sym fc = Fcell (ce_fun m).
  Definition is_step (env : penv) (code : text -> name) (x : jaction) (q : pstep) : Prop :=
    exists fc, e_functions env (code (sanitize wide KStep (path_text (a_name (x_action x))))) = Some fc /\ fc_sym fc = Fstep (ps_fun q).
  (** The variables have the sorts of the variables of the problem. *)
  Definition same_sort (env : penv) (code : text -> name) (v : jvar) (s : sort) : Prop :=
    exists t, sort_name wide d (table (j_sort v)) t /\ e_sorts env (code t) = Some s.

  (** [y] is the update [u] of [x]: for all values of the universal variables, the cell at the arguments becomes the body. *)
  Definition update_means {M : structure} (env : penv) (code : text -> name) (S : source (D M * D M)) (s : text) (x : jaction) (u : jupdate) (y : Macro_Model.assignment) : Prop :=
    exists vs, (forall v, In v vs <-> universal x u v) /\ NoDup (map j_name vs) /\ Forall2 (fun v w => same_sort env code v (vsort w)) vs (as_fresh y) /\
      NoDup (map vid (ps_vars (as_step y) ++ as_fresh y)) /\
      forall rho : Semantics_Spec.env M, (exists e, update_environment env code x vs (ps_vars (as_step y)) (as_fresh y) rho e) /\
        forall e, update_environment env code x vs (ps_vars (as_step y)) (as_fresh y) rho e ->
          (forall k t f, nth_error (u_args u) k = Some t -> nth_error (as_args y) k = Some f -> eval f rho = fst (jvalue (global_inputs macros) S e (side s t))) /\
          eval (as_content y) rho = fst (jvalue (global_inputs macros) S e (side s (u_body u))).

  (** The updates of the state macro [p] by the actions of a list. *)
  Definition updates_of (p : path) (xs : list (path * jaction)) : list (jaction * jupdate) :=
    flat_map (fun e => map (pair (snd e)) (filter (fun u => if list_eq_dec ascii_dec (sanitize wide KMacro (path_text (u_symb u))) (sanitize wide KMacro (path_text p)) then true else false)
      (x_updates (snd e)))) xs.
  (** The assignment [y] to a cell with parameters of the given sorts is the update [snd w] of the action [fst w]. *)
  Definition is_update (csort : nat -> option text) (env : penv) (qs : list tquant) (code : text -> name) (ps : list pstep) (sorts : list sort) (systems : list text) (s : text)
      (w : jaction * jupdate) (y : Macro_Model.assignment) : Prop :=
    In (as_step y) ps /\ is_step env code (fst w) (as_step y) /\
    Forall2 (fun v z => same_sort env code v (vsort z)) (a_indices (x_action (fst w))) (ps_vars (as_step y)) /\
    List.length (as_args y) = Nat.min (List.length (u_args (snd w))) (List.length sorts) /\
    forall (M : structure) qsem mval (S : source (D M * D M)), unfolds env qsem mval -> extensional M qsem -> respects qsem qs ->
      agree wide csort names operators macros S (reading env qsem mval code) ->
      proper_update systems s (fst w) (snd w) -> update_means env code S s (fst w) (snd w) y.
End Updates.
