(** Unfolding of macros, cells and symbolic quantifiers during the search for subterms. *)
From Coq Require Import List Arith Bool.
From Verif Require Import Syntax_Model Subst_Model Order_Model Macro_Model Graph_Model.
Import ListNotations.

(** formula/utils/formula_expander.rs 27-42 [UnfoldFlags]. *)
Record uflags : Type := mkFlags {
  uf_quant : bool; uf_input : bool; uf_cells : bool; uf_macros : bool; uf_exec : bool }.

(** formula_expander.rs 53-64 [UnfoldingState]. *)
Record sstate : Type := mkSt {
  ss_flags : uflags;
  ss_bound : list var;
  ss_guard : option formula
}.

(** itertools [all_unique] on variables. Two variables with the same id and different sorts are equal but hash
    differently (formula/variable.rs 16-47), so the answer on them depends on the hasher; here they are not unique. *)
Fixpoint all_unique (l : list nat) : bool :=
  match l with [] => true | i :: l' => negb (existsb (Nat.eqb i) l') && all_unique l' end.

(** formula_expander.rs 83-101 [add_variables]; [None]: the assertion fails. *)
Definition add_variables (st : sstate) (vs : list var) : option sstate :=
  let bound := ss_bound st ++ vs in
  if all_unique (map vid bound) then Some (mkSt (ss_flags st) bound (ss_guard st)) else None.
(** formula_expander.rs 116-128 [add_condition]. *)
Definition add_condition (st : sstate) (vs : list var) (c : formula) : option sstate :=
  match add_variables st vs with
  | None => None
  | Some new => Some (mkSt (ss_flags new) (ss_bound new) (Some (match ss_guard new with Some f => fand f c | None => c end)))
  end.

(** formula_expander.rs 392-406 [make_collision_avoiding_subst]. *)
Definition collision_subst (vars base : list var) : list (nat * var) :=
  let m := match ids_max (map vid (base ++ vars)) with Some m => m | None => 0 end + 1 in
  map (fun v => (vid v, var_add v m)) (filter (fun v => existsb (Nat.eqb (vid v)) (map vid base)) vars).
(** ref_substitution.rs 93-99 [get_var]. *)
Definition get_var (l : list (nat * var)) (v : var) : var :=
  match find (fun o => Nat.eqb (fst o) (vid v)) l with Some o => snd o | None => v end.

(** problem/step.rs 272-280 [strict_before], [before]. *)
Definition strict_before (a b : formula) : formula := lt a b.
Definition before (a b : formula) : formula := for_ (strict_before a b) (meq a b).

Definition no_cells_flag (f : uflags) : uflags := mkFlags (uf_quant f) (uf_input f) false (uf_macros f) (uf_exec f).
Definition no_input_flag (f : uflags) : uflags := mkFlags (uf_quant f) false (uf_cells f) (uf_macros f) (uf_exec f).
Definition no_exec_flag (f : uflags) : uflags := mkFlags (uf_quant f) (uf_input f) (uf_cells f) (uf_macros f) false.

Section Unfold.
  Context (steps : list pstep) (anc : mref -> option ancestors) (tq : nat -> ta_quant).

  Definition unfolder : Type := formula * sstate.

  (** formula_expander.rs 210-241 [unfold_step_macro]; the content is the step's own term, as it is. *)
  Definition unfold_step_macro (st : sstate) (is_cond : bool) (args : list formula) : option (list unfolder) :=
    match args with
    | [arg] =>
        mapM (fun s =>
          let col := collision_subst (ps_vars s) (ss_bound st) in
          let nvars := map (get_var col) (ps_vars s) in
          match add_condition st nvars (meq arg (step_term s nvars)) with
          | None => None
          | Some st' => Some (if is_cond then ps_cond s else ps_msg s, st')
          end) steps
    | _ => None
    end.

  (** formula_expander.rs 327-356, for one assignment. *)
  Definition unfold_assignment (st : sstate) (is_input : bool) (origin : formula) (a : assignment) : option unfolder :=
    let vars := ps_vars (as_step a) in
    let col := collision_subst (vars ++ as_fresh a) (ss_bound st) in
    let step_f := step_term (as_step a) (map (get_var col) vars) in
    match add_condition st (map (get_var col) (vars ++ as_fresh a))
            (if is_input then strict_before step_f origin else before step_f origin) with
    | None => None
    | Some st' => match sapply (frozen_var col) (as_content a) with None => None | Some g => Some (g, st') end
    end.
  (** formula_expander.rs 357-387, for one step and one of its two terms. *)
  Definition unfold_step (st : sstate) (origin : formula) (s : pstep) (content : formula) : option unfolder :=
    let col := collision_subst (ps_vars s) (ss_bound st) in
    let nvars := map (get_var col) (ps_vars s) in
    match add_condition st nvars (strict_before (step_term s nvars) origin) with
    | None => None
    | Some st' => match sapply (frozen_var col) content with None => None | Some g => Some (g, st') end
    end.
  (** formula_expander.rs 308-389 [unfold_cell_or_input]; macro_ref.rs [is_input]. *)
  Definition unfold_cell_or_input (r : mref) (st : sstate) (args : list formula) : option (list unfolder) :=
    match anc r, rev args with
    | Some (mkAnc input cells), origin :: _ =>
        let is_input := match r with RInput => true | _ => false end in
        match mapM (unfold_assignment st is_input origin) (flat_map ce_asgs cells),
              (if input then mapM (fun '(s, f) => unfold_step st origin s f)
                                  (flat_map (fun s => [(s, ps_msg s); (s, ps_cond s)]) steps)
               else Some []) with
        | Some l1, Some l2 => Some (l1 ++ l2)
        | _, _ => None
        end
    | _, _ => None
    end.

  (** formula_expander.rs 268-300 [unfold_quantifier]. *)
  Definition unfold_quantifier (st : sstate) (q : ta_quant) (args : list formula) : option (list unfolder) :=
    match frozen_new (map vid (tq_free q)) args with
    | None => None
    | Some sub =>
        let col := collision_subst (tq_bound q) (tq_free q ++ ss_bound st) in
        match add_variables st (map (get_var col) (tq_bound q)) with
        | None => None
        | Some st' =>
            mapM (fun f => match sapply (frozen_var col) f with
                           | None => None
                           | Some g => match sapply sub g with None => None | Some h => Some (h, st') end
                           end) (tq_contents q)
        end
    end.

  (** formula_expander.rs 155-208 [unfold]. *)
  Definition unfold (u : unfolder) : option (list unfolder) :=
    let (f, st) := u in
    let fl := ss_flags st in
    match f with
    | FVar _ => Some []
    | FQ _ _ b => Some [(b, st)]
    | FFun (Fquant k) args => if uf_quant fl then unfold_quantifier st (tq k) args else Some []
    | FFun (Fcell c) args =>
        if uf_cells fl then unfold_cell_or_input (RCell c) (mkSt (no_cells_flag fl) (ss_bound st) (ss_guard st)) args else Some []
    | FFun (Fmacro MCondition) args => if uf_macros fl then unfold_step_macro st true args else Some []
    | FFun (Fmacro MMessage) args => if uf_macros fl then unfold_step_macro st false args else Some []
    | FFun (Fmacro MInput) args =>
        if uf_input fl then unfold_cell_or_input RInput (mkSt (no_input_flag fl) (ss_bound st) (ss_guard st)) args else Some []
    | FFun (Fmacro MExec) args =>
        if uf_exec fl then unfold_cell_or_input RExec (mkSt (no_exec_flag fl) (ss_bound st) (ss_guard st)) args else Some []
    | FFun _ _ => Some []
    end.
End Unfold.
