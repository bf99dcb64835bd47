(** The subterm search: subterm/mod.rs [PreprocessTermIterator] and the functions that start it. *)
From Coq Require Import List Arith Bool.
From Verif Require Import Syntax_Model Traversal_Model Subst_Model Order_Model Macro_Model Unify_Model Graph_Model Expander_Model Exists_Model.
Import ListNotations.

(** Derived [==] of formulas (formula/formula/formula.rs 28-36); variables compare by id (formula/variable.rs 16-47). *)
Fixpoint rich_eqb (f g : formula) {struct f} : bool :=
  match f, g with
  | FVar v, FVar w => var_eqb v w
  | FFun s l, FFun t r =>
      fsym_eqb s t && (fix go l r := match l, r with
                                     | [], [] => true
                                     | a :: l', b :: r' => rich_eqb a b && go l' r'
                                     | _, _ => false
                                     end) l r
  | FQ q vs b, FQ q' vs' b' => quant_eqb q q' && list_eqb var_eqb vs vs' && rich_eqb b b'
  | _, _ => false
  end.

(** unifier.rs 206-217 [is_unifying_to_variable]. *)
Definition is_unifying_to_variable (u : ustate) : option (nat * formula) :=
  match u with ([], [p]) => Some p | _ => None end.
(** unifier.rs [one_variable_unifier]. *)
Definition one_variable_unifier (v : var) (m : formula) : ustate := ([(vid v, m)], []).

(** subterm/kind.rs: one symbol for Vampire, otherwise one symbol for each sort. *)
Inductive skind : Type := KVampire (i : nat) | KRegular (funs : list (sort * nat)).

(** logic_formula/src/outers/owned_pile.rs 35-46, with a step that may panic ([None], as is the lack of fuel). *)
Section Partial_Pile.
  Context {U P : Type} (step : formula -> P -> option (list (content U P))).
  Fixpoint ppile_next (fuel : nat) (pile : list (content U P)) : option (option (U * list (content U P))) :=
    match fuel with
    | O => None
    | S n => match pile with
             | [] => Some None
             | Resutl r :: rest => Some (Some (r, rest))
             | Next f p :: rest =>
                 match step f p with None => None | Some pushed => ppile_next n (rev pushed ++ rest) end
             end
    end.
  Fixpoint ppile_collect (fuel : nat) (pile : list (content U P)) : option (list U) :=
    match fuel with
    | O => None
    | S n => match ppile_next fuel pile with
             | None => None
             | Some None => Some []
             | Some (Some (r, rest)) => match ppile_collect n rest with None => None | Some l => Some (r :: l) end
             end
    end.
End Partial_Pile.

Section Search.
  (** [get_sort] of sorted.rs, [None] when it fails; the sort of the search (its [aux]); the realm's answer to [is_sound_in_smt];
      the protocol; fuel for the unifier; where the search goes next ([nexts] of subterm/traits.rs 31-64: all the arguments
      for the default search of traits.rs 105-130, see Crypto_Model for others). *)
  Context (get_sort : formula -> option sort) (aux_sort : sort) (sound : bool) (kind : skind)
    (steps : list pstep) (anc : mref -> option ancestors) (tq : nat -> ta_quant) (mfuel : nat)
    (nexts : formula -> list formula).

  (** subterm/mod.rs 433-456 [f_a]. *)
  Definition f_a (x m : formula) : option formula :=
    if negb sound then Some TRUE
    else match kind with
         | KVampire i => Some (FFun (Fsubterm i) [x; m])
         | KRegular funs =>
             match get_sort m with
             | None => None
             | Some s => match find (fun p => sort_eqb (fst p) s) funs with
                         | Some p => Some (FFun (Fsubterm (snd p)) [x; m])
                         | None => None
                         end
             end
         end.

  (** subterm/traits.rs 105-130 [DefaultAuxSubterm::var_eval_and_next]. *)
  Definition unified (m : formula) : bool :=
    match get_sort m with Some s => sort_eqb aux_sort s | None => true end.
  (** subterm/traits.rs 31-64 [is_subterm_and_next]; the outer [None]: the unifier does not end. *)
  Definition is_subterm (x m : formula) : option (option ustate) :=
    if unified m
    then match x with FVar v => Some (Some (one_variable_unifier v m)) | _ => mgu mfuel x m end
    else Some None.

  (** subterm/mod.rs 812-832: the guard of a result. *)
  Definition result_guard (x f : formula) (keep_guard : bool) (st : sstate) (u : ustate) : option formula :=
    let guard :=
      match is_unifying_to_variable u with
      | Some (_, g) => if rich_eqb g x then match f_a x f with Some a => Some [a] | None => None end else as_equalities get_sort u
      | None => as_equalities get_sort u
      end in
    match guard with
    | None => None
    | Some l => Some (ands (l ++ (if keep_guard then match ss_guard st with Some c => [c] | None => [] end else [])))
    end.

  (** subterm/mod.rs 793-840 [next]. *)
  Definition search_step (x : formula) (keep_guard : bool) (f : formula) (st : sstate) : option (list (content disjunct sstate)) :=
    match unfold steps anc tq (f, st) with
    | None => None
    | Some us =>
        match is_subterm x f with
        | None => None
        | Some ou =>
            match (match ou with
                   | None => Some []
                   | Some u => match result_guard x f keep_guard st u with None => None | Some g => Some [Resutl (ss_bound st, g)] end
                   end) with
            | None => None
            | Some res => Some (map (fun u => Next (fst u) (snd u)) us ++ res ++ map (fun a => Next a st) (nexts f))
            end
        end
    end.

  (** subterm/mod.rs 393-431 [preprocess_terms]; the last entry of the vector is the top of the pile. *)
  Definition preprocess_terms (fuel : nat) (x : formula) (ms : list (formula * list var)) (keep_guard : bool) (fl : uflags)
      : option (list disjunct) :=
    ppile_collect (search_step x keep_guard) fuel (rev (map (fun m => Next (fst m) (mkSt fl (snd m) None)) ms)).
  (** subterm/mod.rs 355-391 [preprocess_term]. *)
  Definition preprocess_term (fuel : nat) (x m : formula) (bvars : list var) (keep_guard : bool) (fl : uflags) : option (list disjunct) :=
    preprocess_terms fuel x [(m, bvars)] keep_guard fl.
  (** subterm/mod.rs 331-348 [preprocess_term_to_formula]. *)
  Definition preprocess_term_to_formula (scmp : sort -> sort -> comparison) (fuel : nat) (x m : formula) (bvars : list var)
      (keep_guard : bool) (fl : uflags) : option formula :=
    option_map (into_exist_formula scmp) (preprocess_term fuel x m bvars keep_guard fl).

  (** subterm/mod.rs 249-290 [generate_special_functions_assertions], for one function of signature [sorts]; [max_var] is the
      protocol's. *)
  Definition special_assertion (scmp : sort -> sort -> comparison) (fuel max_var : nat) (fl : uflags) (keep_guard : bool)
      (fn : fsym) (sorts : list sort) : option formula :=
    let mv := max_var + 1 in
    let x := mkVar mv aux_sort in
    let vars := sorts_to_variables (mv + 1) sorts in
    let ff := FFun fn (map FVar vars) in
    match preprocess_term_to_formula scmp fuel (FVar x) ff [] keep_guard fl, f_a (FVar x) ff with
    | Some f, Some a => Some (mk_forall (vars ++ [x]) (fimp a f))
    | _, _ => None
    end.
End Search.
