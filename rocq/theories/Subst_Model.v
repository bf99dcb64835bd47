(** Substitutions and fresh ids. [None] always stands for a panic of the code. *)
From Coq Require Import List Arith Bool.
From Verif Require Import Syntax_Model Traversal_Model.
Import ListNotations.

Fixpoint mapM {A B} (f : A -> option B) (l : list A) : option (list B) :=
  match l with
  | [] => Some []
  | a :: l' => match f a with
               | None => None
               | Some b => match mapM f l' with None => None | Some bs => Some (b :: bs) end
               end
  end.

(** formula/manipulation/substitution/substitution.rs 7-10: a substitution is its [get]. *)
Definition subst : Type := var -> option formula.

(** substitution.rs 13-23 [Substitution::apply]: binders are copied, the body is substituted everywhere. *)
Fixpoint sapply (s : subst) (f : formula) : option formula :=
  match f with
  | FVar v => s v
  | FFun g args =>
      match (fix go l := match l with
             | [] => Some []
             | a :: l' => match sapply s a with
                          | None => None
                          | Some b => match go l' with None => None | Some bs => Some (b :: bs) end
                          end
             end) args with
      | None => None
      | Some args' => Some (FFun g args')
      end
  | FQ q vs b => match sapply s b with None => None | Some b' => Some (FQ q vs b') end
  end.

(** substitution.rs 57-63 [Chain]. *)
Definition chain (a b : subst) : subst :=
  fun v => match a v with None => None | Some t => sapply b t end.

(** substitution.rs 67-83 [Translate]. *)
Definition translate (i : nat) : subst := fun v => Some (FVar (mkVar (vid v + i) (vsort v))).

(** formula/formula/formula.rs 130-133 [translate_vars]. *)
Definition translate_vars (i : nat) (f : formula) : option formula := sapply (translate i) f.

(** variable_substitution/one_var.rs 63-83 (the trace-level sort check is ignored). *)
Definition one_var (id : nat) (t : formula) : subst :=
  fun v => if Nat.eqb (vid v) id then Some t else Some (FVar v).

(** variable_substitution/owned_var.rs 28-33 [maybe_get]. *)
Fixpoint maybe_get {T} (l : list (nat * T)) (id : nat) : option T :=
  match l with
  | [] => None
  | (i, t) :: l' => if Nat.eqb i id then Some t else maybe_get l' id
  end.

(** owned_var.rs 48-55 [add], release build. *)
Definition mv_add {T} (l : list (nat * T)) (id : nat) (t : T) : list (nat * T) := l ++ [(id, t)].

(** owned_var.rs 91-100. *)
Definition multiple (l : list (nat * formula)) : subst :=
  fun v => match maybe_get l (vid v) with Some t => Some t | None => Some (FVar v) end.

(** variable_substitution/ref_substitution.rs 140-149 [FrozenOVSubstF]: finds the pair, then asks it. *)
Definition frozen_ov (l : list (nat * formula)) : subst :=
  fun v => match find (fun ovs => Nat.eqb (fst ovs) (vid v)) l with
           | Some ovs => one_var (fst ovs) (snd ovs) v
           | None => Some (FVar v)
           end.

(** ref_substitution.rs 92-100, 151-160: variables to variables. *)
Definition frozen_var (l : list (nat * var)) : subst :=
  fun v => match find (fun ovs => Nat.eqb (fst ovs) (vid v)) l with
           | Some ovs => Some (FVar (snd ovs))
           | None => Some (FVar v)
           end.

(** ref_substitution.rs 162-172 [FrozenSubstF]: [zip_eq] panics when it reaches the end of only one list. *)
Fixpoint frozen_get (ids : list nat) (fs : list formula) (v : var) : option formula :=
  match ids, fs with
  | [], [] => Some (FVar v)
  | i :: ids', f :: fs' => if Nat.eqb i (vid v) then Some f else frozen_get ids' fs' v
  | _, _ => None
  end.
Definition frozen (ids : list nat) (fs : list formula) : subst := frozen_get ids fs.

(** ref_substitution.rs 49-65 [new_from]: asserts equal lengths. *)
Definition frozen_new (ids : list nat) (fs : list formula) : option subst :=
  if Nat.eqb (length ids) (length fs) then Some (frozen ids fs) else None.

(** formula/formula/formula.rs 60-85 [map]: bottom-up. *)
Fixpoint rmap (f : formula -> option formula) (t : formula) : option formula :=
  match t with
  | FVar _ => f t
  | FFun g args =>
      match (fix go l := match l with
             | [] => Some []
             | a :: l' => match rmap f a with
                          | None => None
                          | Some b => match go l' with None => None | Some bs => Some (b :: bs) end
                          end
             end) args with
      | None => None
      | Some args' => f (FFun g args')
      end
  | FQ q vs b => match rmap f b with None => None | Some b' => f (FQ q vs b') end
  end.

(** formula.rs 87-97 [apply]. *)
Definition rapply (f : var -> option formula) (t : formula) : option formula :=
  rmap (fun form => match form with FVar v => f v | _ => Some form end) t.

(** Position of the first match, as [Iterator::position]. *)
Fixpoint position (id : nat) (l : list nat) : option nat :=
  match l with
  | [] => None
  | i :: l' => if Nat.eqb i id then Some 0
               else match position id l' with None => None | Some k => Some (S k) end
  end.

(** formula.rs 99-124 [apply_some], [apply_substitution], release build; [fs[i]] panics out of bounds. *)
Definition apply_substitution (ids : list nat) (fs : list formula) (t : formula) : option formula :=
  rapply (fun v => match position (vid v) ids with
                   | Some i => nth_error fs i
                   | None => Some (FVar v)
                   end) t.

(** ** Fresh ids *)

(** [Iterator::max] over ids. *)
Definition ids_max (l : list nat) : option nat :=
  match l with [] => None | a :: l' => Some (fold_left Nat.max l' a) end.

(** formula/variable.rs 148-154 [max_var_or_max] over an iterator of variables; 140-146 [max_var]. *)
Definition max_var_or_max (vs : list var) (max : nat) : nat :=
  Nat.max max (match ids_max (map vid vs) with Some m => m | None => max end) + 1.
Definition max_var (vs : list var) : nat := max_var_or_max vs 0.

(** problem/problem/mod.rs 99-106 [Problem::max_var], [max_var_no_extras]: over the plain used-variable iterator. *)
Definition problem_max_var (fuel : nat) (fs : list formula) : option nat :=
  match used_vars_with fuel fs with None => None | Some vs => Some (max_var vs) end.

(** formula/variable.rs 84-94 [sorts_to_variables]. *)
Fixpoint sorts_to_variables (from : nat) (ss : list sort) : list var :=
  match ss with [] => [] | s :: ss' => mkVar from s :: sorts_to_variables (S from) ss' end.

(** ** Iterating through symbolic quantifiers *)

(** formula/function/inner/term_algebra/quantifier.rs 73-79 and 112-126: what a symbolic quantifier carries. *)
Record ta_quant : Type := mkTaQuant {
  tq_bound : list var;
  tq_free : list var;
  tq_contents : list formula
}.

Section Expander.
  (** function.rs 462-465 [as_quantifer]: the table of symbolic quantifiers. *)
  Variable tq : nat -> ta_quant.

  (** formula/formula/expanding_formula.rs 16-21 [Expander]: a formula and a substitution. *)
  Definition expander : Type := formula * list (var * formula).

  (** The head found by [destruct], 36-99. *)
  Inductive ehead := EVar (v : var) | EFun | EQuant.

  (** expanding_formula.rs 36-99 [destruct]. [None]: the recursion of line 61 exceeded the fuel.
      Note lines 83-95: the free variables are paired with the quantifier's *contents*, and the children
      are the *arguments*. *)
  Fixpoint edestruct (fuel : nat) (e : expander) : option (ehead * list expander) :=
    match fuel with
    | O => None
    | S n =>
        let (f, sub) := e in
        match f with
        | FQ _ _ b => Some (EQuant, [(b, sub)])
        | FVar v =>
            match find (fun p => var_eqb (fst p) v) (rev sub) with
            | Some (_, t) => edestruct n (t, sub)
            | None => Some (EVar v, [])
            end
        | FFun (Fquant k) args =>
            let sub' := sub ++ combine (tq_free (tq k)) (tq_contents (tq k)) in
            Some (EQuant, map (fun a => (a, sub')) args)
        | FFun _ args => Some (EFun, map (fun a => (a, sub)) args)
        end
    end.

  (** The pile loop of crates/logic_formula/src/outers/owned_pile.rs 35-46 with the used-variable iterator of
      crates/logic_formula/src/iterators.rs 20-34, over expanders. *)
  Fixpoint evars (fuel : nat) (pile : list expander) : option (list var) :=
    match fuel with
    | O => None
    | S n =>
        match pile with
        | [] => Some []
        | e :: rest =>
            match edestruct fuel e with
            | None => None
            | Some (h, cs) =>
                match evars n (rev cs ++ rest) with
                | None => None
                | Some vs => Some (match h with EVar v => v :: vs | _ => vs end)
                end
            end
        end
    end.

  (** formula/formula/arc.rs 153-157 [vars_iter] for [&ARichFormula]. *)
  Definition vars_iter (fuel : nat) (f : formula) : option (list var) := evars fuel [(f, [])].

  (** formula/variable.rs 164-172 and 148-154: [formulas.max_var_or_max(max)]. *)
  Definition formulas_max_var_or_max (fuel : nat) (fs : list formula) (max : nat) : option nat :=
    match mapM (vars_iter fuel) fs with
    | None => None
    | Some vss => Some (max_var_or_max (concat vss) max)
    end.
End Expander.
