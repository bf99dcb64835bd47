(** The explicit-stack traversals of crates/logic_formula. *)
From Coq Require Import List Arith Bool.
From Verif Require Import Syntax_Model.
Import ListNotations.

(** crates/logic_formula/src/outers/mod.rs [Content]: a stack entry is a pending result or a pending formula. *)
Inductive content (U P : Type) : Type :=
| Resutl (r : U)
| Next (f : formula) (p : P).
Arguments Resutl {U P}.
Arguments Next {U P}.

(** formula/formula/formula.rs 304-327 [destruct]: the children of a node. *)
Definition children (f : formula) : list formula :=
  match f with
  | FVar _ => []
  | FFun _ args => args
  | FQ _ _ b => [b]
  end.

Section Pile.
  Context {U P S : Type}.
  (** crates/logic_formula/src/traits.rs 85-93 [FormulaIterator::next]: from the iterator's state, the current
      formula and its passing value, the new state and what is pushed, in the order it is pushed. *)
  Variable step : S -> formula -> P -> S * list (content U P).

  (** crates/logic_formula/src/outers/owned_pile.rs 35-46 [OwnedPile::next].
      The stack's head is the top, so a push sequence [l] gives [rev l ++ pile].
      [None] : the fuel was exhausted; [Some None] : the iterator is finished. *)
  Fixpoint pile_next (fuel : nat) (st : S) (pile : list (content U P))
    : option (option (U * S * list (content U P))) :=
    match fuel with
    | O => None
    | Datatypes.S n =>
        match pile with
        | [] => Some None
        | Resutl r :: rest => Some (Some (r, st, rest))
        | Next f p :: rest =>
            let (st', pushed) := step st f p in
            pile_next n st' (rev pushed ++ rest)
        end
    end.

  (** Repeated calls to [next] until it answers [None]: what a [for] loop or [collect] sees. *)
  Fixpoint pile_collect (fuel : nat) (st : S) (pile : list (content U P)) : option (list U) :=
    match fuel with
    | O => None
    | Datatypes.S n =>
        match pile_next fuel st pile with
        | None => None
        | Some None => Some []
        | Some (Some (r, st', rest)) =>
            match pile_collect n st' rest with
            | None => None
            | Some l => Some (r :: l)
            end
        end
    end.

  (** crates/logic_formula/src/traits.rs 23-28, 115-120 [iter_with] / [with]. *)
  Definition iter_with (fuel : nat) (f : formula) (st : S) (init : P) : option (list U) :=
    pile_collect fuel st [Next f init].
End Pile.

(** crates/logic_formula/src/iterators.rs 20-34 [UsedVariableIterator]. *)
Definition used_step (_ : unit) (f : formula) (_ : unit) : unit * list (content var unit) :=
  (tt, map (fun a => Next a tt) (children f) ++
       match f with FVar v => [Resutl v] | _ => [] end).

(** crates/logic_formula/src/iterators.rs 40-51 [DepthIterator]. *)
Definition depth_step (_ : unit) (f : formula) (d : nat) : unit * list (content nat nat) :=
  (tt, Resutl d :: map (fun a => Next a (d + 1)) (children f)).

(** crates/logic_formula/src/iterators.rs 59-91 [FreeVariableIterator]; the state is [bvars]. *)
Definition free_step (bvars : list var) (f : formula) (p : nat) : list var * list (content var nat) :=
  let bvars := firstn p bvars in
  match f with
  | FVar v => (bvars, if existsb (fun b => var_eqb b v) bvars then [] else [Resutl v])
  | FFun _ args => (bvars, map (fun a => Next a p) args)
  | FQ _ vs b =>
      let bvars := bvars ++ vs in
      (bvars, [Next b (length bvars)])
  end.

(** crates/logic_formula/src/iterators.rs 105-116 [AllTermsIterator]. *)
Definition all_step (_ : unit) (f : formula) (_ : unit) : unit * list (content formula unit) :=
  (tt, Resutl f :: map (fun a => Next a tt) (children f)).

(** crates/logic_formula/src/traits.rs 30-43 and iterators.rs: the four public traversals. *)
Definition used_vars (fuel : nat) (f : formula) : option (list var) := iter_with used_step fuel f tt tt.
Definition free_vars (fuel : nat) (f : formula) : option (list var) := iter_with free_step fuel f [] 0.
Definition depths (fuel : nat) (f : formula) : option (list nat) := iter_with depth_step fuel f tt 0.
Definition all_terms (fuel : nat) (f : formula) : option (list formula) := iter_with all_step fuel f tt tt.

(** crates/logic_formula/src/iterators.rs 8-17 [UsedVariableIterator::with]: a traversal of several formulas;
    the vector of formulas is the initial pile, so the last formula is on top. *)
Definition used_vars_with (fuel : nat) (fs : list formula) : option (list var) :=
  pile_collect used_step fuel tt (rev (map (fun f => Next f tt) fs)).
