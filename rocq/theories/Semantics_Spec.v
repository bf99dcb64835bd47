(** Meaning of formulas, written independently of the code (specification side).
    A structure has one carrier; [dom s] is the part a variable of sort [s] ranges over.
    [all_] and [deq] decide bounded quantification and equality, and are specified by reflection; so formulas
    have a value and no classical axiom is needed. A variable's value is looked up by its id, as everywhere in
    the code ([Variable]'s equality only looks at ids). *)
From Coq Require Import List Arith Bool Lia.
From Verif Require Import Syntax_Model Syntax_Proofs Traversal_Spec.
Import ListNotations.

Record structure : Type := mkStructure {
  D : Type;
  dom : sort -> D -> Prop;
  dinj : bool -> D;
  dtest : D -> bool;
  dtest_inj : forall b, dtest (dinj b) = b;
  deq : D -> D -> bool;
  deq_spec : forall a b, deq a b = true <-> a = b;
  all_ : sort -> (D -> bool) -> bool;
  all_spec : forall s p, all_ s p = true <-> (forall d, dom s d -> p d = true);
  fint : fsym -> list D -> D
}.

Section Eval.
  Variable M : structure.

  Definition env : Type := nat -> D M.
  Definition upd (rho : env) (i : nat) (d : D M) : env := fun j => if Nat.eqb j i then d else rho j.

  Definition ex_ (s : sort) (p : D M -> bool) : bool := negb (all_ M s (fun d => negb (p d))).

  (** Standard meaning of the connectives; anything else, and connectives with a wrong number of arguments,
      is left to the structure. *)
  Definition app (f : fsym) (ds : list (D M)) : D M :=
    match f, ds with
    | Fb CTrue, [] => dinj M true
    | Fb CFalse, [] => dinj M false
    | Fb CAnd, _ => dinj M (forallb (dtest M) ds)
    | Fb COr, _ => dinj M (existsb (dtest M) ds)
    | Fb CNot, [a] => dinj M (negb (dtest M a))
    | Fb CImplies, [a; b] => dinj M (implb (dtest M a) (dtest M b))
    | Fb CEq, [a; b] => dinj M (deq M a b)
    | Fite, [c; a; b] => if dtest M c then a else b
    | _, _ => fint M f ds
    end.

  (** [forall]/[exists] over a list of variables, outermost first. *)
  Fixpoint quantify (q : quant) (vs : list var) (rho : env) (k : env -> bool) : bool :=
    match vs with
    | [] => k rho
    | v :: vs' =>
        match q with
        | QForall => all_ M (vsort v) (fun d => quantify q vs' (upd rho (vid v) d) k)
        | QExists => ex_ (vsort v) (fun d => quantify q vs' (upd rho (vid v) d) k)
        end
    end.

  Fixpoint eval (f : formula) (rho : env) {struct f} : D M :=
    match f with
    | FVar v => rho (vid v)
    | FFun s args => app s (map (fun a => eval a rho) args)
    | FQ q vs b => dinj M (quantify q vs rho (fun rho' => dtest M (eval b rho')))
    end.

  Definition holds (f : formula) (rho : env) : Prop := dtest M (eval f rho) = true.
End Eval.

Arguments eval {M}.
Arguments holds {M}.
Arguments upd {M}.
Arguments quantify {M}.
Arguments app {M}.
Arguments ex_ {M}.

(** Free occurrence of an id. *)
Definition occurs_free (i : nat) (f : formula) : Prop :=
  exists p v, at_path f p (FVar v) /\ vid v = i /\ ~ binds_above f p i.

(** Occurrence of a variable leaf anywhere. *)
Definition occurs (v : var) (f : formula) : Prop := exists p, at_path f p (FVar v).

(** Boolean structure with [n+1] elements [0..n]; truth values are 0 and 1. Used for examples and countermodels.
    Every sort ranges over all elements. *)
Definition fin_all (n : nat) (p : nat -> bool) : bool := forallb p (seq 0 (S n)).
