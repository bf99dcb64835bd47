(** Which formulas the propagation of evaluations is meant for. *)
From Coq Require Import List Arith Bool.
From Verif Require Import Syntax_Model Semantics_Spec Sort_Model Evaluate_Model Evaluate_Spec.
Import ListNotations.

Section Spec.
  (** Output sorts, evaluated sorts, symbolic quantifiers, functions of the problem, sorts of the variables by id. *)
  Context (osort : fsym -> option sort) (evs : list sort) (table : nat -> option quantifier) (funs : list pfun) (G : nat -> sort).

  (** A function evaluation stops at. *)
  Definition opaque (h : fsym) : Prop :=
    match h with
    | Fuser _ | Fb _ | Fite => False
    | Fta c => c = TIte
    | Fquant k => match table k with Some q => match qt_inner q with IFind _ _ _ => True | _ => False end | None => False end
    | _ => True
    end.

  (** Well-sorted terms, without [forall], [exists] or variables of an evaluated sort above the first opaque function. *)
  Inductive plain : sort -> formula -> Prop :=
  | pl_var v : vsort v = G (vid v) -> is_evaluatable (vsort v) = false -> plain (vsort v) (FVar v)
  | pl_user i ss out args : In (PUser i ss out) funs -> Forall2 plain ss args -> plain out (FFun (Fuser i) args)
  | pl_conn c args : In (PConn c) funs -> Forall2 plain (conn_args c) args -> plain SCondition (FFun (Fta (sym_conn c)) args)
  | pl_eq a b : In PEq funs -> plain SMessage a -> plain SMessage b -> plain SCondition (FFun (Fta TEq) [a; b])
  | pl_opaque h s args : opaque h -> osort h = Some s -> plain s (FFun h args).

  Inductive well : formula -> Prop :=
  | we_var v : well (FVar v)
  | we_eval s t : In s evs -> plain s t -> well (FFun (Feval s) [t])
  | we_fun h args : (forall s, h <> Feval s) -> Forall well args -> well (FFun h args)
  | we_q q vs b : Forall (fun v => vsort v = G (vid v)) vs -> well b -> well (FQ q vs b).

  (** Structures where evaluation means what it should and functions return elements of their sort. *)
  Record evaluation (M : structure) : Prop := {
    ev_means : exists w, Forall (means evs M w) funs;
    ev_booleans : conditions_are_booleans evs M;
    ev_dom : forall h s ds, osort h = Some s -> dom M s (fint M h ds)
  }.
  Definition typed_env (M : structure) (rho : env M) : Prop := forall i, dom M (G i) (rho i).
End Spec.

(** Below the leading quantifiers. *)
Fixpoint matrix (f : formula) : formula := match f with FQ _ _ b => matrix b | _ => f end.
Definition is_evaluation (f : formula) : Prop := match f with FFun (Feval _) _ => True | _ => False end.
