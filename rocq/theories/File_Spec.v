(** What a file that a solver can read is: the symbols and sorts in use are declared, once. *)
From Coq Require Import List Arith Bool.
From Verif Require Import Syntax_Model Sort_Model Evaluate_Model Problem_Model Problem_Spec File_Model.
From Verif Require Parser_Model.
Import ListNotations.

(** A symbol occurs in a formula. *)
Inductive uses (f : fsym) : formula -> Prop :=
| uses_head args : uses f (FFun f args)
| uses_arg g args a : In a args -> uses f a -> uses f (FFun g args)
| uses_body q vs b : uses f b -> uses f (FQ q vs b).
Definition axiom_uses (f : fsym) (a : eaxiom) : Prop :=
  match a with ABase g => uses f g | ARewrite _ l t => uses f l \/ uses f t end.
(** A sort is that of a bound variable. *)
Inductive quantifies (s : sort) : formula -> Prop :=
| quantifies_here q vs b v : In v vs -> vsort v = s -> quantifies s (FQ q vs b)
| quantifies_body q vs b : quantifies s b -> quantifies s (FQ q vs b)
| quantifies_arg g args a : In a args -> quantifies s a -> quantifies s (FFun g args).
Definition axiom_quantifies (s : sort) (a : eaxiom) : Prop :=
  match a with ABase g => quantifies s g | ARewrite vs l t => (exists v, In v vs /\ vsort v = s) \/ quantifies s l \/ quantifies s t end.

(** The symbols of the logic: the solver knows them. *)
Inductive logical : fsym -> Prop :=
| logical_connective c : logical (Fb c)
| logical_ite : logical Fite.

Definition declared (ds : list (declaration gsym)) (f : fsym) : Prop := exists d, In d ds /\ In (GF f) (declares d).
Definition declared_sort (ds : list (declaration gsym)) (s : sort) : Prop := s = SBool \/ exists d, In d ds /\ In (code s) (declares_sort d).

(** The parts of a problem only use its functions, the evaluations and its sorts. *)
Section Closed.
  Context (sig : fsym -> option (list sort * sort)) (table : nat -> option quantifier) (p : gen_problem).
  Definition known (f : fsym) : Prop := logical f \/ In f (gp_funs p) \/ exists s, f = Feval s /\ In s (gp_evs p).
  Definition within_known (g : formula) : Prop := (forall f, uses f g -> known f) /\ (forall s, quantifies s g -> In s (gp_sorts p)).
  Definition order_formulas (o : Parser_Model.ordering) : list formula :=
    Parser_Model.or_guard o :: match Parser_Model.or_kind o with Parser_Model.KLT a b | Parser_Model.KExclusive a b => [a; b] end.
  Definition quantifier_formulas (q : quantifier) : list formula :=
    match qt_inner q with IForall c | IExists c => [c] | IFind c l t => [c; l; t] end.
  Record closed_problem : Prop := mkClosed {
    cp_builtins : incl BUILT_IN_FUNCTIONS (gp_funs p);
    cp_sorts : incl BUILT_IN_SORTS (gp_sorts p);
    cp_evs : incl (gp_evs p) (gp_sorts p);
    cp_steps : forall s, In s (gp_steps p) -> In (Fstep (Order_Model.ps_fun s)) (gp_funs p) /\ forall v, In v (Order_Model.ps_vars s) -> In (vsort v) (gp_sorts p);
    cp_orders : forall o, In o (gp_orders p) -> (forall v, In v (Parser_Model.or_vars o) -> In (vsort v) (gp_sorts p)) /\ forall g, In g (order_formulas o) -> within_known g;
    cp_asserts : forall g, In g (gp_asserts p ++ [gp_query p]) -> within_known g;
    cp_quants : forall k q, In (Fquant k) (gp_funs p) -> table k = Some q ->
      (forall v, In v (qt_bound q ++ qt_free q) -> In (vsort v) (gp_sorts p)) /\ forall g, In g (quantifier_formulas q) -> within_known g;
    cp_users : forall i, In (Fuser i) (gp_funs p) -> sig (Fuser i) <> None;
    cp_sigs : forall f args out s, In f (gp_funs p) -> sig f = Some (args, out) -> In s (out :: args) -> In s (gp_sorts p)
  }.
  (** The sorts that are datatypes have a constructor, and evaluated sorts a sort. *)
  Record constructed : Prop := mkConstructed {
    cs_name : exists i args, In (Fname i) (gp_funs p) /\ sig (Fname i) = Some (args, SName);
    cs_message : sig (Fuser 0) = Some ([], SMessage);
    cs_condition : sig (Fta TTrue) = Some ([], SCondition);
    cs_user : forall i, In (SUserSym i) (gp_sorts p) -> exists j args, In (Fuser j) (gp_funs p) /\ sig (Fuser j) = Some (args, SUserSym i);
    cs_eval : forall i, In (SUserEval i) (gp_sorts p) -> In (SUserSym i) (gp_sorts p)
  }.
  (** Functions and sorts are listed once, and the functions are none of those that the generation adds. *)
  Record listed_once : Prop := mkOnce {
    lo_funs : NoDup (gp_funs p);
    lo_evs : NoDup (gp_evs p);
    lo_sorts : NoDup (gp_sorts p);
    lo_added : forall f, In f (gp_funs p) -> match f with Feval _ | Fuser_eval _ | Fskolem _ => False | _ => True end;
    (* names are of the sort of names, terms of a sort of terms *)
    lo_outs : forall f args s, In f (gp_funs p) -> sig f = Some (args, s) ->
      match f with
      | Fname _ => s = SName
      | Fta _ | Fcell _ | Fmacro _ | Fcast _ | Fquant _ | Fuser _ => s = SMessage \/ s = SCondition \/ exists i, s = SUserSym i
      | _ => True
      end
  }.
End Closed.
