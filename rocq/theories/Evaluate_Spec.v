(** What evaluation should be. *)
From Coq Require Import List Arith Bool.
From Verif Require Import Syntax_Model Traversal_Spec Semantics_Spec Order_Spec Binding_Proofs Expander_Spec Sort_Model Evaluate_Model.
Import ListNotations.

Section Spec.
  Context (evs : list sort) (M : structure).

  (** The value of an element of a sort: itself when the sort is not evaluated. *)
  Definition value (s : sort) (d : D M) : D M := if existsb (sort_eqb s) evs then fint M (Feval s) [d] else d.
  Definition truth (d : D M) : Prop := dtest M (value SCondition d) = true.
  (** A content of a quantifier at values for its free and bound variables. *)
  Definition at_ (q : quantifier) (f : formula) (rho : env M) (fs ds : list (D M)) : D M :=
    eval f (bindv (bindv rho (qt_free q) fs) (qt_bound q) ds).

  (** Evaluation gives the symbolic functions their intended meaning. [w] chooses what [find] finds. *)
  Definition means (w : nat -> list (D M) -> list (D M)) (f : pfun) : Prop :=
    match f with
    | PUser i args out =>
        forall ds, args_of M args ds ->
          value out (fint M (Fuser i) ds) = fint M (Fuser_eval i) (map (fun p => value (fst p) (snd p)) (combine args ds))
    | PIte =>
        forall c l r, args_of M [SCondition; SMessage; SMessage] [c; l; r] ->
          (truth c -> value SMessage (fint M (Fta TIte) [c; l; r]) = value SMessage l) /\
          (~ truth c -> value SMessage (fint M (Fta TIte) [c; l; r]) = value SMessage r)
    | PEq =>
        forall a b, args_of M [SMessage; SMessage] [a; b] ->
          value SCondition (fint M (Fta TEq) [a; b]) = dinj M (deq M (value SMessage a) (value SMessage b))
    | PConn c =>
        forall ds, args_of M (conn_args c) ds ->
          value SCondition (fint M (Fta (sym_conn c)) ds) =
          dinj M (match c, map (fun d => dtest M (value SCondition d)) ds with
                  | BAnd, [a; b] => andb a b
                  | BOr, [a; b] => orb a b
                  | BNot, [a] => negb a
                  | BImplies, [a; b] => implb a b
                  | BIff, [a; b] => Bool.eqb a b
                  | BTrue, _ => true
                  | _, _ => false
                  end)
    | PQuant k q =>
        forall rho fs, typed (qt_free q) fs ->
        match qt_inner q with
        | IForall c => truth (fint M (Fquant k) fs) <-> (forall ds, typed (qt_bound q) ds -> truth (at_ q c rho fs ds))
        | IExists c => ~ truth (fint M (Fquant k) fs) <-> (forall ds, typed (qt_bound q) ds -> ~ truth (at_ q c rho fs ds))
        | IFind c l r =>
            typed (qt_bound q) (w k fs) /\
            (* either the choice satisfies the condition and the success branch is taken there *)
            ((truth (at_ q c rho fs (w k fs)) /\ value SMessage (fint M (Fquant k) fs) = value SMessage (at_ q l rho fs (w k fs))) \/
            (* or nothing satisfies it, and the other branch is taken *)
             ((forall ds, typed (qt_bound q) ds -> ~ truth (at_ q c rho fs ds)) /\
              value SMessage (fint M (Fquant k) fs) = value SMessage (eval r (bindv rho (qt_free q) fs))))
        end
    | POther => True
    end.

  (** What the axioms say of a function: one direction only for the negation and the quantifiers; the values [ws] that [find]
      takes are those of the skolems. *)
  Definition forced (f : pfun) : Prop :=
    match f with
    | PConn BNot => forall d, dom M SCondition d -> truth (fint M (Fta TNot) [d]) -> ~ truth d
    | PQuant k q =>
        match qt_inner q with
        | IForall c => forall rho fs ds, typed (qt_free q) fs -> typed (qt_bound q) ds -> truth (fint M (Fquant k) fs) ->
            truth (at_ q c rho fs ds)
        | IExists c => forall rho fs, typed (qt_free q) fs -> truth (fint M (Fquant k) fs) ->
            ~ (forall ds, typed (qt_bound q) ds -> ~ truth (at_ q c rho fs ds))
        | IFind c l r => forall rho fs, typed (qt_free q) fs ->
            (exists ws, length ws = length (qt_bound q) /\ truth (at_ q c rho fs ws) /\
               value SMessage (fint M (Fquant k) fs) = value SMessage (at_ q l rho fs ws)) \/
            ((forall ds, typed (qt_bound q) ds -> ~ truth (at_ q c rho fs ds)) /\
             value SMessage (fint M (Fquant k) fs) = value SMessage (eval r (bindv rho (qt_free q) fs)))
        end
    | PUser _ _ _ => True
    | f => means (fun _ _ => []) f
    end.

  (** A truth value is the value of a condition: evaluated conditions are booleans. *)
  Definition conditions_are_booleans : Prop := forall d, dom M SCondition d -> value SCondition d = dinj M (dtest M (value SCondition d)).
End Spec.

(** What the parser guarantees of the functions. *)
Definition no_skolem (f : formula) : Prop := forall p i args, ~ at_path f p (FFun (Fskolem i) args).
(** A content that is a variable is one of the variables of the quantifier. *)
Definition own_var (vs : list var) (f : formula) : Prop := match f with FVar v => In v vs | _ => True end.
Definition declared (osort : fsym -> option sort) (f : pfun) : Prop :=
  match f with
  | PUser i _ out => osort (Fuser i) = Some out /\ is_evaluatable out = true
  | PIte => osort (Fta TIte) = Some SMessage
  | PEq => osort (Fta TEq) = Some SCondition
  | PConn c => osort (Fta (sym_conn c)) = Some SCondition
  | PQuant k q =>
      let vs := qt_free q ++ qt_bound q in
      match qt_inner q with
      | IForall c | IExists c =>
          osort (Fquant k) = Some SCondition /\ closed_over vs c /\ no_skolem c /\ term_sort osort c = Some SCondition
      | IFind c l r =>
          osort (Fquant k) = Some SMessage /\ closed_over vs c /\ closed_over vs l /\ closed_over (qt_free q) r /\
          own_var vs c /\ own_var vs l /\ own_var (qt_free q) r /\ no_skolem c /\ no_skolem l /\ no_skolem r /\
          term_sort osort c = Some SCondition /\ term_sort osort l = Some SMessage /\ term_sort osort r = Some SMessage
      end
  | POther => True
  end.

(** A rewrite rule holds when both sides are equal. *)
Definition axiom_holds {M : structure} (a : eaxiom) (rho : env M) : Prop :=
  match a with
  | ABase f => holds f rho
  | ARewrite vars pre post => forall ds, typed vars ds -> eval pre (bindv rho vars ds) = eval post (bindv rho vars ds)
  end.

(** The same structure with other skolems. *)
Definition with_skolems (M : structure) (sk : nat -> list (D M) -> D M) : structure :=
  mkStructure (D M) (dom M) (dinj M) (dtest M) (dtest_inj M) (deq M) (deq_spec M) (all_ M) (all_spec M)
    (fun f ds => match f with Fskolem i => sk i ds | _ => fint M f ds end).
