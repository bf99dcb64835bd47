(** The evaluation axioms: problem/general_assertions/evaluate.rs. *)
From Coq Require Import List Arith Bool.
From Verif Require Import Syntax_Model Subst_Model Sort_Model.
Import ListNotations.

(** formula/function/inner/term_algebra/connective.rs 28-37 [BaseConnective]. *)
Inductive base_conn : Type := BAnd | BOr | BNot | BImplies | BIff | BTrue | BFalse.
(** The symbolic function of a connective. *)
Definition sym_conn (c : base_conn) : taconn :=
  match c with BAnd => TAnd | BOr => TOr | BNot => TNot | BImplies => TImplies | BIff => TIff | BTrue => TTrue | BFalse => TFalse end.
(** connective.rs 66-77 [evaluated]. *)
Definition conn_evaluated (c : base_conn) : conn :=
  match c with BAnd => CAnd | BOr => COr | BNot => CNot | BImplies => CImplies | BIff => CEq | BTrue => CTrue | BFalse => CFalse end.
(** connective.rs 91-97 and 113-123: the sorts of the arguments. *)
Definition conn_args (c : base_conn) : list sort :=
  match c with BNot => [SCondition] | BTrue | BFalse => [] | _ => [SCondition; SCondition] end.

(** term_algebra/quantifier.rs 24-36 [InnerQuantifier], 73-79 [Quantifier]. *)
Inductive inner_quant : Type :=
| IForall (content : formula)
| IExists (content : formula)
| IFind (condition success failure : formula).
Record quantifier : Type := mkQuantifier { qt_bound : list var; qt_free : list var; qt_inner : inner_quant }.

(** The functions of a problem, as [generate] tells them apart (evaluate.rs 196-215). *)
Inductive pfun : Type :=
| PUser (i : nat) (args : list sort) (out : sort)
| PIte
| PEq
| PConn (c : base_conn)
| PQuant (k : nat) (q : quantifier)
| POther.

(** formula/file_descriptior/axioms.rs: plain axioms and rewrite rules. *)
Inductive eaxiom : Type :=
| ABase (f : formula)
| ARewrite (vars : list var) (pre post : formula).

Section Evaluate.
  (** Output sorts of functions; the sorts with an evaluation function (the keys of [Evaluator.functions]). *)
  Context (osort : fsym -> option sort) (evs : list sort).

  (** formula/sort/sorted.rs [get_sort]. *)
  Definition term_sort (f : formula) : option sort :=
    match f with FVar v => Some (vsort v) | FFun s _ => osort s | FQ _ _ _ => Some SBool end.

  (** formula/function/inner/evaluate.rs 51-77 [eval], [try_eval]. *)
  Definition ev (f : formula) : option formula :=
    match term_sort f with
    | None => None
    | Some s => Some (if existsb (sort_eqb s) evs then FFun (Feval s) [f] else f)
    end.
  (** [ev] of a variable: its sort is known. *)
  Definition ev_var (v : var) : formula := if existsb (sort_eqb (vsort v)) evs then FFun (Feval (vsort v)) [FVar v] else FVar v.

  (** evaluate.rs 104-113. *)
  Definition identity_axiom (s : sort) : eaxiom :=
    let x := mkVar 1 s in ABase (mk_forall [x] (meq (FFun (Feval s) [FVar x]) (FVar x))).

  (** evaluate.rs 138-165. *)
  Definition function_axiom (i : nat) (args : list sort) : option eaxiom :=
    let vars := sorts_to_variables 0 args in
    match ev (FFun (Fuser i) (map FVar vars)) with
    | None => None
    | Some pre => Some (ARewrite vars pre (FFun (Fuser_eval i) (map ev_var vars)))
    end.

  (** evaluate.rs 169-194: the premises compare the first variables with themselves. *)
  Definition legacy_axiom (i : nat) (args : list sort) : option eaxiom :=
    let vars1 := sorts_to_variables 0 args in
    let vars2 := map (fun v => var_add v (length vars1)) vars1 in
    let premise := ands (map (fun p => meq (ev_var (fst p)) (ev_var (fst p))) (combine vars1 vars2)) in
    match ev (FFun (Fuser i) (map FVar vars1)), ev (FFun (Fuser i) (map FVar vars2)) with
    | Some a, Some b => Some (ABase (mk_forall (vars1 ++ vars2) (fimp premise (meq a b))))
    | _, _ => None
    end.

  (** evaluate.rs 204-209. *)
  Definition ite_axiom : option eaxiom :=
    let c := mkVar 0 SCondition in let l := mkVar 1 SMessage in let r := mkVar 2 SMessage in
    match ev (FFun (Fta TIte) [FVar c; FVar l; FVar r]) with
    | None => None
    | Some a => Some (ABase (mk_forall [c; l; r] (meq a (FFun Fite (map ev_var [c; l; r])))))
    end.

  (** evaluate.rs 227-232. *)
  Definition eq_axiom : option eaxiom :=
    let a := mkVar 0 SMessage in let b := mkVar 1 SMessage in
    match ev (FFun (Fta TEq) [FVar a; FVar b]) with
    | None => None
    | Some e => Some (ABase (mk_forall [a; b] (meq e (meq (ev_var a) (ev_var b)))))
    end.

  (** evaluate.rs 233-254. *)
  Definition conn_axiom (c : base_conn) : option eaxiom :=
    match c with
    | BNot =>
        let a := mkVar 0 SCondition in
        match ev (FFun (Fta TNot) [FVar a]) with
        | None => None
        | Some e => Some (ABase (mk_forall [a] (fimp e (fnot (ev_var a)))))
        end
    | _ =>
        let args := sorts_to_variables 0 (conn_args c) in
        match ev (FFun (Fta (sym_conn c)) (map FVar args)) with
        | None => None
        | Some e => Some (ABase (mk_forall args (meq e (FFun (Fb (conn_evaluated c)) (map ev_var args)))))
        end
    end.

  (** function.rs 193-208: the new skolems have the sorts of the bound variables. *)
  Definition skolem_sort (n : nat) (bound : list var) (f : fsym) : option sort :=
    match f with
    | Fskolem i => if Nat.leb n i then option_map vsort (nth_error bound (i - n)) else osort f
    | _ => osort f
    end.
End Evaluate.

Section Generate.
  Context (osort : fsym -> option sort) (evs : list sort).

  (** evaluate.rs 257-338 [generate_quantifier]; [n] is the next free skolem (function.rs 193-208). *)
  Definition quant_axioms (n k : nat) (q : quantifier) : option (list eaxiom * nat) :=
    let free := qt_free q in
    let bound := qt_bound q in
    match ev osort evs (FFun (Fquant k) (map FVar free)) with
    | None => None
    | Some e =>
        match qt_inner q with
        | IForall c => match ev osort evs c with
                       | None => None
                       | Some c' => Some ([ABase (mk_forall free (fimp e (mk_forall bound c')))], n)
                       end
        | IExists c => match ev osort evs c with
                       | None => None
                       | Some c' => Some ([ABase (mk_forall free (fimp e (mk_exists bound c')))], n)
                       end
        | IFind c l r =>
            let skolems := map Fskolem (seq n (length bound)) in
            let s := frozen_ov (combine (map vid bound) (map (fun f => FFun f (map FVar free)) skolems)) in
            let ss := skolem_sort osort n bound in
            match sapply s c, sapply s l, sapply s r with
            | Some cs, Some ls, Some rs =>
                match ev osort evs c, ev ss evs cs, ev ss evs ls, ev ss evs rs with
                | Some c', Some cs', Some ls', Some rs' =>
                    Some ([ABase (mk_forall free (for_ (mk_forall bound (fnot c')) cs'));
                           ABase (mk_forall free (meq e (FFun Fite [cs'; ls'; rs'])))], n + length bound)
                | _, _, _, _ => None
                end
            | _, _, _ => None
            end
        end
    end.

  (** evaluate.rs 196-215: the loop over the functions. *)
  Fixpoint loop (n : nat) (fs : list pfun) : option (list eaxiom) :=
    match fs with
    | [] => Some []
    | f :: fs' =>
        match (match f with
               | PUser _ _ _ | POther => Some ([], n)
               | PIte => option_map (fun a => ([a], n)) (ite_axiom osort evs)
               | PEq => option_map (fun a => ([a], n)) (eq_axiom osort evs)
               | PConn c => option_map (fun a => ([a], n)) (conn_axiom osort evs c)
               | PQuant k q => quant_axioms n k q
               end) with
        | None => None
        | Some (l, n') => match loop n' fs' with None => None | Some l' => Some (l ++ l') end
        end
    end.

  (** evaluate.rs 48-60: the user functions; the assertion on their sorts. *)
  Fixpoint relevant (fs : list pfun) : option (list (nat * list sort)) :=
    match fs with
    | [] => Some []
    | PUser i args out :: fs' =>
        if is_evaluatable out
        then match relevant fs' with None => None | Some l => Some ((i, args) :: l) end
        else None
    | _ :: fs' => relevant fs'
    end.

  (** evaluate.rs 36-215 [generate], the assertions only; [n] is the next free skolem. *)
  Definition generate (r : realm) (no_bitstring legacy : bool) (n : nat) (fs : list pfun) : option (list eaxiom) :=
    match relevant fs with
    | None => None
    | Some us =>
        match (match r with
               | REvaluated => Some (map identity_axiom evs)
               | RSymbolic =>
                   match (if no_bitstring then Some [] else mapM (fun u => function_axiom osort evs (fst u) (snd u)) us),
                         (if legacy then mapM (fun u => legacy_axiom osort evs (fst u) (snd u)) us else Some []) with
                   | Some a, Some b => Some (a ++ b)
                   | _, _ => None
                   end
               end) with
        | None => None
        | Some a => match loop n fs with None => None | Some b => Some (a ++ b) end
        end
    end.
End Generate.
