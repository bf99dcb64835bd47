(** The whole file of a problem, but for the cryptographic axioms: problem/problem/mod.rs 173-259, problem/general_assertions/order.rs
    and evaluate.rs. Paths are relative to /repo/crates/cryptovampire/src. *)
From Coq Require Import List Arith Bool.
From Verif Require Import Syntax_Model Subst_Model Sort_Model Order_Model Evaluate_Model Propagate_Model Problem_Model.
From Verif Require Parser_Model.
Import ListNotations.

(** The symbols that a file declares: those of formulas, and the function that a rewrite rule on a sort is printed with
    (formula/function/function.rs 137-139 [new_rewrite_function]). *)
Inductive gsym : Type := GF (f : fsym) | GRewrite (s : sort).
(** Sorts are keys of a map (problem/problem/mod.rs 195), in the order of their addresses; here in the order of a numbering. *)
Definition code (s : sort) : nat :=
  match s with
  | SBool => 0 | SCondition => 1 | SMessage => 2 | SBitstring => 3 | SName => 4 | SStep => 5
  | SUserSym i => 6 + 3 * i | SUserEval i => 7 + 3 * i | SIndex i => 8 + 3 * i
  end.

(** formula/function/builtin.rs 239-270 [BUILT_IN_FUNCTIONS]; [empty] is user function 0. *)
Definition BUILT_IN_FUNCTIONS : list fsym :=
  [Fb CAnd; Fta TAnd; Fuser 0; Fb CEq; Fta TEq; Fb CFalse; Fta TFalse; Fb CTrue; Fta TTrue; Fhappens; Fite; Fta TIte; Fta TIff; Fb CImplies;
   Fta TImplies; Fmacro MInput; Flt; Fgt; Fleq; Fcast SMessage; Fb CNot; Fta TNot; Fb COr; Fta TOr; Fpred; Fmacro MCondition;
   Fmacro MMessage; Fmacro MExec].
(** formula/sort/builtins.rs 21-23 [BUILT_IN_SORTS]. *)
Definition BUILT_IN_SORTS : list sort := [SBool; SCondition; SMessage; SBitstring; SStep; SName].

(** formula/function/function.rs 415-420 [is_builtin]. *)
Definition is_builtin (f : fsym) : bool := match f with Fb _ | Fite => true | _ => false end.
(** function.rs 443-448 [is_always_datatype]. *)
Definition is_always_datatype (f : fsym) : bool := match f with Fname _ => true | _ => false end.
(** function.rs [is_term_algebra]: formula/function/inner/term_algebra/mod.rs 25-34. *)
Definition is_term_algebra (f : fsym) : bool :=
  match f with Fta _ | Fcell _ | Fmacro _ | Fcast _ | Fquant _ | Fuser _ => true | _ => false end.
(** formula/sort/mod.rs 127-139 [is_datatype]. *)
Definition is_datatype (r : realm) (s : sort) : bool :=
  match s with
  | SName | SStep => true
  | SUserSym _ | SMessage | SCondition => match r with RSymbolic => true | REvaluated => false end
  | _ => false
  end.
(** sort/mod.rs 140-142 [is_solver_built_in]. *)
Definition is_solver_built_in (s : sort) : bool := match s with SBool => true | _ => false end.

(** problem/problem/mod.rs 42-62, the fields that matter here. *)
Record gen_problem : Type := mkGen {
  gp_sorts : list sort;
  gp_funs : list fsym;
  gp_evs : list sort;
  gp_steps : list pstep;
  gp_orders : list Parser_Model.ordering;
  gp_asserts : list formula;
  gp_query : formula
}.

Section File.
  (** Signatures, the contents of quantifiers, the options. *)
  Context (sig : fsym -> option (list sort * sort)) (table : nat -> option quantifier) (r : realm) (no_bitstring legacy : bool).

  Definition osort (f : fsym) : option sort := option_map snd (sig f).
  (** How [evaluate::generate] tells functions apart (evaluate.rs 49-60 and 196-215). *)
  Definition classify (f : fsym) : pfun :=
    match f with
    | Fuser i => match sig f with Some (args, out) => PUser i args out | None => POther end
    | Fta TIte => PIte
    | Fta TEq => PEq
    | Fta TAnd => PConn BAnd
    | Fta TOr => PConn BOr
    | Fta TNot => PConn BNot
    | Fta TImplies => PConn BImplies
    | Fta TIff => PConn BIff
    | Fta TTrue => PConn BTrue
    | Fta TFalse => PConn BFalse
    | Fquant k => match table k with Some q => PQuant k q | None => POther end
    | _ => POther
    end.

  (** problem/problem/mod.rs 184-218. *)
  Definition sort_declared (s : sort) : bool :=
    negb (is_datatype r s || is_solver_built_in s || is_evaluated s) && negb (sort_eqb s SCondition).
  Definition lift (p : fsym -> bool) (g : gsym) : bool := match g with GF f => p f | GRewrite _ => false end.
  Definition problem_decls (p : gen_problem) : option (list (declaration gsym)) :=
    Problem_Model.declare (lift is_builtin) (lift is_always_datatype) (lift is_term_algebra)
      (fun g => match g with GF f => option_map code (osort f) | GRewrite _ => None end)
      (match r with RSymbolic => true | REvaluated => false end)
      (fun _ => true) (map code (filter sort_declared (gp_sorts p))) (map GF (gp_funs p)).

  (** evaluate.rs 63-71: the sorts that have an evaluated sort, but for conditions. *)
  Definition relevant_sorts (ss : list sort) : list (sort * sort) :=
    flat_map (fun s => match maybe_evaluated_sort s with Some e => if sort_eqb e SBool then [] else [(s, e)] | None => [] end) ss.
  (** evaluate.rs 285-297: the skolem functions of the [find]s; [n] is the next free one. *)
  Fixpoint skolem_decls (n : nat) (fs : list pfun) : list (declaration gsym) :=
    match fs with
    | [] => []
    | PQuant _ q :: fs' =>
        match qt_inner q with
        | IFind _ _ _ => map (fun i => DFun (GF (Fskolem i))) (seq n (length (qt_bound q))) ++ skolem_decls (n + length (qt_bound q)) fs'
        | _ => skolem_decls n fs'
        end
    | _ :: fs' => skolem_decls n fs'
    end.
  (** evaluate.rs 36-215, the declarations. *)
  Definition evaluate_decls (n : nat) (p : gen_problem) : option (list (declaration gsym)) :=
    match relevant (map classify (gp_funs p)) with
    | None => None
    | Some us =>
        Some (map (fun x => match r with RSymbolic => DSort (code (snd x)) | REvaluated => DAlias (code (fst x)) (code (snd x)) end) (relevant_sorts (gp_sorts p))
           ++ (match r with REvaluated => [DAlias (code SBool) (code SCondition)] | RSymbolic => [] end)
           ++ map (fun s => DFun (GF (Feval s))) (gp_evs p)
           ++ (match r with
               | REvaluated => []
               | RSymbolic => if no_bitstring then []
                              else map (fun u => DFun (GF (Fuser_eval (fst u)))) us ++ map (fun x => DFun (GRewrite (snd x))) (relevant_sorts (gp_sorts p))
               end)
           ++ skolem_decls n (map classify (gp_funs p)))
    end.

  (** evaluate.rs 145: [rewrite_funs.get(..).unwrap()]. *)
  Definition rewrites_found (p : gen_problem) : bool :=
    match r with
    | REvaluated => true
    | RSymbolic => no_bitstring || forallb (fun f => match classify f with PUser _ _ out => existsb (sort_eqb out) (gp_sorts p) | _ => true end) (gp_funs p)
    end.

  (** order.rs 18-133 [generate], the assertions; [None]: there is no step (problem/protocol.rs 162-164). *)
  Definition order_axioms (p : gen_problem) : option (list eaxiom) :=
    match gp_steps p with
    | [] => None
    | init :: _ => Some (map ABase (order_theory (into_formula init) ++ [gt_axiom] ++ step_axioms (gp_steps p) ++ map Parser_Model.order_axiom (gp_orders p)))
    end.

  (** problem/problem/mod.rs 173-259 [generate] without 225-230; [fuel] for [propagate_evaluate], [n] the next free skolem, [le] the
      order of declarations. *)
  Definition generate_file (fuel n : nat) (le : declaration gsym -> declaration gsym -> bool) (p : gen_problem)
    : option (list (declaration gsym) * list eaxiom) :=
    match problem_decls p, evaluate_decls n p, order_axioms p,
          Evaluate_Model.generate osort (gp_evs p) r no_bitstring (legacy && match r with RSymbolic => true | REvaluated => false end) n (map classify (gp_funs p)),
          mapM (propagate_evaluate osort (gp_evs p) table fuel) (gp_asserts p ++ [gp_query p]) with
    | Some d1, Some d2, Some a1, Some a2, Some a3 =>
        if rewrites_found p then Some (sort_decls le (d1 ++ [DSort (code SStep)] ++ d2), a1 ++ a2 ++ map ABase a3) else None
    | _, _, _, _, _ => None
    end.
End File.
