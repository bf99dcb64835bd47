(** ** What a problem says about the file it was read from *)
From Coq Require Import List Arith Bool Permutation.
From Verif Require Import Syntax_Model Traversal_Spec Semantics_Spec Sort_Model Order_Model Macro_Model Parser_Model Parser_Spec Source_Model Source_Spec.
Import ListNotations.

Definition steps_of (l : list item) : list step_ast := flat_map (fun i => match i with IStep a => [a] | _ => [] end) l.
Definition cells_of (l : list item) : list (name * list name) := flat_map (fun i => match i with ICell n args _ => [(n, args)] | _ => [] end) l.
(** The assignments to a cell, each with the step it is written in. *)
Definition writes (l : list item) (c : name) : list (step_ast * assign_ast) :=
  flat_map (fun a => flat_map (fun x => if Nat.eq_dec (aa_cell x) c then [(a, x)] else []) (sa_asgs a)) (steps_of l).

(** Only the conditions and messages of steps have lets, around them, and the macros that are called do not capture. *)
Definition gentle_item (env : penv) (i : item) : Prop :=
  match i with
  | IStep a => let k := length (sa_params a) in
      let_body env (S k) (sa_cond a) /\ let_body env (S k) (sa_msg a) /\ Forall (gentle_asg env k) (sa_asgs a)
  | IAssert t | ILemma t | IQuery t => gentle env true 0 t
  | IOrder o => let k := length (od_args o) in
      gentle env true k (od_t1 o) /\ gentle env true k (od_t2 o) /\ forall g, od_guard o = Some g -> gentle env true k g
  | _ => True
  end.

(** [a] is the declaration of the step with function number [j], parameters, condition and message [st]. *)
Definition step_of (env : penv) (a : step_ast) (j : nat) (st : step_cache) : Prop :=
  (exists fc, e_functions env (sa_name a) = Some fc /\ fc_sym fc = Fstep j /\ fc_step fc = Some st) /\
  map fst (st_args st) = map fst (sa_params a) /\ map (e_sorts env) (map snd (sa_params a)) = map Some (map snd (st_args st)) /\
  st_msg st = sa_msg a /\ st_cond st = sa_cond a.

(** A cell: its function, the sorts of its parameters, and exactly the assignments to it. *)
Record cell_read (env : penv) (qs : list tquant) (ps : list pstep) (l : list item) (c : name * list name) (m : mcell) : Prop := mkCellRead {
  cr_fun : exists fc, e_functions env (fst c) = Some fc /\ fc_sym fc = Fcell (ce_fun m);
  cr_sorts : map (e_sorts env) (snd c) = map Some (ce_args m);
  cr_writes : exists ws, Permutation ws (writes (completed l) (fst c)) /\
    Forall2 (fun w x => exists j st p, In p ps /\ step_of env (fst w) j st /\ step_read env qs j st p /\ asg_read env qs j st p (ce_args m) (snd w) x) ws (ce_asgs m)
}.
(** A formula of the file: closed, with the value of the term in every structure. *)
Definition formula_read (env : penv) (qs : list tquant) (t : term) (f : formula) : Prop :=
  well_scoped 0 f /\
  (e_shadowing env = false -> counted env t -> forall (M : structure) qsem mval, unfolds env qsem mval -> extensional M qsem -> respects qsem qs ->
   forall rho : Semantics_Spec.env M, eval f rho = value env qsem mval t REvaluated (fun _ => None)).
Definition order_read (env : penv) (qs : list tquant) (o : order) (r : ordering) : Prop :=
  well_scoped 0 (order_axiom r) /\
  (e_shadowing env = false -> NoDup (map fst (od_args o)) -> counted env (od_t1 o) -> counted env (od_t2 o) ->
   (forall g, od_guard o = Some g -> counted env g) ->
   forall (M : structure) qsem mval, unfolds env qsem mval -> extensional M qsem -> respects qsem qs -> forall rho : Semantics_Spec.env M,
     dtest M (eval (order_axiom r) rho) = order_meaning env qsem mval o).

(** The problem has the steps of the file, [init] first, its cells with their assignments, its assertions, orders and
    cryptographic assumptions in their order, and nothing else. *)
Record problem_read (l : list item) (d : denv) (qs : list tquant) (no_lemmas : bool) (p : parts) : Prop := mkProblemRead {
  pr_steps : exists a0 as', Permutation (a0 :: as') (steps_of (completed l)) /\ sa_name a0 = 6 /\
    Forall2 (fun a s => exists j st, step_of (penv_of d) a j st /\ step_read (penv_of d) qs j st s) (a0 :: as') (pa_steps p);
  pr_cells : exists cs, Permutation cs (cells_of l) /\ Forall2 (cell_read (penv_of d) qs (pa_steps p) l) cs (pa_cells p);
  pr_targets : forall a x, In (IStep a) l -> In x (sa_asgs a) -> exists args, In (aa_cell x, args) (cells_of l);
  pr_asserts : Forall2 (formula_read (penv_of d) qs) (asserts_of l) (pa_asserts p);
  pr_lemmas : Forall2 (formula_read (penv_of d) qs) (if no_lemmas then [] else lemmas_of l) (pa_lemmas p);
  pr_query : exists t, queries_of l = [t] /\ formula_read (penv_of d) qs t (pa_query p);
  pr_orders : Forall2 (order_read (penv_of d) qs) (orders_of l) (pa_orders p);
  pr_env : pa_env p = d
}.
