(** What it means that a proof of the written file proves the query: executions, and what the prover is asked. *)
From Coq Require Import List Arith Bool.
From Verif Require Import Syntax_Model Traversal_Spec Semantics_Spec Order_Spec Order_Model Sort_Model Evaluate_Model Evaluate_Spec Propagate_Spec File_Model File_Spec Assumption_Model.
From Verif Require Parser_Model Smt_Model Smt_Spec.
Import ListNotations.

(** ** Structures *)

(** The same structure with other functions. *)
Definition with_functions (M : structure) (fi : fsym -> list (D M) -> D M) : structure :=
  mkStructure (D M) (dom M) (dinj M) (dtest M) (dtest_inj M) (deq M) (deq_spec M) (all_ M) (all_spec M) fi.
(** Functions that only the generated axioms use: the skolem functions, and [gt], whose axiom does not make it the converse of [lt] (C25). *)
Definition auxiliary (s : fsym) : Prop := match s with Fgt | Fskolem _ => True | _ => False end.
Definition agrees (M : structure) (fi : fsym -> list (D M) -> D M) : Prop := forall s ds, ~ auxiliary s -> fi s ds = fint M s ds.
(** The sorts of the skolem functions of the [find]s, numbered from [n]. *)
Fixpoint skolem_sorts (n : nat) (fs : list pfun) : list (nat * (list sort * sort)) :=
  match fs with
  | [] => []
  | PQuant _ q :: fs' =>
      match qt_inner q with
      | IFind _ _ _ => combine (seq n (length (qt_bound q))) (map (fun v => (map vsort (qt_free q), vsort v)) (qt_bound q)) ++ skolem_sorts (n + length (qt_bound q)) fs'
      | _ => skolem_sorts n fs'
      end
  | _ :: fs' => skolem_sorts n fs'
  end.
(** Other auxiliary functions of the same sorts. *)
Record variation (sks : list (nat * (list sort * sort))) (M : structure) (fi : fsym -> list (D M) -> D M) : Prop := mkVariation {
  va_agrees : agrees M fi;
  va_gt : forall ds, dom M SBool (fi Fgt ds);
  va_skolems : forall i ins s ds, In (i, (ins, s)) sks -> args_of M ins ds -> dom M s (fi (Fskolem i) ds)
}.
(** A class of structures that does not depend on them. *)
Definition invariant (sks : list (nat * (list sort * sort))) (K : structure -> Prop) : Prop := forall M fi, K M -> variation sks M fi -> K (with_functions M fi).
(** A formula without them. *)
Definition direct (f : formula) : Prop := forall p s args, at_path f p (FFun s args) -> ~ auxiliary s.

(** ** Executions *)
Section Execution.
  Context (sig : fsym -> option (list sort * sort)) (table : nat -> option quantifier) (r : realm) (w : whole_problem).
  Local Notation p := (wp_gen w).

  (** A structure is an execution of a protocol when: its time points form a trace that begins with the first step; the time points that happen are
      the steps, each at its own arguments; evaluation gives the symbolic functions their meaning, the value of a condition being a boolean; in the
      evaluated realm evaluation does nothing; functions return elements of their sort, and all sorts have elements. *)
  Record execution (M : structure) : Prop := mkExecution {
    ex_trace : forall init l, gp_steps p = init :: l -> exists tr u, is_trace M (fint M (Fstep (ps_fun init)) []) tr u;
    ex_distinct : steps_distinct M (map (fun s => (ps_fun s, map vsort (ps_vars s))) (gp_steps p));
    ex_exhaustive : steps_exhaustive M (map (fun s => (ps_fun s, map vsort (ps_vars s))) (gp_steps p));
    ex_means : exists choice, Forall (means (gp_evs p) M choice) (map (classify sig table) (gp_funs p));
    ex_booleans : conditions_are_booleans (gp_evs p) M;
    ex_realm : r = REvaluated -> forall s d, In s (gp_evs p) -> dom M s d -> fint M (Feval s) [d] = d;
    ex_sorts : forall h s ds, osort sig h = Some s -> dom M s (fint M h ds);
    ex_bool : forall b, dom M SBool (dinj M b);
    ex_inhabited : exists some : sort -> D M, forall s, dom M s (some s)
  }.

  (** The steps are told apart by their functions, the parameters of a step by their numbers. *)
  Definition told_apart : Prop := NoDup (map ps_fun (gp_steps p)) /\ forall s, In s (gp_steps p) -> NoDup (map vid (ps_vars s)).
  (** Functions are declared as the axioms of evaluation need it (Evaluate_Spec); skolem functions have no signature yet, [gt] is a predicate. *)
  Record usual : Prop := mkUsual {
    us_funs : Forall (Evaluate_Spec.declared (osort sig)) (map (classify sig table) (gp_funs p));
    us_skolems : forall i, sig (Fskolem i) = None;
    us_gt : forall ins out, sig Fgt = Some (ins, out) -> out = SBool
  }.
  (** Nothing in the problem uses [gt] or a skolem function. *)
  Record all_direct : Prop := mkDirect {
    di_quants : forall k q f, table k = Some q -> In f (quantifier_formulas q) -> direct f;
    di_orders : forall o, In o (gp_orders p) -> direct (Parser_Model.order_axiom o);
    di_asserts : forall f, In f (gp_asserts p ++ [gp_query p]) -> direct f
  }.
  (** What the propagation of evaluations leaves as it is, or keeps the meaning of (C76). *)
  Definition settled (f : formula) : Prop :=
    ~ is_evaluation (matrix f) \/ exists G, well (osort sig) (gp_evs p) table (map (classify sig table) (gp_funs p)) G f.
End Execution.

(** ** Files *)

(** How an axiom is handed to the printer, *)
Inductive stated : eaxiom -> Smt_Model.axm -> Prop :=
| st_base f : stated (ABase f) (Smt_Model.XBase f)
| st_theory f : stated (ABase f) (Smt_Model.XTheory f)
| st_ground s f : stated (ABase f) (Smt_Model.XGround s f)
| st_rewrite fn vs l t : stated (ARewrite vs l t) (Smt_Model.XRewrite fn vs l t).
(** and all of them, the last one as the query, with comments in between. *)
Inductive lines : list eaxiom -> list Smt_Model.axm -> Prop :=
| ln_query f : lines [ABase f] [Smt_Model.XQuery f]
| ln_comment axs xs : lines axs xs -> lines axs (Smt_Model.XComment :: xs)
| ln_axiom a x axs xs : stated a x -> lines axs xs -> lines (a :: axs) (x :: xs).

(** What [assert-ground] means is left open, but it follows from the assertion. *)
Definition weaker (ground : forall M : structure, sort -> Smt_Model.smt -> env M -> Prop) : Prop :=
  forall M g s (rho : env M), Smt_Spec.sholds s rho -> ground M g s rho.
(** No structure of a class satisfies the commands of a file. *)
Definition unsatisfiable (K : structure -> Prop) (ground : forall M : structure, sort -> Smt_Model.smt -> env M -> Prop) (file : list Smt_Model.command) : Prop :=
  forall M, K M -> forall rho : env M, ~ Forall (Smt_Spec.satisfies M (ground M) rho) file.

(** The axioms generated for the cryptographic assumptions hold, whatever the auxiliary functions are. *)
Definition assumed (sks : list (nat * (list sort * sort))) (M : structure) (fs : list formula) : Prop :=
  forall fi, variation sks M fi -> forall (rho : env (with_functions M fi)) f, In f fs -> holds f rho.
