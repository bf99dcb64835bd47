(** What memory cells and inputs depend on. *)
From Coq Require Import List Arith Bool Relations.
From Verif Require Import Syntax_Model Traversal_Spec Subst_Model Order_Model Macro_Model.
Import ListNotations.

(** A node of the dependency relation: the input of the protocol, or a cell (given by its function). *)
Inductive dnode : Type := DInput | DCell (c : nat).

(** A function under which the search of the code goes on. *)
Definition transparent (s : fsym) : Prop :=
  match s with Fcell _ | Fmacro _ | Fstep _ | Fpred => False | _ => True end.

(** [mentions steps f n]: [n] is met in [f], without entering the arguments of cells, and replacing the message and the
    condition of a step by their definition. *)
Inductive mentions (steps : list pstep) : formula -> dnode -> Prop :=
| men_cell c args : mentions steps (FFun (Fcell c) args) (DCell c)
| men_input k args : mentions steps (FFun (Fmacro MInput) [FFun (Fstep k) args]) DInput
| men_arg s args a n : transparent s -> In a args -> mentions steps a n -> mentions steps (FFun s args) n
| men_body q vs b n : mentions steps b n -> mentions steps (FQ q vs b) n
| men_msg s args g n : In s steps -> apply_message s args = Some g -> mentions steps g n ->
    mentions steps (FFun (Fmacro MMessage) [FFun (Fstep (ps_fun s)) args]) n
| men_cond s args g n : In s steps -> apply_condition s args = Some g -> mentions steps g n ->
    mentions steps (FFun (Fmacro MCondition) [FFun (Fstep (ps_fun s)) args]) n.

(** The cell [c] is assigned a term mentioning the cell [d]. *)
Definition assigns_from (steps : list pstep) (cells : list mcell) (c d : nat) : Prop :=
  exists ce a, In ce cells /\ ce_fun ce = c /\ In a (ce_asgs ce) /\ mentions steps (as_content a) (DCell d).
Definition cell_reaches (steps : list pstep) (cells : list mcell) : nat -> nat -> Prop :=
  clos_refl_trans nat (assigns_from steps cells).

(** The real dependencies: occurrences at any position, [tq] giving the contents of symbolic quantifiers. *)
Inductive has_occ (tq : nat -> ta_quant) : formula -> dnode -> Prop :=
| occ_cell f p c args : at_path f p (FFun (Fcell c) args) -> has_occ tq f (DCell c)
| occ_input f p args : at_path f p (FFun (Fmacro MInput) args) -> has_occ tq f DInput
| occ_quant f p k args b n : at_path f p (FFun (Fquant k) args) -> In b (tq_contents (tq k)) -> has_occ tq b n -> has_occ tq f n.
(** The value of a cell depends on what is assigned to it, that of the input on everything output before, and outputs
    depend on the conditions too. *)
Inductive depends (tq : nat -> ta_quant) (steps : list pstep) (cells : list mcell) : dnode -> dnode -> Prop :=
| dep_cell ce a n : In ce cells -> In a (ce_asgs ce) -> has_occ tq (as_content a) n -> depends tq steps cells (DCell (ce_fun ce)) n
| dep_message s n : In s steps -> has_occ tq (ps_msg s) n -> depends tq steps cells DInput n
| dep_condition s n : In s steps -> has_occ tq (ps_cond s) n -> depends tq steps cells DInput n
| dep_trans a b c : depends tq steps cells a b -> depends tq steps cells b c -> depends tq steps cells a c.
