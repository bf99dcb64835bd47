(** What users of sorts rely on, independently of the code. *)
From Coq Require Import List.
From Verif Require Import Syntax_Model Sort_Model.
Import ListNotations.

(** A symbolic sort and the sort of its values. *)
Inductive counterpart : sort -> sort -> Prop :=
| cp_cond : counterpart SCondition SBool
| cp_msg : counterpart SMessage SBitstring
| cp_user i : counterpart (SUserSym i) (SUserEval i).

(** Same sort up to realm. *)
Definition same_sort (r : realm) (a b : sort) : Prop :=
  a = b \/ (r = REvaluated /\ (counterpart a b \/ counterpart b a)).

(** Applications of connectives that make sense. *)
Inductive well_sorted : conn -> list sort -> Prop :=
| ws_true : well_sorted CTrue []
| ws_false : well_sorted CFalse []
| ws_not : well_sorted CNot [SBool]
| ws_implies : well_sorted CImplies [SBool; SBool]
| ws_and l : Forall (eq SBool) l -> well_sorted CAnd l
| ws_or l : Forall (eq SBool) l -> well_sorted COr l
| ws_eq s : well_sorted CEq [s; s].

(** Same for signatures: [accepts k args out]. *)
Inductive accepts : sigkind -> list sort -> sort -> Prop :=
| ac_fixed args out : accepts (SgFixed args out) args out
| ac_bools args : Forall (eq SBool) args -> accepts SgBools args SBool
| ac_eq s : accepts SgEq [s; s] SBool
| ac_ite s : accepts SgIte [SBool; s; s] s
| ac_sub own s : accepts (SgSub own) [own; s] SBool.

(** Sort of a formula, given the signatures of the symbols. *)
Inductive has_sort (kind : fsym -> sigkind) : formula -> sort -> Prop :=
| hs_var v : has_sort kind (FVar v) (vsort v)
| hs_fun f args ss s : Forall2 (has_sort kind) args ss -> accepts (kind f) ss s -> has_sort kind (FFun f args) s
| hs_q q vs b : has_sort kind b SBool -> has_sort kind (FQ q vs b) SBool.
