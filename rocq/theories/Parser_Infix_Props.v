(** C18. *)
From Coq Require Import List String Bool.
From Verif Require Import Syntax_Model Parser_Model Parser_Infix_Model.
Import ListNotations.
Open Scope string_scope.

(** The documented spellings, as a relation. *)
Inductive spells : string -> operation -> Prop :=
| sp_heq : spells "===" OHardEq | sp_heq2 : spells "meq" OHardEq
| sp_eq : spells "=" OEq | sp_eq2 : spells "==" OEq | sp_eq3 : spells "eq" OEq
| sp_neq : spells "!=" ONeq | sp_neq2 : spells "neq" ONeq | sp_neq3 : spells "<>" ONeq
| sp_or : spells "||" OOr | sp_or2 : spells "or" OOr | sp_or3 : spells "ors" OOr
| sp_and : spells "&&" OAnd | sp_and2 : spells "and" OAnd | sp_and3 : spells "ands" OAnd
| sp_imp : spells "=>" OImplies | sp_imp2 : spells "implies" OImplies | sp_imp3 : spells "==>" OImplies
| sp_iff : spells "<=>" OIff | sp_iff2 : spells "iff" OIff.

Lemma alias_spells s o : In s (as_str_alias o) <-> spells s o.
Proof.
  split.
  - destruct o; cbn; intros H; repeat (destruct H as [<-|H]; [constructor|]); destruct H.
  - intros []; cbn; auto.
Qed.

Lemma get_operation_spec s o : get_operation s = Some o <-> spells s o.
Proof.
  unfold get_operation. split.
  - intros H. apply find_some in H. destruct H as [_ H]. apply existsb_exists in H. destruct H as (x & Hx & E).
    apply String.eqb_eq in E. subst x. apply alias_spells. exact Hx.
  - intros []; reflexivity.
Qed.

Theorem C18_spellings :
  (forall s o, get_operation s = Some o <-> spells s o) /\
  (forall o, spells (as_str o) o) /\
  (forall s o o', spells s o -> spells s o' -> o = o').
Proof.
  split; [exact get_operation_spec|]. split; [intros []; constructor|].
  intros s o o' H H'. apply get_operation_spec in H. apply get_operation_spec in H'. congruence.
Qed.
Print Assumptions C18_spellings.

(** Any other string is not an operator. *)
Theorem C18_others : forall s, (forall o, ~ In s (as_str_alias o)) -> get_operation s = None.
Proof.
  intros s H. destruct (get_operation s) as [o|] eqn:E; [|reflexivity]. exfalso.
  apply (H o). apply alias_spells, get_operation_spec, E.
Qed.
Print Assumptions C18_others.

(** A chain is accepted when all its operators are the same one. *)
Theorem C18_chain_operator : forall ops o,
    infix_operation ops = Some o <-> ops <> [] /\ Forall (eq o) ops.
Proof.
  intros ops o. destruct ops as [|a l]; cbn.
  - split; [discriminate|]. intros [[] _]; reflexivity.
  - destruct (forallb _ l) eqn:E; split.
    + intros [= <-]. split; [discriminate|]. constructor; auto. rewrite forallb_forall in E. apply Forall_forall.
      intros x Hx. specialize (E x Hx). destruct a, x; congruence.
    + intros [_ H]. inversion H; subst. reflexivity.
    + discriminate.
    + intros [_ H]. inversion H as [|? ? -> Hl]; subst. exfalso.
      rewrite (proj2 (forallb_forall _ _)) in E; [discriminate|]. intros x Hx.
      rewrite Forall_forall in Hl. rewrite <- (Hl x Hx). destruct a; reflexivity.
Qed.
Print Assumptions C18_chain_operator.

Example C18_example : get_operation "<>" = Some ONeq /\ get_operation "=>=" = None /\
  infix_operation [OAnd; OAnd] = Some OAnd /\ infix_operation [OAnd; OOr] = None.
Proof. repeat split. Qed.
