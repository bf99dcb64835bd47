(** C04, C05, C06, C07, C66. *)
From Coq Require Import List Arith Bool Lia.
From Verif Require Import Syntax_Model Traversal_Model Traversal_Spec Semantics_Spec Semantics_Proofs
  Subst_Model Subst_Spec Subst_Proofs.
Import ListNotations.

(** C04. Chaining is composition (panics included); substitutions that fix the occurring variables are the identity;
    translations by 0 and by a sum. *)
Theorem C04_subst_laws :
  (forall f a b, sapply (chain a b) f = match sapply a f with None => None | Some g => sapply b g end) /\
  (forall f s, (forall v, occurs v f -> s v = Some (FVar v)) -> sapply s f = Some f) /\
  (forall f, translate_vars 0 f = Some f) /\
  (forall f i j, match translate_vars i f with None => None | Some g => translate_vars j g end
                 = translate_vars (i + j) f).
Proof. exact (conj chain_apply (conj sapply_id (conj translate_zero translate_add))). Qed.
Print Assumptions C04_subst_laws.

Example C04_example :
  let x i := FVar (mkVar i SMessage) in
  let f := FFun (Fuser 0) [x 0; FQ QForall [mkVar 3 SMessage] (FFun (Fuser 1) [x 1; x 3])] in
  sapply (chain (one_var 0 (x 1)) (one_var 1 (FFun (Fuser 2) []))) f
  = Some (FFun (Fuser 0) [FFun (Fuser 2) []; FQ QForall [mkVar 3 SMessage] (FFun (Fuser 1) [FFun (Fuser 2) []; x 3])])
  /\ sapply (one_var 7 (x 1)) f = Some f.
Proof. split; reflexivity. Qed.

(** C05. Whatever the representation and the list lengths, a result replaces every variable leaf by the first
    formula listed for its id, and unlisted leaves by themselves; the list forms never panic, and the two forms
    over separate lists panic only when the lengths differ. *)
Theorem C05_representations_agree : forall ids fs t,
    let l := combine ids fs in
    (forall g, apply_substitution ids fs t = Some g -> replaces (first_listed l) t g) /\
    (forall g, sapply (frozen ids fs) t = Some g -> replaces (first_listed l) t g) /\
    (forall g, sapply (multiple l) t = Some g <-> replaces (first_listed l) t g) /\
    (forall g, sapply (frozen_ov l) t = Some g <-> replaces (first_listed l) t g) /\
    (exists g, sapply (multiple l) t = Some g) /\
    (length ids = length fs ->
       apply_substitution ids fs t = sapply (multiple l) t /\ sapply (frozen ids fs) t = sapply (multiple l) t).
Proof. exact c05. Qed.
Print Assumptions C05_representations_agree.

Theorem C05_one_variable : forall i t f g,
    sapply (one_var i t) f = Some g <-> replaces (first_listed [(i, t)]) f g.
Proof. exact c05_one. Qed.
Print Assumptions C05_one_variable.

Theorem C05_variables : forall l f g,
    sapply (frozen_var l) f = Some g <-> replaces (first_listed (map (fun p => (fst p, FVar (snd p))) l)) f g.
Proof. exact c05_vars. Qed.
Print Assumptions C05_variables.

(** Duplicated id: the first pair wins; too many formulas: ignored by one form, a panic in the other. *)
Example C05_example :
  let x i := FVar (mkVar i SMessage) in let c i := FFun (Fuser i) [] in
  apply_substitution [1; 2; 1] [c 1; c 2; c 3] (FFun (Fuser 9) [x 1; x 2; x 3])
    = Some (FFun (Fuser 9) [c 1; c 2; x 3]) /\
  apply_substitution [1] [c 1; c 2] (x 3) = Some (x 3) /\
  sapply (frozen [1] [c 1; c 2]) (x 3) = None.
Proof. repeat split; reflexivity. Qed.

(** C06. Without capture, the substituted formula means the formula in the updated environment. *)
Theorem C06_subst_meaning : forall (M : structure) f s g (rho rho' : env M),
    sapply s f = Some g ->
    no_capture s f ->
    (forall p v t, at_path f p (FVar v) -> ~ binds_above f p (vid v) -> s v = Some t -> rho' (vid v) = eval t rho) ->
    eval g rho = eval f rho'.
Proof. exact subst_meaning. Qed.
Print Assumptions C06_subst_meaning.

(** The code never checks for capture, so the unconditional statement is false. *)
Theorem C06_subst_meaning_refuted : exists (M : structure) (id : nat) (t f g : formula) (rho : env M),
    sapply (one_var id t) f = Some g /\ eval g rho <> eval f (upd rho id (eval t rho)).
Proof. exact capture_changes_meaning. Qed.
Print Assumptions C06_subst_meaning_refuted.

(** Translating variables does not rename binders: it changes the meaning of quantified formulas. *)
Theorem C06_translate_meaning_refuted : exists (M : structure) (f g : formula) (i : nat) (rho rho' : env M),
    translate_vars i f = Some g /\ (forall j, rho (j + i) = rho' j) /\ eval g rho <> eval f rho'.
Proof. exact translate_changes_meaning. Qed.
Print Assumptions C06_translate_meaning_refuted.

(** The hypotheses of [C06_subst_meaning] are met by a formula with a quantifier:
    exists x1. p(x0, x1) with x0 := f(x2). *)
Example C06_example :
  let x i := mkVar i SMessage in
  let f := FQ QExists [x 1] (FFun (Fuser 0) [FVar (x 0); FVar (x 1)]) in
  let t := FFun (Fuser 1) [FVar (x 2)] in
  sapply (one_var 0 t) f = Some (FQ QExists [x 1] (FFun (Fuser 0) [t; FVar (x 1)])) /\
  no_capture (one_var 0 t) f.
Proof.
  split; [reflexivity|]. intros p v Hp.
  inversion Hp as [|?|q vs b p' g Hb]; subst. inversion Hb as [|s args i p2 a g Hi Ha|]; subst.
  destruct i as [|[|[|i]]]; cbn in Hi; try discriminate; injection Hi as <-; inversion Ha; subst.
  - split.
    + intros H. inversion H as [? ? ? ? ? w Hw Ew| ? ? ? ? ? H'|]; subst.
      * destruct Hw as [<-|[]]. discriminate.
      * inversion H'; subst. match goal with H : nth_error _ _ = Some _, H2 : binds_above _ [] _ |- _ => inversion H2 end.
    + intros _ t i Ht Hi H. injection Ht as <-.
      destruct Hi as (p3 & w & Hw & <- & _). inversion Hw as [|s2 args2 j p4 a2 g2 Hj Ha2|]; subst.
      destruct j as [|j]; cbn in Hj; [injection Hj as <-|destruct j; discriminate]. inversion Ha2; subst.
      inversion H as [? ? ? ? ? w' Hw' Ew| ? ? ? ? ? H'|]; subst.
      * destruct Hw' as [<-|[]]. discriminate.
      * inversion H'; subst. match goal with H2 : binds_above _ [] _ |- _ => inversion H2 end.
  - split; [reflexivity|]. intros Hn. exfalso. apply Hn. apply ba_here with (v := mkVar 1 SMessage); cbn; auto.
Qed.

(** C07. The problem-wide fresh id is larger than every variable leaf of the formulas it was computed from, and
    translating any formula by it gives variable leaves disjoint from theirs. *)
Theorem C07_problem_max_var_fresh : forall fs, exists n m,
    (forall k, n <= k -> problem_max_var k fs = Some m) /\
    (forall f v, In f fs -> occurs v f -> vid v < m).
Proof. exact problem_max_var_fresh. Qed.
Print Assumptions C07_problem_max_var_fresh.

Theorem C07_translate_disjoint : forall fs f, exists n m g,
    (forall k, n <= k -> problem_max_var k fs = Some m) /\
    translate_vars m f = Some g /\
    forall v w h, occurs v g -> In h fs -> occurs w h -> vid v <> vid w.
Proof. exact translate_disjoint. Qed.
Print Assumptions C07_translate_disjoint.

Theorem C07_max_var_or_max_fresh : forall vs m,
    m < max_var_or_max vs m /\ forall v, In v vs -> vid v < max_var_or_max vs m.
Proof. exact max_var_or_max_gt. Qed.
Print Assumptions C07_max_var_or_max_fresh.

(** The same through [formulas.max_var_or_max(max)], which goes through the quantifier-expanding iterator:
    holds for formulas without symbolic quantifiers... *)
Theorem C07_formulas_max_var_fresh_partial : forall tq fs max, Forall no_ta_quant fs -> exists n m,
    (forall k, n <= k -> formulas_max_var_or_max tq k fs max = Some m) /\
    max < m /\ (forall f v, In f fs -> occurs v f -> vid v < m).
Proof. exact formulas_max_plain. Qed.
Print Assumptions C07_formulas_max_var_fresh_partial.

(** ...but not with one: variable 7 occurs and the "fresh" id is 1. *)
Theorem C07_formulas_max_var_fresh_refuted : exists tq f v,
    occurs v f /\ vid v = 7 /\ forall k, 10 <= k -> formulas_max_var_or_max tq k [f] 0 = Some 1.
Proof. exact skip_refutes. Qed.
Print Assumptions C07_formulas_max_var_fresh_refuted.

Example C07_example :
  let x i := FVar (mkVar i SMessage) in
  problem_max_var 50 [FFun (Fuser 0) [x 4; x 9]; x 2] = Some 10 /\
  translate_vars 10 (FFun (Fuser 0) [x 4; x 0]) = Some (FFun (Fuser 0) [x 14; x 10]) /\
  no_ta_quant (FFun (Fuser 0) [x 4; x 9]).
Proof.
  repeat split; try reflexivity. intros p k args H. inversion H as [|s l i p' a g Hi Ha|]; subst.
  destruct i as [|[|i]]; cbn in Hi; [| |destruct i; discriminate]; injection Hi as <-; inversion Ha.
Qed.

(** C66. Iterating over the variables of a formula, through symbolic quantifiers, ends and yields the variable
    leaves: true without symbolic quantifiers. *)
Theorem C66_vars_iter_exact_partial : forall tq f, no_ta_quant f -> exists n out,
    (forall m, n <= m -> vars_iter tq m f = Some out) /\ (forall v, In v out <-> occurs v f).
Proof. exact vars_iter_plain. Qed.
Print Assumptions C66_vars_iter_exact_partial.

(** With the symbolic quantifier that the parser builds for [exists y. p(x, y)], the iteration never ends. *)
Theorem C66_vars_iter_terminates_refuted : exists tq f, forall fuel, vars_iter tq fuel f = None.
Proof. exact (ex_intro _ loop_tq (ex_intro _ loop_formula loop_diverges)). Qed.
Print Assumptions C66_vars_iter_terminates_refuted.

Example C66_example :
  let x i := FVar (mkVar i SMessage) in
  vars_iter (fun _ => mkTaQuant [] [] []) 20 (FFun (Fuser 0) [x 4; FQ QForall [mkVar 1 SMessage] (x 1)])
  = Some [mkVar 1 SMessage; mkVar 4 SMessage].
Proof. reflexivity. Qed.
