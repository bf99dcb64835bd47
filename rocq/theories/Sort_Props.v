(** C19, C20, C21, C22, C69, C70. *)
From Coq Require Import List Arith Bool.
From Verif Require Import Syntax_Model Semantics_Spec Sort_Model Sort_Spec Sort_Proofs.
Import ListNotations.

(** C19. No operation panics; a resolved placeholder keeps its sort through every later history. *)
Theorem C19_write_once : forall h os p s, as_option h p = Some s ->
    exists h', run_ops h os = Some h' /\ as_option h' p = Some s.
Proof. exact c19_once. Qed.
Print Assumptions C19_write_once.

(** A successful unification leaves both sides resolved to the same sort up to realm, for good. *)
Theorem C19_unify_sound : forall h p q r h' s os, in_heap h p -> in_heap h q ->
    unify h p q r = Some (h', Ok s) ->
    exists h2 t, run_ops h' os = Some h2 /\ as_option h2 p = Some s /\ as_option h2 q = Some t /\ same_sort r s t.
Proof. exact c19_unify. Qed.
Print Assumptions C19_unify_sound.

(** A failed unification changes nothing, and happens only when both sides are unknown or really differ. *)
Theorem C19_unify_failure : forall h p q r h' e, unify h p q r = Some (h', Err e) ->
    h' = h /\ (as_option h p = None /\ as_option h q = None \/
               exists t t', as_option h p = Some t /\ as_option h q = Some t' /\ ~ same_sort r t t').
Proof. exact c19_unify_err. Qed.
Print Assumptions C19_unify_failure.

(** Unifying two placeholders does not touch any other. *)
Theorem C19_unify_local : forall h p q r h' x o, unify h p q r = Some (h', x) ->
    as_option h' o <> as_option h o -> o = p \/ o = q.
Proof. exact c19_unify_local. Qed.
Print Assumptions C19_unify_local.

Theorem C19_expects : forall h p s r, in_heap h p -> exists h' x, expects h p s r = Some (h', x) /\
    (x = Ok tt -> exists t, as_option h' p = Some t /\ same_sort r t s) /\
    (forall e, x = Err e -> h' = h /\ exists t, as_option h p = Some t /\ ~ same_sort r t s /\ e = EMismatch s t).
Proof. exact c19_expects. Qed.
Print Assumptions C19_expects.

(** Errors name the two sorts in the right order: [unify] and [expects] expect what is given second, [unify_rev] and [matches] what is given first;
    apart from that the two directions do the same. *)
Theorem C19_errors : forall h p q r s,
    (forall h' e g, unify h p q r = Some (h', Err (EMismatch e g)) -> as_option h p = Some g /\ as_option h q = Some e) /\
    (forall h' e g, unify_rev h p q r = Some (h', Err (EMismatch e g)) -> as_option h p = Some e /\ as_option h q = Some g) /\
    (forall h' e g, expects h p s r = Some (h', Err (EMismatch e g)) -> as_option h p = Some g /\ e = s) /\
    (forall h' e g, matches h p s r = Some (h', Err (EMismatch e g)) -> as_option h p = Some e /\ g = s) /\
    (forall h' t, unify_rev h p q r = Some (h', Ok t) <-> unify h p q r = Some (h', Ok t)) /\
    (forall h', matches h p s r = Some (h', Ok tt) <-> expects h p s r = Some (h', Ok tt)) /\
    (unify_rev h p q r = None <-> unify h p q r = None) /\ (matches h p s r = None <-> expects h p s r = None).
Proof.
  assert (U : forall h p q r h' e g, unify h p q r = Some (h', Err (EMismatch e g)) -> as_option h p = Some g /\ as_option h q = Some e).
  { intros h p q r h' e g. unfold unify. destruct (as_option h p) as [a|], (as_option h q) as [b|].
    - destruct (eq_realm r a b); [discriminate|]. intros [= _ <- <-]. auto.
    - destruct (set_unwrap h q a); discriminate.
    - destruct (set_unwrap h p b); discriminate.
    - discriminate. }
  assert (X : forall h p s r h' e g, expects h p s r = Some (h', Err (EMismatch e g)) -> as_option h p = Some g /\ e = s).
  { intros h p s r h' e g. unfold expects. destruct (as_option h p) as [a|].
    - destruct (eq_realm r a s); [discriminate|]. intros [= _ <- <-]. auto.
    - destruct (set_unwrap h p s); discriminate. }
  intros h p q r s. split; [apply U|]. split; [|split; [apply X|split; [|split; [|split; [|split]]]]].
  - intros h' e g. unfold unify_rev. destruct (unify h p q r) as [[h1 [t|[|a b]]]|] eqn:E; try discriminate. cbn. intros [= _ <- <-]. destruct (U _ _ _ _ _ _ _ E). auto.
  - intros h' e g. unfold matches. destruct (expects h p s r) as [[h1 [t|[|a b]]]|] eqn:E; try discriminate. cbn. intros [= _ <- <-]. destruct (X _ _ _ _ _ _ _ E). auto.
  - intros h' t. unfold unify_rev. destruct (unify h p q r) as [[h1 [t'|e]]|]; split; auto; discriminate.
  - intros h'. unfold matches. destruct (expects h p s r) as [[h1 [t'|e]]|]; split; auto; discriminate.
  - unfold unify_rev. destruct (unify h p q r) as [[h1 [t'|e]]|]; split; auto; discriminate.
  - unfold matches. destruct (expects h p s r) as [[h1 [t'|e]]|]; split; auto; discriminate.
Qed.
Print Assumptions C19_errors.
Example C19_errors_example :
  unify_rev [Some SBitstring; Some SMessage] (PVar 0) (PVar 1) RSymbolic = Some ([Some SBitstring; Some SMessage], Err (EMismatch SBitstring SMessage)) /\
  matches [Some SBitstring] (PVar 0) SMessage RSymbolic = Some ([Some SBitstring], Err (EMismatch SBitstring SMessage)) /\
  matches [None] (PVar 0) SMessage RSymbolic = Some ([Some SMessage], Ok tt).
Proof. repeat split; reflexivity. Qed.

Example C19_example :
  let h := [None; Some SMessage; None] in
  unify h (PVar 0) (PVar 1) REvaluated = Some ([Some SMessage; Some SMessage; None], Ok SMessage) /\
  unify [Some SBitstring; Some SMessage] (PVar 0) (PVar 1) REvaluated
    = Some ([Some SBitstring; Some SMessage], Ok SBitstring) /\
  unify [Some SBitstring; Some SMessage] (PVar 0) (PVar 1) RSymbolic
    = Some ([Some SBitstring; Some SMessage], Err (EMismatch SMessage SBitstring)) /\
  run_ops h [OpNew; OpUnify (PVar 3) (PVar 1) RSymbolic; OpExpects (PVar 3) SBool REvaluated; OpSet (PVar 1) SName]
    = Some [None; Some SMessage; None; Some SMessage].
Proof. repeat split; reflexivity. Qed.

(** C20. *)
Theorem C20_equivalence : forall r,
    (forall a, eq_realm r a a = true) /\
    (forall a b, eq_realm r a b = eq_realm r b a) /\
    (forall a b c, eq_realm r a b = true -> eq_realm r b c = true -> eq_realm r a c = true).
Proof. exact eq_realm_equiv. Qed.
Print Assumptions C20_equivalence.

Theorem C20_classes : forall r a b, eq_realm r a b = true <-> same_sort r a b.
Proof. exact eq_realm_spec. Qed.
Print Assumptions C20_classes.

Theorem C20_evaluated_sort : forall a b, eq_realm REvaluated a b = true <-> evaluated_sort a = evaluated_sort b.
Proof. exact evaluated_sort_char. Qed.
Print Assumptions C20_evaluated_sort.

Example C20_example :
  eq_realm REvaluated (SUserSym 3) (SUserEval 3) = true /\ eq_realm REvaluated (SUserSym 3) (SUserEval 4) = false /\
  eq_realm RSymbolic SBool SCondition = false /\ eq_realm REvaluated SBool SCondition = true.
Proof. repeat split; reflexivity. Qed.

(** C21. Exact for and, or, implication and equality, and never rejects a well-sorted application except of a
    negation. *)
Theorem C21_checker_partial : forall c args, c <> CNot -> c <> CTrue -> c <> CFalse ->
    forall s, conn_sort c args = Some s <-> (well_sorted c args /\ s = SBool).
Proof. exact conn_sort_spec. Qed.
Print Assumptions C21_checker_partial.

Theorem C21_accepts_partial : forall c args, well_sorted c args -> c <> CNot -> conn_sort c args = Some SBool.
Proof. exact conn_sort_sound_true. Qed.
Print Assumptions C21_accepts_partial.

(** Negation is always refused, and the constants accept arguments. *)
Theorem C21_checker_refuted :
    (exists args, well_sorted CNot args /\ conn_sort CNot args = None) /\
    (exists args, ~ well_sorted CTrue args /\ conn_sort CTrue args = Some SBool).
Proof.
  exact (conj (ex_intro _ [SBool] (conj ws_not eq_refl))
    (ex_intro _ [SMessage] (conj (fun H : well_sorted CTrue [SMessage] =>
       match H in well_sorted c l return (match c, l with CTrue, _ :: _ => False | _, _ => True end) with
       | ws_true => I | _ => I end) eq_refl))).
Qed.
Print Assumptions C21_checker_refuted.

Example C21_example :
  conn_sort CAnd [SBool; SBool; SBool] = Some SBool /\ conn_sort CAnd [SBool; SMessage] = None /\
  conn_sort CEq [SMessage; SMessage] = Some SBool /\ conn_sort CEq [SMessage; SBitstring] = None.
Proof. repeat split; reflexivity. Qed.

(** C22. [TRUE] is true... *)
Theorem C22_true_partial : forall (M : structure) (rho : env M), holds TRUE rho.
Proof. exact true_is_true. Qed.
Print Assumptions C22_true_partial.

(** ...and so is [FALSE], in every interpretation. *)
Theorem C22_false_refuted : forall (M : structure) (rho : env M), holds FALSE rho.
Proof. exact false_is_true. Qed.
Print Assumptions C22_false_refuted.

(** C69. The sort of an application through the signatures: exact for fixed signatures... *)
Theorem C69_fixed_partial : forall args out l fuel, length l < fuel ->
    exists x, fun_sort fuel (SgFixed args out) l = Some (Some x) /\
              (forall s, x = Ok s <-> (l = args /\ s = out)).
Proof. exact fun_sort_fixed. Qed.
Print Assumptions C69_fixed_partial.

(** ...while and/or and if-then-else are always refused, whatever the arguments... *)
Theorem C69_and_or_refuted : forall l fuel, length l < fuel ->
    exists e, fun_sort fuel SgBools l = Some (Some (Err e)).
Proof. exact fun_sort_bools. Qed.
Print Assumptions C69_and_or_refuted.

Theorem C69_ite_refuted : forall l fuel, exists e, fun_sort fuel SgIte l = Some (Some (Err e)).
Proof. exact (fun l fuel => ex_intro _ _ (fun_sort_ite l fuel)). Qed.
Print Assumptions C69_ite_refuted.

(** ...and equality accepts two different sorts. *)
Theorem C69_eq_refuted : forall a b fuel, 3 <= fuel -> fun_sort fuel SgEq [a; b] = Some (Some (Ok SBool)).
Proof. exact fun_sort_eq. Qed.
Print Assumptions C69_eq_refuted.

Example C69_example :
  fun_sort 5 (SgFixed [SMessage; SStep] SCondition) [SMessage; SStep] = Some (Some (Ok SCondition)) /\
  fun_sort 5 (SgFixed [SMessage] SCondition) [SMessage; SStep] = Some (Some (Err (Some (CEWrongNumber 1)))) /\
  fun_sort 5 (SgFixed [SMessage; SMessage] SCondition) [SMessage] = Some (Some (Err (Some (CEWrongNumber 1)))) /\
  accepts SgBools [SBool; SBool] SBool.
Proof. repeat split; try reflexivity. repeat constructor. Qed.

(** C70. A well-sorted formula whose head is not if-then-else gets its sort... *)
Theorem C70_get_sort_partial : forall kind fuel f s, has_sort kind f s ->
    (forall g args, f = FFun g args -> kind g <> SgIte) -> get_sort kind fuel f = Some (Ok s).
Proof. exact get_sort_head. Qed.
Print Assumptions C70_get_sort_partial.

(** ...an if-then-else never does. *)
Theorem C70_get_sort_ite_refuted : forall kind fuel g args, kind g = SgIte ->
    forall s, get_sort kind fuel (FFun g args) <> Some (Ok s).
Proof. exact get_sort_ite. Qed.
Print Assumptions C70_get_sort_ite_refuted.

Definition ex_kind (f : fsym) : sigkind :=
  match f with
  | Fb CEq => SgEq | Fb CAnd => SgBools | Fite => SgIte | _ => SgFixed [SMessage] SMessage
  end.
Example C70_example :
  let x := FVar (mkVar 0 SMessage) in let b := FVar (mkVar 1 SBool) in
  get_sort ex_kind 9 (FFun (Fb CAnd) [meq x (FFun (Fuser 0) [x]); b]) = Some (Ok SBool) /\
  has_sort ex_kind (FFun (Fb CAnd) [meq x (FFun (Fuser 0) [x]); b]) SBool /\
  has_sort ex_kind (FFun Fite [b; x; x]) SMessage /\
  get_sort ex_kind 9 (FFun Fite [b; x; x]) = Some (Err (Some (CESort None ECantInfer))).
Proof.
  cbv zeta. split; [reflexivity|]. split; [|split; [|reflexivity]].
  - apply hs_fun with (ss := [SBool; SBool]); [|repeat constructor]. constructor; [|constructor; [|constructor]].
    + apply hs_fun with (ss := [SMessage; SMessage]); [|constructor]. constructor; [|constructor; [|constructor]].
      * apply (hs_var ex_kind (mkVar 0 SMessage)).
      * apply hs_fun with (ss := [SMessage]); [|constructor]. constructor; [|constructor]. apply (hs_var ex_kind (mkVar 0 SMessage)).
    + apply (hs_var ex_kind (mkVar 1 SBool)).
  - apply hs_fun with (ss := [SBool; SMessage; SMessage]); [|constructor].
    constructor; [apply (hs_var ex_kind (mkVar 1 SBool))|].
    constructor; [apply (hs_var ex_kind (mkVar 0 SMessage))|].
    constructor; [apply (hs_var ex_kind (mkVar 0 SMessage))|constructor].
Qed.
