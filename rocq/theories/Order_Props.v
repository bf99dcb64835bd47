(** C23 to C26. *)
From Coq Require Import List Arith Bool Lia.
From Verif Require Import Syntax_Model Subst_Model Traversal_Spec Semantics_Spec Semantics_Proofs Order_Model Order_Spec
  Binding_Proofs Order_Proofs Order_Steps_Proofs.
Import ListNotations.

(** A trace [init; A(0); A(1)] for the examples: points 0, 1, 2 happen, 3 does not; [A(2)] and [A(3)] do not happen. *)
Definition x_fint (f : fsym) (ds : list nat) : nat :=
  match f, ds with
  | Fhappens, [d] => b2n (d <? 3)
  | Fleq, [a; b] => b2n ((a <=? b) && (b <? 3))
  | Flt, [a; b] => b2n ((a <? b) && (b <? 3))
  | Fgt, [a; b] => b2n ((b <? a) && (a <? 3))
  | Fpred, [1] => 0
  | Fpred, [2] => 1
  | Fpred, _ => 3
  | Fstep 0, _ => 0
  | Fstep 1, [0] => 1
  | Fstep 1, [1] => 2
  | Fstep 1, _ => 3
  | _, _ => 0
  end.
Definition xM : structure := finM 3 x_fint.
Definition x_init : pstep := mkPStep 0 [] TRUE TRUE.
Definition x_A : pstep := mkPStep 1 [mkVar 0 (SIndex 0)] TRUE TRUE.

Ltac small d := do 4 (destruct d as [|d]; [|]); [..|exfalso; cbn in *; lia].
Lemma x_points : forall d, is_time xM d -> d = 0 \/ d = 1 \/ d = 2 \/ d = 3.
Proof. unfold is_time; cbn. lia. Qed.
Ltac points := repeat match goal with H : is_time xM ?d |- _ => apply x_points in H; destruct H as [->|[->|[->| ->]]] end.
Lemma x_nth i d : nth_error [0; 1; 2] i = Some d -> i = d /\ d < 3.
Proof.
  destruct i as [|[|[|i]]]; cbn; intros H; [injection H as <-; auto..|destruct i; discriminate].
Qed.
Lemma x_nth' d : d < 3 -> nth_error [0; 1; 2] d = Some d.
Proof. destruct d as [|[|[|d]]]; auto. lia. Qed.
Lemma x_trace : is_trace xM 0 [0; 1; 2] 3.
Proof.
  assert (L : forall a b, (exists i j, nth_error [0; 1; 2] i = Some a /\ nth_error [0; 1; 2] j = Some b /\ i <= j) <-> a <= b /\ b < 3).
  { intros a b. split.
    - intros (i & j & Hi & Hj & H). apply x_nth in Hi, Hj. lia.
    - intros [H H']. exists a, b. rewrite !x_nth' by lia. auto. }
  assert (L' : forall a b, (exists i j, nth_error [0; 1; 2] i = Some a /\ nth_error [0; 1; 2] j = Some b /\ i < j) <-> a < b /\ b < 3).
  { intros a b. split.
    - intros (i & j & Hi & Hj & H). apply x_nth in Hi, Hj. lia.
    - intros [H H']. exists a, b. rewrite !x_nth' by lia. auto. }
  constructor; try reflexivity.
  - intros d. unfold is_time; cbn. lia.
  - cbn. lia.
  - repeat constructor; cbn; lia.
  - intros d Hd. points; cbn; unfold tholds; cbn; intuition (auto; try discriminate; try lia).
  - intros a b Ha Hb. rewrite L. points; unfold tholds; cbn; intuition (try discriminate; try lia).
  - intros a b Ha Hb. rewrite L'. points; unfold tholds; cbn; intuition (try discriminate; try lia).
  - intros a b Ha Hb. eexists. reflexivity.
  - intros i a b Ha Hb. apply x_nth in Ha, Hb. destruct Ha as [-> Ha], Hb as [<- Hb].
    destruct a as [|[|a]]; [reflexivity..|lia].
Qed.

(** ** C23 *)
(** Every ordering axiom (other than the one about [>], see C25) holds in every trace. *)
Theorem C23_ordering_axioms_sound : forall M init i tr u,
  (forall rho, eval (M:=M) init rho = i) -> is_trace M i tr u ->
  forall rho, Forall (fun f => holds (M:=M) f rho) (order_theory init).
Proof. exact order_sound. Qed.
Print Assumptions C23_ordering_axioms_sound.

Example C23_example : Forall (fun f => holds (M:=xM) f (fun _ => 0)) (order_theory (into_formula x_init)).
Proof. apply (C23_ordering_axioms_sound xM (into_formula x_init) 0 [0; 1; 2] 3); [reflexivity|exact x_trace]. Qed.
(** The statement is not about an empty list, and the axioms are not all trivially true. *)
Example C23_example_length : length (order_theory (into_formula x_init)) = 12.
Proof. reflexivity. Qed.
Example C23_example_false : exists f, In f (order_theory (into_formula x_init)) /\
  ~ holds (M:=finM 3 (fun _ _ => 0)) f (fun _ => 0).
Proof. eexists. split; [right; left; reflexivity|]. unfold holds; cbn. discriminate. Qed.

(** ** C24 *)
(** If the axioms hold, the points that happen are (up to order) the elements of a trace beginning with [init]. *)
Theorem C24_ordering_axioms_adequate : forall M init i pts,
  (forall rho, eval (M:=M) init rho = i) -> is_time M i -> (forall d, is_time M d -> is_time M (fint M Fpred [d])) ->
  (forall d, is_time M d /\ tholds M Fhappens [d] <-> In d pts) ->
  forall rho, Forall (fun f => holds (M:=M) f rho) (order_theory init) ->
  exists tr, (forall d, In d tr <-> In d pts) /\ is_trace M i tr (fint M Fpred [i]).
Proof. exact order_adequate. Qed.
Print Assumptions C24_ordering_axioms_adequate.

(** Without finiteness: what the axioms say about any two points. *)
Definition order_laws_of (M : structure) (i : D M) : Prop :=
  (forall a, is_time M a -> tholds M Fhappens [a] -> tholds M Fleq [i; a]) /\
  (forall a b, is_time M a -> is_time M b -> tholds M Fhappens [a] -> tholds M Fhappens [b] ->
     (tholds M Fleq [a; b] \/ tholds M Fleq [b; a]) /\
     (tholds M Fleq [a; b] -> tholds M Fleq [b; a] -> a = b) /\
     (tholds M Flt [a; b] <-> tholds M Fleq [a; b] /\ a <> b)) /\
  (forall a b c, is_time M a -> is_time M b -> is_time M c -> tholds M Fleq [a; b] -> tholds M Fleq [b; c] -> tholds M Fleq [a; c]) /\
  (forall a, is_time M a -> tholds M Fhappens [a] -> a <> i ->
     tholds M Flt [fint M Fpred [a]; a] /\
     forall c, is_time M c -> tholds M Flt [c; a] -> tholds M Fleq [c; fint M Fpred [a]]) /\
  ~ tholds M Fhappens [fint M Fpred [i]].
Lemma laws_of_axioms : forall M init i,
  (forall rho, eval (M:=M) init rho = i) -> is_time M i -> (forall d, is_time M d -> is_time M (fint M Fpred [d])) ->
  forall rho, Forall (fun f => holds (M:=M) f rho) (order_theory init) -> order_laws_of M i.
Proof.
  intros M init i Hi Ti Tp rho H. apply (order_theory_laws M init i Hi) in H. rename H into L.
  assert (Hlt : forall a b, is_time M a -> is_time M b -> (tholds M Flt [a; b] <-> tholds M Fleq [a; b] /\ a <> b)).
  { intros a b Ha Hb. unfold tholds at 1. rewrite (ol_lt M i L a b Ha Hb), dtest_inj, andb_true_iff, negb_true_iff.
    unfold tholds. destruct (deq M a b) eqn:E.
    - apply deq_spec in E. subst. intuition congruence.
    - intuition. subst. rewrite deq_refl in E. discriminate. }
  refine (conj _ (conj _ (conj _ (conj _ _)))).
  - apply (ol_least M i L).
  - intros a b Ha Hb Hha Hhb. refine (conj _ (conj _ _)).
    + apply (ol_total M i L); auto.
    + intros H1 H2. apply (ol_anti M i L); auto.
    + apply Hlt; auto.
  - intros a b c Ha Hb Hc H1 H2. apply (ol_trans M i L a b c); auto.
  - intros a Ha Hh Hne. destruct (ol_prev M i L a) as [|Hp]; auto; [congruence|]. split.
    + apply Hlt; auto. split; [apply (ol_pred_le M i L); auto|apply (ol_pred_ne M i L); auto].
    + intros c Hc Hca. apply Hlt in Hca as [Hca Hnca]; auto.
      destruct (proj2 (ol_total M i L c a Hc Ha)) as [Hhc _]; auto.
      destruct (ol_pred_imm M i L a c) as [|H']; auto. exfalso. apply Hnca. apply (ol_anti M i L); auto.
  - apply pred_init_undef; auto.
Qed.
Theorem C24_ordering_laws : forall M init i,
  (forall rho, eval (M:=M) init rho = i) -> is_time M i -> (forall d, is_time M d -> is_time M (fint M Fpred [d])) ->
  forall rho, Forall (fun f => holds (M:=M) f rho) (order_theory init) -> order_laws_of M i.
Proof. exact laws_of_axioms. Qed.
Print Assumptions C24_ordering_laws.

Example C24_example : exists tr, (forall d, In d tr <-> In d [0; 1; 2]) /\ is_trace xM 0 tr 3.
Proof.
  apply (C24_ordering_axioms_adequate xM (into_formula x_init) 0 [0; 1; 2]) with (rho := fun _ => 0);
    [reflexivity|unfold is_time; cbn; lia| | |apply C23_example].
  - intros d Hd. points; unfold is_time; cbn; lia.
  - intros d. split.
    + intros [Hd H]. apply (tr_happens xM 0 [0; 1; 2] 3 x_trace); auto.
    + intros H. assert (is_time xM d) by (apply (tr_points xM 0 [0; 1; 2] 3 x_trace); auto).
      split; auto. apply (tr_happens xM 0 [0; 1; 2] 3 x_trace); auto.
Qed.

(** ** C25 *)
(** Full claim: in every trace where [>] is the converse of [<] the generated axiom holds. It fails in all of them. *)
Lemma gt_wrong : forall M init i tr u,
  (forall rho, eval (M:=M) init rho = i) -> is_trace M i tr u ->
  (forall a b, is_time M a -> is_time M b -> fint M Fgt [a; b] = fint M Flt [b; a]) ->
  forall rho, ~ holds (M:=M) gt_axiom rho.
Proof.
  intros M init i tr u Hi Ht Hg rho H. rewrite gt_axiom_iff in H.
  assert (Ti : is_time M i). { apply (tr_points M i tr u Ht). left. eapply nth_error_In, (tr_first M i tr u Ht). }
  apply (H i i); auto.
Qed.
Theorem C25_gt_is_converse_refuted : forall M init i tr u,
  (forall rho, eval (M:=M) init rho = i) -> is_trace M i tr u ->
  (forall a b, is_time M a -> is_time M b -> fint M Fgt [a; b] = fint M Flt [b; a]) ->
  forall rho, ~ holds (M:=M) gt_axiom rho.
Proof. exact gt_wrong. Qed.
Print Assumptions C25_gt_is_converse_refuted.

Example C25_example : (forall a b, fint xM Fgt [a; b] = fint xM Flt [b; a]) /\ ~ holds (M:=xM) gt_axiom (fun _ => 0).
Proof.
  split; [reflexivity|]. apply (C25_gt_is_converse_refuted xM (into_formula x_init) 0 [0; 1; 2] 3); try reflexivity.
  exact x_trace.
Qed.

(** What the axiom does say: [a > b] is the negation of [b < a], so every point is above itself. *)
Lemma gt_negated : forall M rho,
  (forall a b, is_time M a -> is_time M b -> (exists t, fint M Fgt [a; b] = dinj M t) /\ exists t, fint M Flt [a; b] = dinj M t) ->
  (holds (M:=M) gt_axiom rho <->
   forall a b, is_time M a -> is_time M b -> (tholds M Fgt [a; b] <-> ~ tholds M Flt [b; a])).
Proof.
  intros M rho Hb.
  assert (N : dinj M true <> dinj M false).
  { intros E. apply (f_equal (dtest M)) in E. rewrite !dtest_inj in E. discriminate. }
  rewrite gt_axiom_iff. split; intros H a b Ha Hbt; specialize (H a b Ha Hbt);
    destruct (Hb a b Ha Hbt) as [[t Et] _], (Hb b a Hbt Ha) as [_ [t' Et']]; unfold tholds in *;
    rewrite Et, Et' in *; rewrite ?dtest_inj in *; destruct t, t'; intuition congruence.
Qed.
Theorem C25_gt_axiom_partial : forall M rho,
  (forall a b, is_time M a -> is_time M b -> (exists t, fint M Fgt [a; b] = dinj M t) /\ exists t, fint M Flt [a; b] = dinj M t) ->
  (holds (M:=M) gt_axiom rho <->
   forall a b, is_time M a -> is_time M b -> (tholds M Fgt [a; b] <-> ~ tholds M Flt [b; a])).
Proof. exact gt_negated. Qed.
Print Assumptions C25_gt_axiom_partial.

Example C25_partial_example :
  let M := finM 3 (fun f ds => match f, ds with Fgt, [a; b] => b2n (negb (n2b (x_fint Flt [b; a]))) | _, _ => x_fint f ds end) in
  holds (M:=M) gt_axiom (fun _ => 0) /\ tholds M Fgt [1; 1].
Proof. vm_compute. auto. Qed.

(** ** C26 *)
(** The generated axioms hold exactly where step instances are distinct and exhaustive; in particular in every trace of
    the protocol. *)
Theorem C26_steps_distinct_exhaustive : forall M steps, proper_steps steps -> forall rho,
  Forall (fun f => holds (M:=M) f rho) (step_axioms steps) <->
  steps_distinct M (signature steps) /\ steps_exhaustive M (signature steps).
Proof. exact step_axioms_iff. Qed.
Print Assumptions C26_steps_distinct_exhaustive.

Lemma x_distinct : steps_distinct xM (signature [x_init; x_A]).
Proof.
  intros f ss g ss' ds ds' Hf Hg Hds Hds' Hh Heq.
  assert (C : forall f ss ds, In (f, ss) (signature [x_init; x_A]) -> args_of xM ss ds ->
    f = 0 /\ ds = [] \/ exists d, f = 1 /\ ds = [d] /\ d <= 3).
  { intros f0 ss0 ds0 [E|[E|[]]] H; injection E as <- <-; [left|right].
    - inversion H; auto.
    - inversion H as [|? d ? ? Hd Hn]; subst. inversion Hn; subst. exists d. auto. }
  destruct (C f ss ds Hf Hds) as [[-> ->]|(d & -> & -> & Hd)], (C g ss' ds' Hg Hds') as [[-> ->]|(d' & -> & -> & Hd')]; auto;
    try (do 4 (try destruct d as [|d])); try (do 4 (try destruct d' as [|d'])); try lia; cbn in *; try discriminate; auto.
Qed.
Lemma x_exhaustive : steps_exhaustive xM (signature [x_init; x_A]).
Proof.
  intros d Hd Hh Hn. points.
  - apply (Hn 0 [] []); [left; reflexivity|constructor|reflexivity].
  - apply (Hn 1 [SIndex 0] [0]); [right; left; reflexivity|repeat constructor; cbn; lia|reflexivity].
  - apply (Hn 1 [SIndex 0] [1]); [right; left; reflexivity|repeat constructor; cbn; lia|reflexivity].
  - discriminate.
Qed.
Example C26_example : Forall (fun f => holds (M:=xM) f (fun _ => 0)) (step_axioms [x_init; x_A]).
Proof.
  apply C26_steps_distinct_exhaustive.
  - split; [repeat constructor; cbn; lia|]. intros s [<-|[<-|[]]]; repeat constructor; cbn; auto.
  - split; [exact x_distinct|exact x_exhaustive].
Qed.
(** They are not always true: with a step that is never an instance of [init] or [A] they fail. *)
Example C26_example_false : ~ Forall (fun f => holds (M:=xM) f (fun _ => 0)) (step_axioms [x_A]).
Proof.
  intros H. inversion H as [|? ? H1 H2]; subst. inversion H2 as [|? ? H3 _]; subst. vm_compute in H3. discriminate.
Qed.
