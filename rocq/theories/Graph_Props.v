(** C36: dependencies between memory cells and inputs. *)
From Coq Require Import List Arith Bool Lia Relations.
From Verif Require Import Syntax_Model Traversal_Spec Subst_Model Order_Model Macro_Model Graph_Model Graph_Spec Graph_Proofs.
Import ListNotations.

Section Props.
  Context (steps : list pstep) (cells : list mcell).
  (** What is asked of the graph: every node on which the macro depends is answered. *)
  Definition answers (a : ancestors) (n : dnode) : Prop :=
    match n with
    | DInput => an_input a = true
    | DCell c => exists ce, In ce (an_cells a) /\ ce_fun ce = c
    end.

  Lemma contents_visited fuel g ce a : graph_new fuel steps cells = Some g -> In ce cells -> In a (ce_asgs ce) ->
    exists l, to_nodes steps cells fuel [as_content a] = Some l.
  Proof.
    unfold graph_new. destruct (step_edges steps cells fuel); [|discriminate]. unfold cell_edges.
    destruct (mapM _ (combine _ cells)) as [lc|] eqn:E; [|discriminate]. intros _ Hce Ha.
    apply In_nth_error in Hce as (k & Hk).
    assert (Hin : In (k, ce) (combine (seq 0 (length cells)) cells))
      by (apply combine_seq_nth; rewrite Nat.sub_0_r; split; [lia|exact Hk]).
    destruct (mapM_defined _ _ _ _ E Hin) as (y & _ & Hxy). cbn beta iota in Hxy.
    apply option_map_some in Hxy as (la & Hla & _). destruct (mapM_defined _ _ _ _ Hla Ha) as (z & _ & Hz).
    apply option_map_some in Hz as (l0 & El0 & _). eauto.
  Qed.

  Lemma depends_reaches tq : 
    (forall ce a n, In ce cells -> In a (ce_asgs ce) -> has_occ tq (as_content a) n -> n <> DInput /\ mentions steps (as_content a) n) ->
    forall x y, depends tq steps cells x y -> forall c, x = DCell c -> exists d, y = DCell d /\ cell_reaches steps cells c d.
  Proof.
    intros H x y Hd. induction Hd as [ce a n Hce Ha Ho|s n Hs Ho|s n Hs Ho|x y z Hxy IH1 Hyz IH2]; intros c E; try discriminate.
    - injection E as <-. destruct (H ce a n Hce Ha Ho) as [Hn Hm]. destruct n as [|d]; [congruence|]. exists d.
      split; [reflexivity|]. apply rt_step. exists ce, a. auto.
    - destruct (IH1 c E) as (d & -> & Hr). destruct (IH2 d eq_refl) as (e & -> & Hr'). exists e. split; [reflexivity|].
      eapply rt_trans; eauto.
  Qed.

  Lemma reached_cell fuel g c d : NoDup (map ps_fun steps) -> graph_new fuel steps cells = Some g ->
    In c (map ce_fun cells) -> cell_reaches steps cells c d -> In d (map ce_fun cells).
  Proof.
    intros Hns Hg Hc Hr. apply clos_rt_rtn1 in Hr. destruct Hr as [|d e (ce & a & Hce & _ & Ha & Hm) _]; [exact Hc|].
    destruct (contents_visited fuel g ce a Hg Hce Ha) as (l & El).
    destruct (proj1 (to_nodes_one steps cells Hns fuel _ l El _) Hm) as ([|i] & _ & Hn); [discriminate|].
    destruct Hn as (c' & Hc' & E). injection E as <-. eapply nth_error_In; eauto.
  Qed.

  Lemma graph_closed tq fuel g : NoDup (map ps_fun steps) -> NoDup (map ce_fun cells) -> graph_new fuel steps cells = Some g ->
    (forall ce a n, In ce cells -> In a (ce_asgs ce) -> has_occ tq (as_content a) n -> n <> DInput /\ mentions steps (as_content a) n) ->
    forall ce, In ce cells -> exists n a, (forall m, n <= m -> graph_ancestors g m (RCell (ce_fun ce)) = Some a) /\
      forall x, depends tq steps cells (DCell (ce_fun ce)) x -> answers a x.
  Proof.
    intros Hs Hc Hg H ce Hce. destruct (ancestors_cell steps cells Hs Hc fuel g Hg ce Hce) as (n & a & Ha & _ & Hcells).
    exists n, a. split; [exact Ha|]. intros x Hx. destruct (depends_reaches tq H _ _ Hx _ eq_refl) as (d & -> & Hr). cbn.
    assert (Hd : In d (map ce_fun cells)) by (eapply reached_cell; eauto; apply in_map; exact Hce).
    apply in_map_iff in Hd as (dc & <- & Hdc). exists dc. split; [|reflexivity]. apply Hcells. auto.
  Qed.
End Props.

(** The answers are exactly the cells reached through assignments, for cells, inputs and [exec].
    Missing: dependencies through inputs, through the arguments of cells and through symbolic quantifiers (refuted). *)
Lemma graph_exact : forall steps cells fuel g,
  NoDup (map ps_fun steps) -> NoDup (map ce_fun cells) -> graph_new fuel steps cells = Some g ->
  (forall ce, In ce cells -> exists n a, (forall m, n <= m -> graph_ancestors g m (RCell (ce_fun ce)) = Some a) /\
    an_input a = false /\ forall d, In d (an_cells a) <-> In d cells /\ cell_reaches steps cells (ce_fun ce) (ce_fun d)) /\
  (exists n a, (forall m, n <= m -> graph_ancestors g m RInput = Some a) /\ an_input a = true /\ an_cells a = []) /\
  (exists n a, (forall m, n <= m -> graph_ancestors g m RExec = Some a) /\
    (an_input a = true <-> exists s, In s steps /\ mentions steps (ps_cond s) DInput) /\
    (forall d, In d (an_cells a) <-> In d cells /\
       exists s c, In s steps /\ mentions steps (ps_cond s) (DCell c) /\ cell_reaches steps cells c (ce_fun d))).
Proof.
  intros steps cells fuel g Hs Hc Hg. refine (conj _ (conj _ _)).
  - intros ce. apply (ancestors_cell steps cells Hs Hc fuel g Hg).
  - apply (ancestors_input steps cells Hs Hc fuel g Hg).
  - apply (ancestors_exec steps cells Hs Hc fuel g Hg).
Qed.
Theorem C36_ancestors_exact_partial : forall steps cells fuel g,
  NoDup (map ps_fun steps) -> NoDup (map ce_fun cells) -> graph_new fuel steps cells = Some g ->
  (forall ce, In ce cells -> exists n a, (forall m, n <= m -> graph_ancestors g m (RCell (ce_fun ce)) = Some a) /\
    an_input a = false /\ forall d, In d (an_cells a) <-> In d cells /\ cell_reaches steps cells (ce_fun ce) (ce_fun d)) /\
  (exists n a, (forall m, n <= m -> graph_ancestors g m RInput = Some a) /\ an_input a = true /\ an_cells a = []) /\
  (exists n a, (forall m, n <= m -> graph_ancestors g m RExec = Some a) /\
    (an_input a = true <-> exists s, In s steps /\ mentions steps (ps_cond s) DInput) /\
    (forall d, In d (an_cells a) <-> In d cells /\
       exists s c, In s steps /\ mentions steps (ps_cond s) (DCell c) /\ cell_reaches steps cells c (ce_fun d))).
Proof. exact graph_exact. Qed.
Print Assumptions C36_ancestors_exact_partial.

(** The claim itself, for protocols whose assignments do not read the input and hide nothing. *)
Theorem C36_closed_partial : forall steps cells tq fuel g,
  NoDup (map ps_fun steps) -> NoDup (map ce_fun cells) -> graph_new fuel steps cells = Some g ->
  (forall ce a n, In ce cells -> In a (ce_asgs ce) -> has_occ tq (as_content a) n -> n <> DInput /\ mentions steps (as_content a) n) ->
  forall ce, In ce cells -> exists n a, (forall m, n <= m -> graph_ancestors g m (RCell (ce_fun ce)) = Some a) /\
    forall x, depends tq steps cells (DCell (ce_fun ce)) x -> answers a x.
Proof. exact graph_closed. Qed.
Print Assumptions C36_closed_partial.

(** Cells [0 := c1 + c1], [1 := c2], [2 := k], [3 := k]; cell 0 depends on 1 and 2 and not on 3; a step reads cell 3 in
    its condition and the input in its message. *)
Definition g_at : formula := FFun (Fstep 1) [].
Definition rd (c : nat) : formula := FFun (Fcell c) [g_at].
Definition g_in : formula := FFun (Fmacro MInput) [g_at].
Definition g_A (cond msg : formula) : pstep := mkPStep 1 [] cond msg.
Definition g_cell (A : pstep) (c : nat) (content : formula) : mcell := mkCell c [] [mkAsg A [] content []].
Definition g_cst : formula := FFun (Fuser 9) [].
Definition g1_A : pstep := g_A (FFun (Fta TEq) [rd 3; g_cst]) g_in.
Definition g1_cells : list mcell :=
  [g_cell g1_A 0 (FFun (Fuser 0) [rd 1; rd 1]); g_cell g1_A 1 (rd 2); g_cell g1_A 2 g_cst; g_cell g1_A 3 g_cst].
Definition g1 : option graph := graph_new 20 [g1_A] g1_cells.
Example C36_example : exists g, g1 = Some g /\
  graph_ancestors g 20 (RCell 0) = Some (mkAnc false (firstn 3 g1_cells)) /\
  graph_ancestors g 20 RInput = Some (mkAnc true []) /\
  graph_ancestors g 20 RExec = Some (mkAnc false [g_cell g1_A 3 g_cst]).
Proof. eexists. repeat split; reflexivity. Qed.

(** The occurrences of a formula without symbolic quantifiers, computed (for the examples). *)
Fixpoint occs (f : formula) : list dnode :=
  match f with
  | FVar _ => []
  | FFun s args =>
      match s with Fcell c => [DCell c] | Fmacro MInput => [DInput] | _ => [] end ++ flat_map occs args
  | FQ _ _ b => occs b
  end.
Fixpoint has_quant (f : formula) : bool :=
  match f with
  | FVar _ => false
  | FFun s args => match s with Fquant _ => true | _ => false end || existsb has_quant args
  | FQ _ _ b => has_quant b
  end.
Lemma occs_at f p g n : at_path f p g -> In n (occs g) -> In n (occs f).
Proof.
  induction 1 as [f|s args i p a g Ha H IH|q vs b p g H IH]; intros Hn; auto. cbn. apply in_app_iff. right.
  apply in_flat_map. exists a. split; [eapply nth_error_In; eauto|auto].
Qed.
Lemma quant_at f p g : at_path f p g -> has_quant g = true -> has_quant f = true.
Proof.
  induction 1 as [f|s args i p a g Ha H IH|q vs b p g H IH]; intros Hn; auto. cbn. apply orb_true_iff. right.
  apply existsb_exists. exists a. split; [eapply nth_error_In; eauto|auto].
Qed.
Lemma has_occ_computed tq f n : has_quant f = false -> has_occ tq f n -> In n (occs f).
Proof.
  intros Hq H. destruct H as [f p c args Hp|f p args Hp|f p k args b n Hp Hb H].
  - eapply occs_at; [exact Hp|]. cbn. auto.
  - eapply occs_at; [exact Hp|]. cbn. auto.
  - apply quant_at in Hp; [congruence|reflexivity].
Qed.

Example C36_closed_example : forall tq, exists g, g1 = Some g /\
  (forall ce a n, In ce g1_cells -> In a (ce_asgs ce) -> has_occ tq (as_content a) n -> n <> DInput /\ mentions [g1_A] (as_content a) n) /\
  depends tq [g1_A] g1_cells (DCell 0) (DCell 2).
Proof.
  intros tq. eexists. split; [reflexivity|]. split.
  - intros ce a n Hce Ha Ho.
    cbn in Hce; destruct Hce as [<-|[<-|[<-|[<-|[]]]]]; destruct Ha as [<-|[]]; apply has_occ_computed in Ho; try reflexivity;
      cbn in Ho; repeat destruct Ho as [<-|Ho]; try destruct Ho; (split; [discriminate|]); cbn;
      first [apply men_cell | eapply men_arg; [exact I|left; reflexivity|apply men_cell]].
  - eapply dep_trans.
    + eapply (dep_cell _ _ _ (nth 0 g1_cells (mkCell 0 [] []))); [left; reflexivity|left; reflexivity|].
      eapply occ_cell with (p := [0]). econstructor; [reflexivity|constructor].
    + eapply (dep_cell _ _ _ (nth 1 g1_cells (mkCell 0 [] []))); [right; left; reflexivity|left; reflexivity|].
      eapply occ_cell with (p := []). constructor.
Qed.

(** Cell 0 receives the input and a step outputs cell 1: the dependency is not answered. *)
Lemma input_missed : forall tq, exists steps cells fuel g n a,
  NoDup (map ps_fun steps) /\ NoDup (map ce_fun cells) /\ graph_new fuel steps cells = Some g /\
  (forall m, n <= m -> graph_ancestors g m (RCell 0) = Some a) /\
  depends tq steps cells (DCell 0) DInput /\ ~ answers a DInput /\
  depends tq steps cells (DCell 0) (DCell 1) /\ ~ answers a (DCell 1).
Proof.
  intros tq. pose (A := g_A TRUE (rd 1)). pose (cs := [g_cell A 0 g_in; g_cell A 1 g_cst]).
  assert (Hd : depends tq [A] cs (DCell 0) DInput).
  { apply (dep_cell _ _ _ (g_cell A 0 g_in) (mkAsg A [] g_in [])); [left; reflexivity|left; reflexivity|].
    eapply occ_input with (p := []). constructor. }
  exists [A], cs, 20. eexists. exists 10, (mkAnc false [g_cell A 0 g_in]).
  split; [repeat constructor; cbn; tauto|]. split; [repeat constructor; cbn; intuition discriminate|]. split; [reflexivity|].
  split; [intros m Hm; replace m with (10 + (m - 10)) by lia; reflexivity|]. split; [exact Hd|]. split; [discriminate|]. split.
  - eapply dep_trans; [exact Hd|]. eapply (dep_message _ _ _ A); [left; reflexivity|]. eapply occ_cell with (p := []). constructor.
  - intros (ce & [<-|[]] & E). discriminate.
Qed.
Theorem C36_through_input_refuted : forall tq, exists steps cells fuel g n a,
  NoDup (map ps_fun steps) /\ NoDup (map ce_fun cells) /\ graph_new fuel steps cells = Some g /\
  (forall m, n <= m -> graph_ancestors g m (RCell 0) = Some a) /\
  depends tq steps cells (DCell 0) DInput /\ ~ answers a DInput /\
  depends tq steps cells (DCell 0) (DCell 1) /\ ~ answers a (DCell 1).
Proof. exact input_missed. Qed.
Print Assumptions C36_through_input_refuted.

(** A cell read in the argument of another cell, and one read under a symbolic quantifier. *)
Lemma hidden_missed : exists tq steps cells fuel g n a,
  NoDup (map ps_fun steps) /\ NoDup (map ce_fun cells) /\ graph_new fuel steps cells = Some g /\
  (forall m, n <= m -> graph_ancestors g m (RCell 0) = Some a) /\
  depends tq steps cells (DCell 0) (DCell 2) /\ ~ answers a (DCell 2) /\
  depends tq steps cells (DCell 0) (DCell 3) /\ ~ answers a (DCell 3).
Proof.
  pose (A := g_A TRUE TRUE). pose (f := FFun (Fuser 0) [FFun (Fcell 1) [rd 2; g_at]; FFun (Fquant 0) []]).
  pose (cs := [g_cell A 0 f; mkCell 1 [SMessage] []; g_cell A 2 g_cst; g_cell A 3 g_cst]).
  exists (fun _ => mkTaQuant [] [] [rd 3]), [A], cs, 20. eexists. exists 10, (mkAnc false (firstn 2 cs)).
  split; [repeat constructor; cbn; tauto|]. split; [repeat constructor; cbn; intuition discriminate|]. split; [reflexivity|].
  split; [intros m Hm; replace m with (10 + (m - 10)) by lia; reflexivity|].
  split; [|split; [intros (ce & [<-|[<-|[]]] & E); discriminate|split; [|intros (ce & [<-|[<-|[]]] & E); discriminate]]].
  - apply (dep_cell _ _ _ (g_cell A 0 f) (mkAsg A [] f [])); [left; reflexivity|left; reflexivity|].
    eapply occ_cell with (p := [0; 0]). repeat (econstructor; [reflexivity|]). constructor.
  - apply (dep_cell _ _ _ (g_cell A 0 f) (mkAsg A [] f [])); [left; reflexivity|left; reflexivity|].
    eapply occ_quant with (p := [1]) (b := rd 3); [repeat (econstructor; [reflexivity|]); constructor|left; reflexivity|].
    eapply occ_cell with (p := []). constructor.
Qed.
Theorem C36_hidden_refuted : exists tq steps cells fuel g n a,
  NoDup (map ps_fun steps) /\ NoDup (map ce_fun cells) /\ graph_new fuel steps cells = Some g /\
  (forall m, n <= m -> graph_ancestors g m (RCell 0) = Some a) /\
  depends tq steps cells (DCell 0) (DCell 2) /\ ~ answers a (DCell 2) /\
  depends tq steps cells (DCell 0) (DCell 3) /\ ~ answers a (DCell 3).
Proof. exact hidden_missed. Qed.
Print Assumptions C36_hidden_refuted.
