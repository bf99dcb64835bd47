(** C37, C72, C73 and the unfolding part of C30. *)
From Coq Require Import List Arith Bool Lia.
From Verif Require Import Syntax_Model Traversal_Spec Semantics_Spec Semantics_Proofs Subst_Model Subst_Proofs Order_Model Order_Spec Macro_Model
  Binding_Proofs Macro_Props Graph_Model Graph_Spec Graph_Proofs Graph_Props Expander_Model Expander_Spec Expander_Proofs.
Import ListNotations.

(** A protocol whose parameters are distinct and whose terms only use their parameters. *)
Definition protocol_closed (steps : list pstep) (cells : list mcell) (tq : nat -> ta_quant) : Prop :=
  (forall s, In s steps -> step_closed s) /\
  (forall ce a, In ce cells -> In a (ce_asgs ce) -> asg_closed a) /\
  (forall k, quant_closed (tq k)).
(** The graph only answers cells of the protocol. *)
Definition answers_cells (anc : mref -> option ancestors) (cells : list mcell) : Prop :=
  forall r a ce, anc r = Some a -> In ce (an_cells a) -> In ce cells.
(** A term as the parser builds it: macros have one argument, cells end with a time point, quantifiers are given their free
    variables; what is free is recorded in the state. *)
Definition well_called (anc : mref -> option ancestors) (tq : nat -> ta_quant) (f : formula) : Prop :=
  match f with
  | FFun (Fmacro MInput) args => length args = 1 /\ anc RInput <> None
  | FFun (Fmacro MExec) args => length args = 1 /\ anc RExec <> None
  | FFun (Fmacro _) args => length args = 1
  | FFun (Fcell c) args => args <> [] /\ anc (RCell c) <> None
  | FFun (Fquant k) args => length args = length (tq_free (tq k)) /\ Forall plain args
  | _ => True
  end.
Definition arguments (f : formula) : list formula := match f with FFun _ args => args | _ => [] end.

Lemma mapM_spec {A B} (f : A -> option B) (P : A -> B -> Prop) l :
  (forall a, In a l -> exists b, f a = Some b /\ P a b) ->
  exists bs, mapM f l = Some bs /\ (forall a, In a l -> exists b, In b bs /\ P a b) /\ (forall b, In b bs -> exists a, In a l /\ P a b).
Proof.
  intros H. destruct (mapM f l) as [bs|] eqn:E.
  - exists bs. split; [reflexivity|]. split.
    + intros a Ha. destruct (mapM_defined _ _ _ _ E Ha) as (b & Hb & Eb). destruct (H a Ha) as (b' & Eb' & Hp).
      exists b. split; [exact Hb|]. congruence.
    + intros b Hb. destruct (proj1 (mapM_in _ _ _ E b) Hb) as (a & Ha & Eb). destruct (H a Ha) as (b' & Eb' & Hp).
      exists a. split; [exact Ha|]. congruence.
  - exfalso. apply mapM_total in E; auto. intros a Ha. destruct (H a Ha) as (b & -> & _). discriminate.
Qed.

(** An input, a cell or [exec] at the time point [origin]. *)
Definition reached_by (r : mref) (s : pstep) (origin : formula) :=
  match r with RInput => strictly_before s origin | _ => before_or_at s origin end.

Section Props.
  Context (steps : list pstep) (cells : list mcell) (anc : mref -> option ancestors) (tq : nat -> ta_quant).
  Context (Hclosed : protocol_closed steps cells tq) (Hanc : answers_cells anc cells).

  Lemma cell_or_input_covers r st args origin a : state_ok st -> scoped [origin] (ss_bound st) -> anc r = Some a ->
    exists us, unfold_cell_or_input steps anc r st (args ++ [origin]) = Some us /\
      (forall u, In u us -> ss_flags (snd u) = ss_flags st) /\
      (forall ce asg, In ce (an_cells a) -> In asg (ce_asgs ce) ->
         exists u, In u us /\ represents st (ps_vars (as_step asg) ++ as_fresh asg) (as_content asg) u (reached_by r (as_step asg) origin)) /\
      (an_input a = true -> forall s f, In s steps -> f = ps_msg s \/ f = ps_cond s ->
         exists u, In u us /\ represents st (ps_vars s) f u (strictly_before s origin)) /\
      (forall u, In u us ->
         (exists ce asg, In ce (an_cells a) /\ In asg (ce_asgs ce) /\
            represents st (ps_vars (as_step asg) ++ as_fresh asg) (as_content asg) u (reached_by r (as_step asg) origin)) \/
         an_input a = true /\ exists s f, In s steps /\ (f = ps_msg s \/ f = ps_cond s) /\ represents st (ps_vars s) f u (strictly_before s origin)).
  Proof.
    intros Hst Ho Ea. destruct Hclosed as (Hsteps & Hcells & _). unfold unfold_cell_or_input. rewrite Ea, rev_app_distr. cbn.
    destruct a as [input cs]. cbn [an_input an_cells].
    set (is_input := match r with RInput => true | _ => false end).
    destruct (mapM_spec (unfold_assignment st is_input origin)
      (fun asg u => ss_flags (snd u) = ss_flags st /\ represents st (ps_vars (as_step asg) ++ as_fresh asg) (as_content asg) u (reached_by r (as_step asg) origin))
      (flat_map ce_asgs cs)) as (l1 & E1 & Hc1 & Hs1).
    { intros asg Hin. apply in_flat_map in Hin as (ce & Hce & Ha).
      assert (Hin : asg_closed asg) by (eapply Hcells; [eapply (Hanc r); eauto|exact Ha]).
      destruct (unfold_assignment_ok st is_input origin asg Hst Ho Hin) as (u & Eu & Hf & Hr).
      exists u. split; [exact Eu|]. split; [exact Hf|]. destruct r; exact Hr. }
    rewrite E1.
    set (sl := flat_map (fun s => [(s, ps_msg s); (s, ps_cond s)]) steps).
    destruct (mapM_spec (fun '(s, f) => unfold_step st origin s f)
      (fun sf u => ss_flags (snd u) = ss_flags st /\ represents st (ps_vars (fst sf)) (snd sf) u (strictly_before (fst sf) origin)) sl) as (l2 & E2 & Hc2 & Hs2).
    { intros [s f] Hin. apply in_flat_map in Hin as (s' & Hs' & [E|[E|[]]]); injection E as <- <-;
        destruct (Hsteps s' Hs') as [H1 H2].
      - destruct (unfold_step_ok st origin s' _ Hst Ho H1) as (u & Eu & Hf & Hr). exists u. cbn; auto.
      - destruct (unfold_step_ok st origin s' _ Hst Ho H2) as (u & Eu & Hf & Hr). exists u. cbn; auto. }
    assert (Hsl : forall s f, In (s, f) sl <-> In s steps /\ (f = ps_msg s \/ f = ps_cond s)).
    { intros s f. unfold sl. rewrite in_flat_map. split.
      - intros (s' & Hs' & [E|[E|[]]]); injection E as <- <-; auto.
      - intros [Hs [->| ->]]; exists s; cbn; auto. }
    assert (Hasg : forall ce asg, In ce cs -> In asg (ce_asgs ce) -> In asg (flat_map ce_asgs cs))
      by (intros ce asg H1 H2; apply in_flat_map; exists ce; auto).
    destruct input.
    - rewrite E2. exists (l1 ++ l2). split; [reflexivity|]. refine (conj _ (conj _ (conj _ _))).
      + intros u Hu. apply in_app_iff in Hu as [Hu|Hu]; [apply Hs1 in Hu|apply Hs2 in Hu]; destruct Hu as (x & _ & H & _); exact H.
      + intros ce asg H1 H2. destruct (Hc1 asg (Hasg ce asg H1 H2)) as (u & Hu & _ & Hr). exists u. rewrite in_app_iff. auto.
      + intros _ s f Hs Hf. destruct (Hc2 (s, f)) as (u & Hu & _ & Hr); [apply Hsl; auto|]. exists u. rewrite in_app_iff. auto.
      + intros u Hu. apply in_app_iff in Hu as [Hu|Hu].
        * left. apply Hs1 in Hu as (asg & Ha & _ & Hr). apply in_flat_map in Ha as (ce & Hce & Ha). eauto.
        * right. split; [reflexivity|]. apply Hs2 in Hu as ([s f] & Hin & _ & Hr). apply Hsl in Hin as [Hs Hf]. exists s, f. auto.
    - exists (l1 ++ []). rewrite app_nil_r. split; [reflexivity|]. refine (conj _ (conj _ (conj _ _))).
      + intros u Hu. apply Hs1 in Hu. destruct Hu as (x & _ & H & _); exact H.
      + intros ce asg H1 H2. destruct (Hc1 asg (Hasg ce asg H1 H2)) as (u & Hu & _ & Hr). eauto.
      + discriminate.
      + intros u Hu. left. apply Hs1 in Hu as (asg & Ha & _ & Hr). apply in_flat_map in Ha as (ce & Hce & Ha). eauto.
  Qed.

  Lemma represents_adds st params f u R : represents st params f u R -> exists new, adds st (snd u) new.
  Proof. intros (new & H & _). eauto. Qed.

  Lemma scoped_in f fs vs : scoped fs vs -> In f fs -> scoped [f] vs.
  Proof. intros H Hin g i [<-|[]] Hi. eapply H; eauto. Qed.

  Lemma last_arg (args : list formula) : args <> [] -> exists l o, args = l ++ [o].
  Proof.
    intros H. destruct (rev args) as [|o l] eqn:E.
    - exfalso. apply H. rewrite <- (rev_involutive args), E. reflexivity.
    - exists (rev l), o. rewrite <- (rev_involutive args), E. reflexivity.
  Qed.

  Lemma unfold_total f st : state_ok st -> scoped (arguments f) (ss_bound st) -> well_called anc tq f ->
    exists us, unfold steps anc tq (f, st) = Some us /\ forall u, In u us -> exists new, adds st (snd u) new.
  Proof.
    intros Hst Hsc Hw.
    assert (Hnil : exists us : list unfolder, Some [] = Some us /\ forall u, In u us -> exists new, adds st (snd u) new)
      by (exists []; split; [reflexivity|intros u []]).
    assert (Hci : forall r args flags, args <> [] -> anc r <> None -> scoped args (ss_bound st) ->
      exists us, unfold_cell_or_input steps anc r (mkSt flags (ss_bound st) (ss_guard st)) args = Some us /\ forall u, In u us -> exists new, adds st (snd u) new).
    { intros r args flags Ha Hr Hs. destruct (last_arg args Ha) as (l & o & ->). destruct (anc r) as [a|] eqn:E; [|congruence].
      destruct (cell_or_input_covers r (mkSt flags (ss_bound st) (ss_guard st)) l o a Hst) as (us & Eu & _ & _ & _ & Hall); auto.
      - eapply scoped_in; [exact Hs|]. apply in_app_iff. cbn. auto.
      - exists us. split; [exact Eu|]. intros u Hu.
        destruct (Hall u Hu) as [(ce & asg & _ & _ & Hr1)|(_ & s & g & _ & _ & Hr1)]; apply represents_adds in Hr1; exact Hr1. }
    assert (Hmac : forall is_cond args, length args = 1 -> scoped args (ss_bound st) ->
      exists us, unfold_step_macro steps st is_cond args = Some us /\ forall u, In u us -> exists new, adds st (snd u) new).
    { intros is_cond [|arg [|]] Hl Hs; try discriminate. cbn.
      destruct (mapM_spec (fun s =>
          let col := collision_subst (ps_vars s) (ss_bound st) in
          let nvars := map (get_var col) (ps_vars s) in
          match add_condition st nvars (meq arg (step_term s nvars)) with
          | None => None
          | Some st' => Some (if is_cond then ps_cond s else ps_msg s, st')
          end) (fun _ u => exists new, adds st (snd u) new) steps) as (us & E & _ & H).
      - intros s Hins. destruct Hclosed as (Hsteps & _). destruct (Hsteps s Hins) as [Hc _].
        destruct (unfold_macro_ok st s arg _ Hst Hs Hc) as (st' & E & Ha & _). cbn zeta. rewrite E. eexists. split; [reflexivity|].
        cbn. eauto.
      - exists us. split; [exact E|]. intros u Hu. destruct (H u Hu) as (_ & _ & Hn). exact Hn. }
    destruct f as [v|g args|q vs b]; cbn [unfold].
    - exact Hnil.
    - destruct g; cbn [well_called arguments] in *; try exact Hnil.
      + destruct (uf_cells (ss_flags st)); [|exact Hnil]. destruct Hw. apply Hci; auto.
      + destruct m; cbn [well_called] in Hw.
        all: try (destruct Hw as [Hw1 Hw2]; assert (args <> []) by (intros ->; discriminate)).
        * destruct (uf_macros (ss_flags st)); [|exact Hnil]. apply Hmac; auto.
        * destruct (uf_macros (ss_flags st)); [|exact Hnil]. apply Hmac; auto.
        * destruct (uf_input (ss_flags st)); [|exact Hnil]. apply Hci; auto.
        * destruct (uf_exec (ss_flags st)); [|exact Hnil]. apply Hci; auto.
      + destruct (uf_quant (ss_flags st)); [|exact Hnil]. destruct Hw as [Hw1 Hw2]. destruct Hclosed as (_ & _ & Hq).
        destruct (unfold_quantifier_ok st (tq i) args Hst Hsc Hw2 (Hq i) Hw1) as (us & E & Hl & Hall).
        exists us. split; [exact E|]. intros u Hu. apply In_nth_error in Hu as (k & Hk).
        destruct (nth_error (tq_contents (tq i)) k) as [f|] eqn:Ef.
        * destruct (Hall k f u Ef Hk) as (_ & new & Ha & _). eauto.
        * exfalso. apply nth_error_None in Ef. assert (k < length us) by (apply nth_error_Some; congruence). lia.
    - exists [(b, st)]. split; [reflexivity|]. intros u [<-|[]]. exists []. cbn. split; [rewrite app_nil_r; reflexivity|]. apply Hst.
  Qed.
End Props.

(** Never a panic, and the variables of every result are distinct: those in use and the new ones.
    Missing: variables of quantifiers of the evaluated logic are not recorded in the state (refuted below), so the free variables of the
    arguments are assumed to be recorded. *)
Theorem C37_renames_apart_partial : forall steps cells anc tq, protocol_closed steps cells tq -> answers_cells anc cells ->
  forall f st, state_ok st -> scoped (arguments f) (ss_bound st) -> well_called anc tq f ->
  exists us, unfold steps anc tq (f, st) = Some us /\ forall u, In u us -> exists new, adds st (snd u) new.
Proof. exact unfold_total. Qed.
Print Assumptions C37_renames_apart_partial.

(** Symbolic quantifiers: the content at fresh values of the bound variables and at the values of the arguments. *)
Lemma quantifier_meaning : forall steps anc tq k args st, state_ok st -> scoped args (ss_bound st) -> Forall plain args ->
  quant_closed (tq k) -> length args = length (tq_free (tq k)) -> uf_quant (ss_flags st) = true ->
  exists us, unfold steps anc tq (FFun (Fquant k) args, st) = Some us /\ length us = length (tq_contents (tq k)) /\
    forall n f u, nth_error (tq_contents (tq k)) n = Some f -> nth_error us n = Some u ->
      ss_flags (snd u) = ss_flags st /\
      exists new, adds st (snd u) new /\ map vsort new = map vsort (tq_bound (tq k)) /\
        forall (M : structure) (rho : env M) ds, typed new ds ->
          eval (fst u) (bindv rho new ds) =
            eval f (bindv (bindv rho (tq_free (tq k)) (map (fun a => eval a rho) args)) (tq_bound (tq k)) ds) /\
          (guard_holds (snd u) (bindv rho new ds) <-> guard_holds st rho).
Proof.
  intros steps anc tq k args st Hst Hs Hp Hq Hl Hf. cbn. rewrite Hf. apply unfold_quantifier_ok; auto.
Qed.
Theorem C37_quantifier_partial : forall steps anc tq k args st, state_ok st -> scoped args (ss_bound st) -> Forall plain args ->
  quant_closed (tq k) -> length args = length (tq_free (tq k)) -> uf_quant (ss_flags st) = true ->
  exists us, unfold steps anc tq (FFun (Fquant k) args, st) = Some us /\ length us = length (tq_contents (tq k)) /\
    forall n f u, nth_error (tq_contents (tq k)) n = Some f -> nth_error us n = Some u ->
      ss_flags (snd u) = ss_flags st /\
      exists new, adds st (snd u) new /\ map vsort new = map vsort (tq_bound (tq k)) /\
        forall (M : structure) (rho : env M) ds, typed new ds ->
          eval (fst u) (bindv rho new ds) =
            eval f (bindv (bindv rho (tq_free (tq k)) (map (fun a => eval a rho) args)) (tq_bound (tq k)) ds) /\
          (guard_holds (snd u) (bindv rho new ds) <-> guard_holds st rho).
Proof. exact quantifier_meaning. Qed.
Print Assumptions C37_quantifier_partial.

(** Every message and condition an input can be made of is reached, with the guard that says so, and nothing else. *)
Lemma input_covers : forall steps cells tq fuel g, protocol_closed steps cells tq ->
  NoDup (map ps_fun steps) -> NoDup (map ce_fun cells) -> graph_new fuel steps cells = Some g ->
  exists n, forall m, n <= m -> forall t st, state_ok st -> scoped [t] (ss_bound st) -> uf_input (ss_flags st) = true ->
  exists us, unfold steps (graph_ancestors g m) tq (FFun (Fmacro MInput) [t], st) = Some us /\
    (forall u, In u us -> only_input_off (ss_flags st) (ss_flags (snd u))) /\
    (forall s f, In s steps -> f = ps_msg s \/ f = ps_cond s -> exists u, In u us /\ represents st (ps_vars s) f u (strictly_before s t)) /\
    (forall u, In u us -> exists s f, In s steps /\ (f = ps_msg s \/ f = ps_cond s) /\ represents st (ps_vars s) f u (strictly_before s t)).
Proof.
  intros steps cells tq fuel g Hcl Hns Hnc Hg. destruct (ancestors_input steps cells Hns Hnc fuel g Hg) as (n & a & Ha & Hi & Hc).
  exists n. intros m Hm t st Hst Hsc Hf.
  assert (Hanc : answers_cells (fun r => match r with RInput => Some a | _ => None end) cells).
  { intros [| |c] a' ce E Hin; try discriminate. injection E as <-. rewrite Hc in Hin. destruct Hin. }
  destruct (cell_or_input_covers steps cells _ tq Hcl Hanc RInput
    (mkSt (no_input_flag (ss_flags st)) (ss_bound st) (ss_guard st)) [] t a Hst Hsc eq_refl) as (us & E & Hfl & _ & Hcov & Hall).
  exists us. split.
  - cbn [unfold]. rewrite Hf. rewrite <- E. unfold unfold_cell_or_input. rewrite (Ha m Hm). reflexivity.
  - split; [intros u Hu; rewrite (Hfl u Hu); repeat split|]. split; [apply Hcov; exact Hi|]. intros u Hu.
    destruct (Hall u Hu) as [(ce & asg & Hce & _)|(_ & H)]; [rewrite Hc in Hce; destruct Hce|exact H].
Qed.
Theorem C73_input_covered : forall steps cells tq fuel g, protocol_closed steps cells tq ->
  NoDup (map ps_fun steps) -> NoDup (map ce_fun cells) -> graph_new fuel steps cells = Some g ->
  exists n, forall m, n <= m -> forall t st, state_ok st -> scoped [t] (ss_bound st) -> uf_input (ss_flags st) = true ->
  exists us, unfold steps (graph_ancestors g m) tq (FFun (Fmacro MInput) [t], st) = Some us /\
    (forall u, In u us -> only_input_off (ss_flags st) (ss_flags (snd u))) /\
    (forall s f, In s steps -> f = ps_msg s \/ f = ps_cond s -> exists u, In u us /\ represents st (ps_vars s) f u (strictly_before s t)) /\
    (forall u, In u us -> exists s f, In s steps /\ (f = ps_msg s \/ f = ps_cond s) /\ represents st (ps_vars s) f u (strictly_before s t)).
Proof. exact input_covers. Qed.
Print Assumptions C73_input_covered.

(** A cell: every assignment of every cell it reads, directly or not, at or before the time point. *)
Lemma cell_covers : forall steps cells tq fuel g, protocol_closed steps cells tq ->
  NoDup (map ps_fun steps) -> NoDup (map ce_fun cells) -> graph_new fuel steps cells = Some g ->
  forall ce, In ce cells -> exists n, forall m, n <= m -> forall args t st,
  state_ok st -> scoped [t] (ss_bound st) -> uf_cells (ss_flags st) = true ->
  exists us, unfold steps (graph_ancestors g m) tq (FFun (Fcell (ce_fun ce)) (args ++ [t]), st) = Some us /\
    (forall u, In u us -> only_cells_off (ss_flags st) (ss_flags (snd u))) /\
    (forall d a, In d cells -> cell_reaches steps cells (ce_fun ce) (ce_fun d) -> In a (ce_asgs d) ->
       exists u, In u us /\ represents st (ps_vars (as_step a) ++ as_fresh a) (as_content a) u (before_or_at (as_step a) t)) /\
    (forall u, In u us -> exists d a, In d cells /\ cell_reaches steps cells (ce_fun ce) (ce_fun d) /\ In a (ce_asgs d) /\
       represents st (ps_vars (as_step a) ++ as_fresh a) (as_content a) u (before_or_at (as_step a) t)).
Proof.
  intros steps cells tq fuel g Hcl Hns Hnc Hg ce Hce.
  destruct (ancestors_cell steps cells Hns Hnc fuel g Hg ce Hce) as (n & a & Ha & Hi & Hc).
  exists n. intros m Hm args t st Hst Hsc Hf.
  assert (Hanc : answers_cells (fun r => match r with RCell _ => Some a | _ => None end) cells).
  { intros [| |c] a' d E Hin; try discriminate. injection E as <-. apply Hc. exact Hin. }
  destruct (cell_or_input_covers steps cells _ tq Hcl Hanc (RCell (ce_fun ce))
    (mkSt (no_cells_flag (ss_flags st)) (ss_bound st) (ss_guard st)) args t a Hst Hsc eq_refl) as (us & E & Hfl & Hcov & _ & Hall).
  exists us. split.
  - cbn [unfold]. rewrite Hf. rewrite <- E. unfold unfold_cell_or_input. rewrite (Ha m Hm). reflexivity.
  - split; [intros u Hu; rewrite (Hfl u Hu); repeat split|]. split.
    + intros d asg Hd Hr Hasg. apply (Hcov d asg); [apply Hc; auto|exact Hasg].
    + intros u Hu. destruct (Hall u Hu) as [(d & asg & Hd & Hasg & Hr)|(Hi' & _)]; [|congruence].
      exists d, asg. apply Hc in Hd as [Hd Hreach]. auto.
Qed.
Theorem C73_cell_covered : forall steps cells tq fuel g, protocol_closed steps cells tq ->
  NoDup (map ps_fun steps) -> NoDup (map ce_fun cells) -> graph_new fuel steps cells = Some g ->
  forall ce, In ce cells -> exists n, forall m, n <= m -> forall args t st,
  state_ok st -> scoped [t] (ss_bound st) -> uf_cells (ss_flags st) = true ->
  exists us, unfold steps (graph_ancestors g m) tq (FFun (Fcell (ce_fun ce)) (args ++ [t]), st) = Some us /\
    (forall u, In u us -> only_cells_off (ss_flags st) (ss_flags (snd u))) /\
    (forall d a, In d cells -> cell_reaches steps cells (ce_fun ce) (ce_fun d) -> In a (ce_asgs d) ->
       exists u, In u us /\ represents st (ps_vars (as_step a) ++ as_fresh a) (as_content a) u (before_or_at (as_step a) t)) /\
    (forall u, In u us -> exists d a, In d cells /\ cell_reaches steps cells (ce_fun ce) (ce_fun d) /\ In a (ce_asgs d) /\
       represents st (ps_vars (as_step a) ++ as_fresh a) (as_content a) u (before_or_at (as_step a) t)).
Proof. exact cell_covers. Qed.
Print Assumptions C73_cell_covered.

(** [exec]: the conditions of the earlier steps, provided that some condition reads an input.
    Missing: the condition of the step itself, and everything when no condition reads an input (both refuted below). *)
Lemma exec_covers : forall steps cells tq fuel g, protocol_closed steps cells tq ->
  NoDup (map ps_fun steps) -> NoDup (map ce_fun cells) -> graph_new fuel steps cells = Some g ->
  (exists s, In s steps /\ mentions steps (ps_cond s) DInput) ->
  exists n, forall m, n <= m -> forall t st, state_ok st -> scoped [t] (ss_bound st) -> uf_exec (ss_flags st) = true ->
  exists us, unfold steps (graph_ancestors g m) tq (FFun (Fmacro MExec) [t], st) = Some us /\
    (forall u, In u us -> only_exec_off (ss_flags st) (ss_flags (snd u))) /\
    (forall s, In s steps -> exists u, In u us /\ represents st (ps_vars s) (ps_cond s) u (strictly_before s t)).
Proof.
  intros steps cells tq fuel g Hcl Hns Hnc Hg Hin. destruct (ancestors_exec steps cells Hns Hnc fuel g Hg) as (n & a & Ha & Hi & Hc).
  exists n. intros m Hm t st Hst Hsc Hf.
  assert (Hanc : answers_cells (fun r => match r with RExec => Some a | _ => None end) cells).
  { intros [| |c] a' ce E Hx; try discriminate. injection E as <-. apply Hc in Hx. apply Hx. }
  destruct (cell_or_input_covers steps cells _ tq Hcl Hanc RExec
    (mkSt (no_exec_flag (ss_flags st)) (ss_bound st) (ss_guard st)) [] t a Hst Hsc eq_refl) as (us & E & Hfl & _ & Hcov & Hall).
  exists us. split.
  - cbn [unfold]. rewrite Hf. rewrite <- E. unfold unfold_cell_or_input. rewrite (Ha m Hm). reflexivity.
  - split; [intros u Hu; rewrite (Hfl u Hu); repeat split|]. intros s Hs. apply Hcov; auto. apply Hi. exact Hin.
Qed.
Theorem C72_exec_partial : forall steps cells tq fuel g, protocol_closed steps cells tq ->
  NoDup (map ps_fun steps) -> NoDup (map ce_fun cells) -> graph_new fuel steps cells = Some g ->
  (exists s, In s steps /\ mentions steps (ps_cond s) DInput) ->
  exists n, forall m, n <= m -> forall t st, state_ok st -> scoped [t] (ss_bound st) -> uf_exec (ss_flags st) = true ->
  exists us, unfold steps (graph_ancestors g m) tq (FFun (Fmacro MExec) [t], st) = Some us /\
    (forall u, In u us -> only_exec_off (ss_flags st) (ss_flags (snd u))) /\
    (forall s, In s steps -> exists u, In u us /\ represents st (ps_vars s) (ps_cond s) u (strictly_before s t)).
Proof. exact exec_covers. Qed.
Print Assumptions C72_exec_partial.

(** Checks for the examples. *)
Fixpoint ok_term (ids : list nat) (f : formula) : bool :=
  match f with
  | FVar v => existsb (Nat.eqb (vid v)) ids
  | FFun _ args => forallb (ok_term ids) args
  | FQ _ _ _ => false
  end.
Lemma ok_term_at ids f p g : ok_term ids f = true -> at_path f p g -> ok_term ids g = true.
Proof.
  intros H Hp. revert H. induction Hp as [f|s args i p a g Ha Hp IH|q vs b p g Hp IH]; intros H; auto.
  - apply IH. cbn in H. rewrite forallb_forall in H. apply H. eapply nth_error_In; eauto.
  - discriminate.
Qed.
Lemma ok_term_scoped vs fs : forallb (ok_term (map vid vs)) fs = true -> scoped fs vs.
Proof.
  intros H f i Hf (p & v & Hp & <- & _). rewrite forallb_forall in H. apply (ok_term_at _ _ _ _ (H f Hf)) in Hp.
  cbn in Hp. apply existsb_id in Hp. exact Hp.
Qed.
Lemma ok_term_plain ids f : ok_term ids f = true -> plain f.
Proof. intros H p q vs b Hp. apply (ok_term_at _ _ _ _ H) in Hp. discriminate. Qed.
Lemma ok_closed params f : all_unique (map vid params) = true -> ok_term (map vid params) f = true -> closed_over params f.
Proof.
  intros H1 H2. split; [apply all_unique_iff; exact H1|]. split; [apply ok_term_scoped; cbn; rewrite H2; reflexivity|].
  eapply ok_term_plain; eauto.
Qed.
Lemma ok_quant q : all_unique (map vid (tq_free q ++ tq_bound q)) = true ->
  forallb (ok_term (map vid (tq_free q ++ tq_bound q))) (tq_contents q) = true -> quant_closed q.
Proof.
  intros H1 H2. apply all_unique_iff in H1. rewrite map_app in H1.
  assert (H : NoDup (map vid (tq_free q)) /\ NoDup (map vid (tq_bound q)) /\ (forall i, In i (map vid (tq_bound q)) -> ~ In i (map vid (tq_free q)))).
  { clear H2. induction (map vid (tq_free q)) as [|i l IH]; cbn in *; [repeat split; auto; constructor|].
    inversion H1 as [|? ? Hi Hn]; subst. destruct (IH Hn) as (A & B & C). rewrite in_app_iff in Hi. repeat split; auto.
    - constructor; auto.
    - intros j Hj [<-|Hj']; [tauto|]. eapply C; eauto. }
  destruct H as (A & B & C). split; [exact B|]. split; [exact A|]. split; [exact C|]. split; [apply ok_term_scoped; exact H2|].
  intros f Hf. rewrite forallb_forall in H2. eapply ok_term_plain; eauto.
Qed.

Definition all_on : uflags := mkFlags true true true true true.
Definition ix (k : nat) : var := mkVar k (SIndex 0).
(** Step [A(i)] outputs [u(i, input)] and reads the input in its condition; cell 0 receives, at [A(i)], a value that depends on [i] and a fresh [j]. *)
Definition e_A : pstep :=
  mkPStep 1 [ix 0] (FFun (Fta TEq) [FFun (Fmacro MInput) [FFun (Fstep 1) [FVar (ix 0)]]; FFun (Fuser 2) [FVar (ix 0)]])
    (FFun (Fuser 0) [FVar (ix 0); FFun (Fmacro MInput) [FFun (Fstep 1) [FVar (ix 0)]]]).
Definition e_cell : mcell := mkCell 0 [SIndex 0] [mkAsg e_A [FVar (ix 0)] (FFun (Fuser 3) [FVar (ix 0); FVar (ix 1)]) [ix 1]].
Definition e_tq (_ : nat) : ta_quant := mkTaQuant [ix 1] [ix 0] [FFun (Fuser 4) [FVar (ix 0); FVar (ix 1)]].
Definition e_st : sstate := mkSt all_on [ix 0; mkVar 2 SStep] (Some (FFun Fhappens [FVar (mkVar 2 SStep)])).
Definition e_t : formula := FFun (Fstep 1) [FVar (ix 0)].
Example C37_example :
  protocol_closed [e_A] [e_cell] e_tq /\ state_ok e_st /\ scoped [e_t] (ss_bound e_st) /\
  (exists g, graph_new 30 [e_A] [e_cell] = Some g /\ answers_cells (graph_ancestors g 30) [e_cell] /\
    well_called (graph_ancestors g 30) e_tq (FFun (Fmacro MInput) [e_t]) /\
    (exists s, In s [e_A] /\ mentions [e_A] (ps_cond s) DInput) /\
    option_map (map (fun u => (fst u, ss_bound (snd u)))) (unfold [e_A] (graph_ancestors g 30) e_tq (FFun (Fmacro MInput) [e_t], e_st)) =
      Some [(FFun (Fuser 0) [FVar (ix 3); FFun (Fmacro MInput) [FFun (Fstep 1) [FVar (ix 3)]]], [ix 0; mkVar 2 SStep; ix 3]);
            (FFun (Fta TEq) [FFun (Fmacro MInput) [FFun (Fstep 1) [FVar (ix 3)]]; FFun (Fuser 2) [FVar (ix 3)]], [ix 0; mkVar 2 SStep; ix 3])] /\
    option_map (map (fun u => (fst u, ss_bound (snd u)))) (unfold [e_A] (graph_ancestors g 30) e_tq (FFun (Fcell 0) [FVar (ix 0); e_t], e_st)) =
      Some [(FFun (Fuser 3) [FVar (ix 3); FVar (ix 1)], [ix 0; mkVar 2 SStep; ix 3; ix 1])] /\
    option_map (map (fun u => (fst u, ss_bound (snd u)))) (unfold [e_A] (graph_ancestors g 30) e_tq (FFun (Fquant 0) [FVar (ix 0)], e_st)) =
      Some [(FFun (Fuser 4) [FVar (ix 0); FVar (ix 1)], [ix 0; mkVar 2 SStep; ix 1])]).
Proof.
  split.
  { split; [|split].
    - intros s [<-|[]]. split; apply ok_closed; reflexivity.
    - intros ce a [<-|[]] [<-|[]]. apply ok_closed; reflexivity.
    - intros k. apply ok_quant; reflexivity. }
  split; [split; [apply all_unique_iff; reflexivity|apply ok_term_scoped; reflexivity]|].
  split; [apply ok_term_scoped; reflexivity|].
  eexists. split; [reflexivity|]. split.
  { intros r a ce E Hin. destruct r as [| |c]; [| |].
    - vm_compute in E. injection E as <-. cbn in Hin |- *. tauto.
    - vm_compute in E. injection E as <-. cbn in Hin |- *. tauto.
    - destruct c as [|c]; [vm_compute in E; injection E as <-; exact Hin|]. discriminate. }
  split; [cbn; split; [reflexivity|discriminate]|].
  split. { exists e_A. split; [left; reflexivity|]. cbn. eapply men_arg; [exact I|left; reflexivity|apply men_input]. }
  repeat split; reflexivity.
Qed.

(** Under a quantifier of the evaluated logic: for [forall i, ... input@A(i)], the message of [A] is reached under [A(i) < A(i)]. *)
Definition r_M (k : nat) : structure := finM 2 (fun s ds => match s, ds with
  | Fstep _, [d] => d | Fstep _, _ => 1 | Fuser _, [d] => d | Flt, [a; b] => b2n (a <? b) | Fhappens, _ => 1 | _, _ => k end).
Definition r_A : pstep := mkPStep 1 [ix 0] TRUE (FFun (Fuser 0) [FVar (ix 0)]).
Lemma quantified_clash : exists steps cells tq fuel g n f t st u us s,
  protocol_closed steps cells tq /\ state_ok st /\ graph_new fuel steps cells = Some g /\ f = mk_forall [ix 0] (FFun (Fmacro MInput) [t]) /\
  (forall m, n <= m -> unfold steps (graph_ancestors g m) tq (f, st) = Some [u]) /\ fst u = FFun (Fmacro MInput) [t] /\
  (forall m, n <= m -> unfold steps (graph_ancestors g m) tq u = Some us) /\
  In s steps /\ forall u', In u' us -> ~ represents (snd u) (ps_vars s) (ps_msg s) u' (strictly_before s t).
Proof.
  exists [r_A], [], e_tq, 20. eexists. exists 10. eexists. exists e_t, (mkSt all_on [] None). eexists. eexists. exists r_A.
  split. { split; [intros s [<-|[]]; split; apply ok_closed; reflexivity|]. split; [intros ce a []|]. intros k. apply ok_quant; reflexivity. }
  split. { split; [constructor|intros f i []]. }
  split; [reflexivity|]. split; [reflexivity|].
  split; [intros m Hm; reflexivity|]. split; [reflexivity|].
  split; [intros m Hm; replace m with (10 + (m - 10)) by lia; vm_compute; reflexivity|]. split; [left; reflexivity|].
  intros u' Hu' (new & [Hb _] & _ & H). destruct Hu' as [<-|[<-|[]]]; cbn in Hb; subst new;
    destruct (H (r_M 0) (fun _ => 2) [1]) as [H1 H2]; try (constructor; [cbn; lia|constructor]); cbn in H1, H2;
    unfold guard_holds, strictly_before, tholds, holds in H2; cbn in H2.
  - assert (false = true) by (apply H2; split; auto). discriminate.
  - assert (false = true) by (apply H2; split; auto). discriminate.
Qed.
Theorem C37_quantified_refuted : exists steps cells tq fuel g n f t st u us s,
  protocol_closed steps cells tq /\ state_ok st /\ graph_new fuel steps cells = Some g /\ f = mk_forall [ix 0] (FFun (Fmacro MInput) [t]) /\
  (forall m, n <= m -> unfold steps (graph_ancestors g m) tq (f, st) = Some [u]) /\ fst u = FFun (Fmacro MInput) [t] /\
  (forall m, n <= m -> unfold steps (graph_ancestors g m) tq u = Some us) /\
  In s steps /\ forall u', In u' us -> ~ represents (snd u) (ps_vars s) (ps_msg s) u' (strictly_before s t).
Proof. exact quantified_clash. Qed.
Print Assumptions C37_quantified_refuted.

(** Step macros: right when no parameter is in use. Missing: when one is, the content is not renamed (refuted). *)
Lemma macro_unfolds : forall steps anc tq is_cond t st, state_ok st -> scoped [t] (ss_bound st) -> uf_macros (ss_flags st) = true ->
  (forall s, In s steps -> step_closed s) ->
  (forall s v, In s steps -> In v (ps_vars s) -> ~ In (vid v) (map vid (ss_bound st))) ->
  exists us, unfold steps anc tq (FFun (Fmacro (if is_cond : bool then MCondition else MMessage)) [t], st) = Some us /\
    Forall2 (fun s u => represents st (ps_vars s) (if is_cond then ps_cond s else ps_msg s) u (is_the_point s t)) steps us.
Proof.
  intros steps anc tq is_cond t st Hst Hsc Hf Hs Hno.
  assert (exists us, unfold_step_macro steps st is_cond [t] = Some us /\
    Forall2 (fun s u => represents st (ps_vars s) (if is_cond then ps_cond s else ps_msg s) u (is_the_point s t)) steps us) as (us & E & H).
  { cbn. clear Hf. induction steps as [|s l IH]; [exists []; split; [reflexivity|constructor]|].
    destruct IH as (us & E & H); [intros; apply Hs; right; auto|intros s' v H; apply (Hno s' v); right; auto|].
    assert (Hc : closed_over (ps_vars s) (if is_cond then ps_cond s else ps_msg s))
      by (destruct (Hs s (or_introl eq_refl)); destruct is_cond; auto).
    destruct (unfold_macro_ok st s t _ Hst Hsc Hc) as (st' & Ea & _ & _ & _ & Hr).
    cbn [mapM]. rewrite Ea, E. eexists. split; [reflexivity|]. constructor; [|exact H]. apply Hr. intros v Hv. apply (Hno s); auto. left; reflexivity. }
  exists us. split; [|exact H]. destruct is_cond; cbn [unfold]; rewrite Hf; exact E.
Qed.
Theorem C30_unfold_partial : forall steps anc tq is_cond t st, state_ok st -> scoped [t] (ss_bound st) -> uf_macros (ss_flags st) = true ->
  (forall s, In s steps -> step_closed s) ->
  (forall s v, In s steps -> In v (ps_vars s) -> ~ In (vid v) (map vid (ss_bound st))) ->
  exists us, unfold steps anc tq (FFun (Fmacro (if is_cond : bool then MCondition else MMessage)) [t], st) = Some us /\
    Forall2 (fun s u => represents st (ps_vars s) (if is_cond then ps_cond s else ps_msg s) u (is_the_point s t)) steps us.
Proof. exact macro_unfolds. Qed.
Print Assumptions C30_unfold_partial.

Lemma macro_not_renamed : exists steps t st u s, forall anc tq,
  (forall s, In s steps -> step_closed s) /\ state_ok st /\ scoped [t] (ss_bound st) /\ steps = [s] /\
  unfold steps anc tq (FFun (Fmacro MMessage) [t], st) = Some [u] /\ ~ represents st (ps_vars s) (ps_msg s) u (is_the_point s t).
Proof.
  exists [r_A], e_t, (mkSt all_on [ix 0] None). eexists. exists r_A. intros anc tq.
  split; [intros s [<-|[]]; split; apply ok_closed; reflexivity|].
  split; [split; [apply all_unique_iff; reflexivity|intros f i []]|]. split; [apply ok_term_scoped; reflexivity|]. split; [reflexivity|].
  split; [reflexivity|]. intros (new & [Hb _] & _ & H). cbn in Hb. injection Hb as <-.
  destruct (H (r_M 0) (fun _ => 0) [1]) as [H1 _]; [constructor; [cbn; lia|constructor]|]. cbn in H1. discriminate.
Qed.
Theorem C30_unfold_refuted : exists steps t st u s, forall anc tq,
  (forall s, In s steps -> step_closed s) /\ state_ok st /\ scoped [t] (ss_bound st) /\ steps = [s] /\
  unfold steps anc tq (FFun (Fmacro MMessage) [t], st) = Some [u] /\ ~ represents st (ps_vars s) (ps_msg s) u (is_the_point s t).
Proof. exact macro_not_renamed. Qed.
Print Assumptions C30_unfold_refuted.
Example C30_unfold_example : state_ok (mkSt all_on [ix 7] None) /\ scoped [FFun (Fstep 1) [FVar (ix 7)]] [ix 7] /\
  (forall s v, In s [r_A; e_A] -> In v (ps_vars s) -> ~ In (vid v) (map vid [ix 7])).
Proof.
  split; [split; [apply all_unique_iff; reflexivity|intros f i []]|]. split; [apply ok_term_scoped; reflexivity|].
  intros s v [<-|[<-|[]]] [<-|[]] [E|[]]; discriminate.
Qed.

(** [exec]: without inputs in conditions nothing is reached; with one, the condition of the last step is missed. *)
Definition x_c : pstep := mkPStep 1 [] (FFun (Fta TEq) [FFun (Fuser 0) []; FFun (Fuser 1) []]) TRUE.
Definition x_i : pstep := mkPStep 1 [] (FFun (Fta TEq) [FFun (Fmacro MInput) [FFun (Fstep 1) []]; FFun (Fuser 1) []]) TRUE.
Lemma exec_missed : forall tq : nat -> ta_quant, (forall k, quant_closed (tq k)) -> forall s, s = x_c \/ s = x_i -> exists fuel g n st us,
  protocol_closed [s] [] tq /\ state_ok st /\ graph_new fuel [s] [] = Some g /\
  (forall m, n <= m -> unfold [s] (graph_ancestors g m) tq (FFun (Fmacro MExec) [FVar (mkVar 0 SStep)], st) = Some us) /\
  scoped [FVar (mkVar 0 SStep)] (ss_bound st) /\ uf_exec (ss_flags st) = true /\
  forall u, In u us -> ~ represents st (ps_vars s) (ps_cond s) u (before_or_at s (FVar (mkVar 0 SStep))).
Proof.
  intros tq Htq s Hs. exists 20.
  assert (Hp : protocol_closed [s] [] tq).
  { split; [intros s' [<-|[]]; split; apply ok_closed; destruct Hs; subst; reflexivity|]. split; [intros ce a []|exact Htq]. }
  destruct Hs; subst s; eexists; exists 10, (mkSt all_on [mkVar 0 SStep] None); eexists;
    (split; [exact Hp|]); (split; [split; [apply all_unique_iff; reflexivity|intros f i []]|]); (split; [reflexivity|]);
    (split; [intros m Hm; replace m with (10 + (m - 10)) by lia; vm_compute; reflexivity|]);
    (split; [apply ok_term_scoped; reflexivity|]); (split; [reflexivity|]); intros u Hu.
  - destruct Hu.
  - intros (new & [Hb _] & _ & H). destruct Hu as [<-|[<-|[]]]; cbn in Hb; injection Hb as <-;
      destruct (H (r_M 0) (fun _ => 1) []) as [_ H2]; try constructor;
      unfold guard_holds, before_or_at, strictly_before, tholds, holds in H2; cbn in H2;
      (assert (false = true) by (apply H2; split; auto); discriminate).
Qed.
Theorem C72_exec_refuted : forall tq : nat -> ta_quant, (forall k, quant_closed (tq k)) -> forall s, s = x_c \/ s = x_i -> exists fuel g n st us,
  protocol_closed [s] [] tq /\ state_ok st /\ graph_new fuel [s] [] = Some g /\
  (forall m, n <= m -> unfold [s] (graph_ancestors g m) tq (FFun (Fmacro MExec) [FVar (mkVar 0 SStep)], st) = Some us) /\
  scoped [FVar (mkVar 0 SStep)] (ss_bound st) /\ uf_exec (ss_flags st) = true /\
  forall u, In u us -> ~ represents st (ps_vars s) (ps_cond s) u (before_or_at s (FVar (mkVar 0 SStep))).
Proof. exact exec_missed. Qed.
Print Assumptions C72_exec_refuted.
