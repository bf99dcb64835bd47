From Coq Require Import List Arith Bool Lia FinFun.
From Verif Require Import Syntax_Model Traversal_Model Traversal_Spec Subst_Model Semantics_Spec Semantics_Proofs Subst_Proofs Order_Model
  Order_Spec Binding_Proofs Order_Proofs Order_Steps_Proofs Macro_Model Macro_Spec Macro_Proofs.
Import ListNotations.

Section Exec.
  Context (M : structure).

  Lemma step_value_params s (rho : env M) ds : NoDup (map vid (ps_vars s)) -> typed (ps_vars s) ds ->
    eval (M:=M) (into_formula s) (bindv rho (ps_vars s) ds) = inst M (ps_fun s) ds.
  Proof.
    intros Hn Hd. unfold into_formula, step_term. rewrite eval_fv_step, bindv_values; auto. apply typed_length; auto.
  Qed.
  Lemma holds_happens t (rho : env M) : holds (M:=M) (happens t) rho <-> tholds M Fhappens [eval (M:=M) t rho].
  Proof. reflexivity. Qed.
  Lemma eval_cond f (rho : env M) : eval (M:=M) (ev_cond f) rho = vcond M (eval f rho).
  Proof. reflexivity. Qed.
  Lemma eval_msg f (rho : env M) : eval (M:=M) (ev_msg f) rho = vmsg M (eval f rho).
  Proof. reflexivity. Qed.
  Lemma eval_mac m f (rho : env M) : eval (M:=M) (mac m f) rho = fint M (Fmacro m) [eval f rho].
  Proof. reflexivity. Qed.
  Lemma eval_pred f (rho : env M) : eval (M:=M) (pred f) rho = fint M Fpred [eval f rho].
  Proof. reflexivity. Qed.

  (** C30: message and condition of a happening instance. *)
  Definition macros_correct (rho : env M) (steps : list pstep) : Prop :=
    forall s ds, In s steps -> args_of M (map vsort (ps_vars s)) ds -> tholds M Fhappens [inst M (ps_fun s) ds] ->
      vcond M (fint M (Fmacro MCondition) [inst M (ps_fun s) ds]) = vcond M (eval (ps_cond s) (bindv rho (ps_vars s) ds)) /\
      vmsg M (fint M (Fmacro MMessage) [inst M (ps_fun s) ds]) = vmsg M (eval (ps_msg s) (bindv rho (ps_vars s) ds)).

  Theorem msg_cond_iff steps : (forall s, In s steps -> NoDup (map vid (ps_vars s))) -> forall rho,
    Forall (fun f => holds (M:=M) f rho) (map msg_cond_axiom steps) <-> macros_correct rho steps.
  Proof.
    intros Hn rho. rewrite Forall_map, Forall_forall. unfold macros_correct, msg_cond_axiom.
    split.
    - intros H s ds Hs Hds Hh. specialize (H s Hs). apply typed_args in Hds. rewrite holds_all in H. specialize (H ds Hds).
      rewrite holds_imp, holds_happens, (holds_and M), !holds_meq, !eval_cond, !eval_msg, !eval_mac, step_value_params in H; auto.
    - intros H s Hs. rewrite holds_all. intros ds Hds.
      rewrite holds_imp, holds_happens, (holds_and M), !holds_meq, !eval_cond, !eval_msg, !eval_mac, step_value_params; auto.
      intros Hh. apply H; auto. apply typed_args; auto.
  Qed.

  (** The direct definition only looks at the point itself. *)
  Lemma exec_direct_says i tr u rho : is_trace M i tr u -> holds (M:=M) exec_direct rho ->
    forall d, In d tr -> exec_at M d = cond_at M d.
  Proof.
    intros Ht. unfold exec_direct. rewrite (forall1 M). intros H d Hin.
    assert (Td : is_time M d) by (apply (tr_points M i tr u Ht); auto).
    pose proof (proj2 (tr_happens M i tr u Ht d Td) Hin) as Hh.
    specialize (H d Td). rewrite holds_imp, holds_meq in H. specialize (H Hh).
    rewrite eval_cond, eval_mac in H. change (eval (M:=M) (st 1) (upd rho 1 d)) with d in H.
    unfold exec_at. rewrite H. cbn. rewrite dtest_inj. apply eq_true_iff_eq. rewrite all_spec. split.
    - intros Ha. specialize (Ha d Td). cbn in Ha. rewrite dtest_inj in Ha.
      assert (L : tholds M Fleq [d; d]).
      { apply (tr_leq M i tr u Ht); auto. apply In_nth_error in Hin as [k Hk]. exists k, k. auto. }
      unfold upd in Ha. cbn in Ha. unfold tholds in L. rewrite L in Ha. exact Ha.
    - intros Hc e _. rewrite dtest_inj. unfold upd. cbn. unfold cond_at, vcond in Hc. rewrite Hc.
      destruct (dtest M (fint M Fleq [e; d])); reflexivity.
  Qed.

  Section Trace.
    Context (init : pstep) (others : list pstep) (tr : list (D M)) (u : D M).
    Let i := inst M (ps_fun init) [].
    Context (Ht : is_trace M i tr u) (Hp : proper_steps (init :: others)) (Hi : ps_vars init = [])
      (Hd : steps_distinct M (signature (init :: others))) (He : steps_exhaustive M (signature (init :: others))).

    Lemma others_nodup s : In s others -> NoDup (map vid (ps_vars s)).
    Proof. intros H. apply (proj2 Hp). right; auto. Qed.
    Lemma in_time d : In d tr -> is_time M d /\ tholds M Fhappens [d].
    Proof.
      intros H. assert (is_time M d) by (apply (tr_points M i tr u Ht); auto).
      split; auto. apply (tr_happens M i tr u Ht); auto.
    Qed.
    Lemma sig_in s : In s (init :: others) -> In (ps_fun s, map vsort (ps_vars s)) (signature (init :: others)).
    Proof. intros H. unfold signature. apply (in_map (fun s => (ps_fun s, map vsort (ps_vars s)))); auto. Qed.
    Lemma init_sig : In (ps_fun init, []) (signature (init :: others)).
    Proof. pose proof (sig_in init (or_introl eq_refl)) as H. rewrite Hi in H. exact H. Qed.

    (** An instance of another step has a predecessor in the trace. *)
    Lemma other_position s ds : In s others -> args_of M (map vsort (ps_vars s)) ds ->
      tholds M Fhappens [inst M (ps_fun s) ds] -> is_time M (inst M (ps_fun s) ds) ->
      exists k, nth_error tr (S k) = Some (inst M (ps_fun s) ds) /\ nth_error tr k = Some (fint M Fpred [inst M (ps_fun s) ds]).
    Proof.
      intros Hs Hds Hh Hti. apply (tr_happens M i tr u Ht) in Hh; auto. pose proof Hh as Hin. apply In_nth_error in Hh as [[|k] Hk].
      - exfalso. rewrite (tr_first M i tr u Ht) in Hk. injection Hk as Hk.
        destruct (Hd (ps_fun init) [] (ps_fun s) (map vsort (ps_vars s)) [] ds) as [E _]; auto.
        + apply init_sig.
        + apply sig_in; right; auto.
        + constructor.
        + change (inst M (ps_fun init) []) with i. rewrite Hk. apply (tr_happens M i tr u Ht); auto.
        + destruct Hp as [Hn _]. inversion Hn as [|? ? Hx _]; subst. apply Hx. rewrite E. apply in_map; auto.
      - destruct (nth_error tr k) as [a|] eqn:Ea.
        + exists k. split; auto. rewrite (tr_pred M i tr u Ht k a _ Ea Hk). auto.
        + apply nth_error_None in Ea. assert (S k < length tr) by (apply nth_error_Some; congruence). lia.
    Qed.

    Definition exec_law : Prop := forall s ds, In s others -> args_of M (map vsort (ps_vars s)) ds ->
      tholds M Fhappens [inst M (ps_fun s) ds] ->
      vcond M (fint M (Fmacro MExec) [inst M (ps_fun s) ds]) =
      dinj M (cond_at M (inst M (ps_fun s) ds) && exec_at M (fint M Fpred [inst M (ps_fun s) ds])).

    Lemma exec_recursive_iff rho : Forall (fun f => holds (M:=M) f rho) (map exec_recursive others) <-> exec_law.
    Proof.
      rewrite Forall_map, Forall_forall. unfold exec_law, exec_recursive.
      assert (A : forall s ds, In s others -> typed (ps_vars s) ds ->
        (holds (M:=M) (fimp (happens (into_formula s)) (meq (ev_cond (mac MExec (into_formula s)))
           (fand (ev_cond (mac MCondition (into_formula s))) (ev_cond (mac MExec (pred (into_formula s)))))))
           (bindv rho (ps_vars s) ds) <->
         (tholds M Fhappens [inst M (ps_fun s) ds] -> vcond M (fint M (Fmacro MExec) [inst M (ps_fun s) ds]) =
          dinj M (cond_at M (inst M (ps_fun s) ds) && exec_at M (fint M Fpred [inst M (ps_fun s) ds]))))).
      { intros s ds Hs Hds. rewrite holds_imp, holds_happens, holds_meq, eval_cond, eval_mac.
        unfold fand. cbn [eval map Semantics_Spec.app forallb].
        rewrite !andb_true_r. unfold ev_cond. cbn [eval map Semantics_Spec.app].
        rewrite !eval_mac, eval_pred, step_value_params by (auto using others_nodup). reflexivity. }
      split.
      - intros H s ds Hs Hds. apply typed_args in Hds. specialize (H s Hs). rewrite holds_all in H. apply (A s ds Hs Hds). auto.
      - intros H s Hs. rewrite holds_all. intros ds Hds. apply (A s ds Hs Hds). apply H; auto. apply typed_args; auto.
    Qed.

    Lemma exec_init_iff rho : holds (M:=M) (ev_cond (mac MExec (into_formula init))) rho <-> exec_at M i = true.
    Proof.
      unfold holds. rewrite eval_cond, eval_mac. unfold into_formula, step_term. rewrite eval_fv_step, Hi. reflexivity.
    Qed.

    (** Recursive definition: [exec] is the conjunction of the conditions after [init]. *)
    Lemma exec_recursive_correct rho : Forall (fun f => holds (M:=M) f rho) (exec_axioms false true init others) ->
      forall k d, nth_error tr k = Some d ->
        (exec_at M d = true <-> forall j e, 1 <= j <= k -> nth_error tr j = Some e -> cond_at M e = true).
    Proof.
      unfold exec_axioms. cbn [use_recursive use_direct orb negb List.app]. rewrite app_nil_r, Forall_cons_iff, exec_init_iff, exec_recursive_iff.
      intros [H0 HL]. induction k as [|k IH]; intros d Hk.
      - rewrite (tr_first M i tr u Ht) in Hk. injection Hk as <-. split; [intros _ j e Hj; lia|auto].
      - destruct (nth_error tr k) as [p|] eqn:Ep;
          [|apply nth_error_None in Ep; assert (S k < length tr) by (apply nth_error_Some; congruence); lia].
        specialize (IH p eq_refl). destruct (in_time d (nth_error_In _ _ Hk)) as [Td Hhd].
        assert (E : exec_at M d = cond_at M d && exec_at M p).
        { destruct (Bool.bool_dec (exec_at M d) (cond_at M d && exec_at M p)) as [|Hne]; auto. exfalso.
          apply (He d Td Hhd). intros f ss ds Hf Hds E. unfold signature in Hf. apply in_map_iff in Hf as (s & Es & Hs).
          injection Es as <- <-. destruct Hs as [<-|Hs].
          - rewrite Hi in Hds. inversion Hds; subst ds. change (inst M (ps_fun init) []) with i in E. subst d.
            pose proof (nth_once M tr (tr_once M i tr u Ht) _ _ _ Hk (tr_first M i tr u Ht)). lia.
          - apply Hne. specialize (HL s ds Hs Hds). rewrite <- E in HL. specialize (HL Hhd).
            unfold exec_at at 1. rewrite HL, dtest_inj. rewrite (tr_pred M i tr u Ht k p d Ep Hk). reflexivity. }
        rewrite E, andb_true_iff, IH. split.
        + intros [Hc Hall] j e Hj Hje. destruct (Nat.eq_dec j (S k)) as [->|]; [congruence|]. apply (Hall j); auto. lia.
        + intros H. split; [apply (H (S k)); auto; lia|]. intros j e Hj. apply H. lia.
    Qed.

    (** Conversely the recursive axioms hold when [exec] is that conjunction. *)
    Lemma exec_recursive_sound rho :
      (forall d, is_time M d -> exists b, vcond M (fint M (Fmacro MExec) [d]) = dinj M b) ->
      (forall s ds, In s others -> args_of M (map vsort (ps_vars s)) ds -> is_time M (inst M (ps_fun s) ds)) ->
      (forall k d, nth_error tr k = Some d ->
        (exec_at M d = true <-> forall j e, 1 <= j <= k -> nth_error tr j = Some e -> cond_at M e = true)) ->
      Forall (fun f => holds (M:=M) f rho) (exec_axioms false true init others).
    Proof.
      intros Hb Hti Hex. unfold exec_axioms. cbn [use_recursive use_direct orb negb List.app].
      rewrite app_nil_r, Forall_cons_iff, exec_init_iff, exec_recursive_iff. split.
      - apply (Hex 0 i (tr_first M i tr u Ht)). intros j e Hj. lia.
      - intros s ds Hs Hds Hh. pose proof (Hti s ds Hs Hds) as Tt. destruct (other_position s ds Hs Hds Hh Tt) as (k & Hk & Hpk).
        remember (inst M (ps_fun s) ds) as d. destruct (Hb d Tt) as [b Eb]. rewrite Eb. f_equal.
        assert (exec_at M d = b) as <- by (unfold exec_at; rewrite Eb; apply dtest_inj).
        apply eq_true_iff_eq. rewrite andb_true_iff, (Hex (S k) d Hk), (Hex k _ Hpk). split.
        + intros H. split; [apply (H (S k)); auto; lia|]. intros j e Hj. apply H. lia.
        + intros [Hc Hall] j e Hj Hje. destruct (Nat.eq_dec j (S k)) as [->|]; [congruence|]. apply (Hall j); auto. lia.
    Qed.
  End Trace.
End Exec.
