From Coq Require Import List Arith Bool Lia.
From Verif Require Import Syntax_Model Subst_Model Traversal_Spec Semantics_Spec Semantics_Proofs Subst_Proofs Order_Model
  Order_Spec Binding_Proofs Order_Proofs.
Import ListNotations.

Definition signature (steps : list pstep) : list (nat * list sort) :=
  map (fun s => (ps_fun s, map vsort (ps_vars s))) steps.

(** One allocation per step, and the parameters of a step are distinct variables. *)
Definition proper_steps (steps : list pstep) : Prop :=
  NoDup (map ps_fun steps) /\ (forall s, In s steps -> NoDup (map vid (ps_vars s))).

Section Steps.
  Context (M : structure) (steps : list pstep) (P : proper_steps steps).

  Lemma same_fun s s2 : In s steps -> In s2 steps -> ps_fun s = ps_fun s2 -> s = s2.
  Proof.
    destruct P as [H _]. revert H. clear P. induction steps as [|a l IH]; intros Hn Hs Hs2 E; [destruct Hs|].
    cbn in Hn. inversion Hn as [|? ? Ha Hn']; subst. destruct Hs as [->|Hs], Hs2 as [->|Hs2]; auto.
    - exfalso. apply Ha. rewrite E. apply in_map; auto.
    - exfalso. apply Ha. rewrite <- E. apply in_map; auto.
  Qed.

  Lemma map_bindv_under vs ws (rho : env M) ds es :
    NoDup (map vid vs) -> length vs = length ds ->
    map (fun v => bindv (bindv rho vs ds) (map (fun v => var_add v (max_var vs)) ws) es (vid v)) vs = ds.
  Proof.
    intros Hn Hl. etransitivity; [|apply (bindv_values vs rho ds Hn Hl)]. apply map_ext_in. intros v Hv.
    apply bindv_other. apply shifted_apart. apply in_map; auto.
  Qed.

  Lemma ands_eq_pairs vs ws (rho : env M) : length vs = length ws ->
    holds (M:=M) (ands (map (fun '(v1, v2) => meq (FVar v1) (FVar v2)) (combine vs ws))) rho <->
    map (fun v => rho (vid v)) vs = map (fun v => rho (vid v)) ws.
  Proof.
    rewrite holds_and_list. revert ws. induction vs as [|v vs IH]; intros [|w ws] Hl; try discriminate.
    - cbn. split; auto.
    - cbn [combine map]. injection Hl as Hl. rewrite Forall_cons_iff, (IH ws Hl), holds_meq. cbn. split.
      + intros [E E']. congruence.
      + intros E. split; congruence.
  Qed.

  Lemma distinct_axiom_iff s rho : In s steps ->
    (holds (M:=M) (distinct_axiom steps s) rho <->
     forall ds, args_of M (map vsort (ps_vars s)) ds -> tholds M Fhappens [inst M (ps_fun s) ds] ->
       forall s2 ds', In s2 steps -> args_of M (map vsort (ps_vars s2)) ds' ->
         inst M (ps_fun s) ds = inst M (ps_fun s2) ds' -> ps_fun s = ps_fun s2 /\ ds = ds').
  Proof.
    intros Hs. pose proof (proj2 P s Hs) as Nd. unfold distinct_axiom. rewrite holds_all.
    assert (E : forall rho' vs, holds (M:=M) (happens (step_term s vs)) rho' <->
                 tholds M Fhappens [inst M (ps_fun s) (map (fun v => rho' (vid v)) vs)]).
    { intros rho' vs. unfold happens, holds, tholds, step_term. cbn [eval map app]. rewrite eval_fv_step. reflexivity. }
    split.
    - intros H ds Hds Hh s2 ds' Hs2 Hds' Eq. apply typed_args in Hds. specialize (H ds Hds).
      rewrite holds_imp, E, bindv_values in H; auto using typed_length. specialize (H Hh).
      rewrite holds_and_list, Forall_forall in H.
      specialize (H _ (in_map _ steps s2 Hs2)). cbn beta in H.
      destruct (Nat.eqb_spec (ps_fun s) (ps_fun s2)) as [Ef|Nf].
      + pose proof (same_fun s s2 Hs Hs2 Ef) as <-. split; auto.
        rewrite holds_all in H. specialize (H ds'). rewrite typed_args, vsort_add in H. specialize (H Hds').
        assert (length (ps_vars s) = length ds') by (apply typed_length, typed_args; auto).
        rewrite holds_imp, holds_meq in H. unfold step_term in H. rewrite !eval_fv_step in H.
        rewrite ands_eq_pairs in H by (now rewrite map_length).
        rewrite map_bindv_under in H by (auto using typed_length).
        rewrite bindv_values in H; [auto| |rewrite map_length; auto].
        rewrite map_vid_add. apply NoDup_shift; auto.
      + exfalso. rewrite holds_all in H. specialize (H ds'). rewrite typed_args, vsort_add in H. specialize (H Hds').
        assert (length (ps_vars s2) = length ds') by (apply typed_length, typed_args; auto).
        rewrite holds_not, holds_meq in H. unfold step_term in H. rewrite !eval_fv_step in H. apply H.
        rewrite map_bindv_under by (auto using typed_length).
        rewrite bindv_values; [auto| |rewrite map_length; auto].
        rewrite map_vid_add. apply NoDup_shift. apply (proj2 P); auto.
    - intros H ds Hds. rewrite holds_imp, E, bindv_values by (auto using typed_length). intros Hh.
      rewrite holds_and_list, Forall_forall. intros f Hf. apply in_map_iff in Hf as (s2 & <- & Hs2).
      rewrite typed_args in Hds. specialize (H ds Hds Hh s2). rewrite <- typed_args in Hds.
      destruct (Nat.eqb_spec (ps_fun s) (ps_fun s2)) as [Ef|Nf].
      + pose proof (same_fun s s2 Hs Hs2 Ef) as <-. rewrite holds_all. intros ds' Hds'.
        rewrite typed_args, vsort_add in Hds'.
        assert (length (ps_vars s) = length ds') by (apply typed_length, typed_args; auto).
        rewrite holds_imp, holds_meq, ands_eq_pairs by (now rewrite map_length). unfold step_term. rewrite !eval_fv_step.
        rewrite map_bindv_under by (auto using typed_length).
        rewrite bindv_values; [|rewrite map_vid_add; apply NoDup_shift; auto|rewrite map_length; auto].
        intros Eq. apply (H ds' Hs2 Hds' Eq).
      + rewrite holds_all. intros ds' Hds'. rewrite typed_args, vsort_add in Hds'.
        assert (length (ps_vars s2) = length ds') by (apply typed_length, typed_args; auto).
        rewrite holds_not, holds_meq. unfold step_term. rewrite !eval_fv_step.
        rewrite map_bindv_under by (auto using typed_length).
        rewrite bindv_values; [|rewrite map_vid_add; apply NoDup_shift, (proj2 P); auto|rewrite map_length; auto].
        intros Eq. apply Nf. apply (H ds' Hs2 Hds' Eq).
  Qed.

  Lemma exhaustive_axiom_iff rho : holds (M:=M) (exhaustive_axiom steps) rho <-> steps_exhaustive M (signature steps).
  Proof.
    unfold exhaustive_axiom. set (k := max_var (flat_map ps_vars steps)).
    fold (sv k). rewrite forall1.
    assert (B : forall s d ds, In s steps -> typed (M:=M) (ps_vars s) ds ->
      (holds (M:=M) (meq (FVar (sv k)) (step_term s (ps_vars s))) (bindv (upd rho k d) (ps_vars s) ds) <-> d = inst M (ps_fun s) ds)).
    { intros s d ds Hs Hds. rewrite holds_meq. unfold step_term. rewrite eval_fv_step.
      rewrite bindv_values; [|apply (proj2 P); auto|apply typed_length; auto]. cbn [eval vid sv].
      rewrite bindv_other; [unfold upd; rewrite Nat.eqb_refl; reflexivity|].
      intros Hin. apply in_map_iff in Hin as (v & Ev & Hv).
      assert (vid v < k) by (apply max_var_gt, in_flat_map; eauto). lia. }
    assert (A : forall d, holds (M:=M) (happens (FVar (sv k))) (upd rho k d) <-> tholds M Fhappens [d]).
    { intros d. unfold happens, holds, tholds. cbn. unfold upd. rewrite Nat.eqb_refl. reflexivity. }
    split.
    - intros H d Hd Hh Hn. specialize (H d Hd). rewrite holds_imp, A in H. specialize (H Hh).
      unfold holds in H. rewrite dtest_ors, existsb_exists in H. destruct H as (f & Hf & Hv).
      apply in_map_iff in Hf as (s & <- & Hs). eapply holds_ex_elim; [exact Hv|].
      intros ds Hds Heq. apply B in Heq; auto. eapply Hn; [| |exact Heq].
      + unfold signature. apply in_map_iff. eauto.
      + apply typed_args; auto.
    - intros H d Hd. rewrite holds_imp, A. intros Hh.
      destruct (holds_dec (M:=M) (ors (map (fun s => mk_exists (ps_vars s) (meq (FVar (sv k)) (step_term s (ps_vars s)))) steps))
                          (upd rho k d)) as [Hx|Hx]; [exact Hx|]. exfalso.
      apply (H d Hd Hh). intros f ss ds Hf Hds Heq. unfold signature in Hf.
      apply in_map_iff in Hf as (s & E & Hs). injection E as <- <-. apply Hx. unfold holds.
      rewrite dtest_ors, existsb_exists. eexists. split; [apply in_map; exact Hs|].
      apply typed_args in Hds. apply (holds_ex_intro _ _ _ ds Hds). apply B; auto.
  Qed.

  Theorem step_axioms_iff rho : Forall (fun f => holds (M:=M) f rho) (step_axioms steps) <->
    steps_distinct M (signature steps) /\ steps_exhaustive M (signature steps).
  Proof.
    unfold step_axioms. rewrite Forall_app, Forall_map, Forall_cons_iff, (exhaustive_axiom_iff rho), Forall_forall.
    assert (X : Forall (fun f => holds (M:=M) f rho) [] <-> True) by (split; auto). rewrite X; clear X.
    enough ((forall s, In s steps -> holds (M:=M) (distinct_axiom steps s) rho) <-> steps_distinct M (signature steps)) by tauto.
    split.
    - intros H f ss g ss' ds ds' Hf Hg Hds Hds' Hh Heq. unfold signature in *.
      apply in_map_iff in Hf as (s & E & Hs). injection E as <- <-.
      apply in_map_iff in Hg as (s2 & E & Hs2). injection E as <- <-.
      apply (proj1 (distinct_axiom_iff s rho Hs) (H s Hs) ds Hds Hh s2 ds' Hs2 Hds' Heq).
    - intros H s Hs. apply distinct_axiom_iff; auto. intros ds Hds Hh s2 ds' Hs2 Hds' Heq.
      eapply H; eauto; unfold signature; apply in_map_iff; eauto.
  Qed.
End Steps.
