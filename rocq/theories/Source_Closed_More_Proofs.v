(** Lemmas for C101: the parts of an accepted file. *)
From Coq Require Import List Arith Bool Lia Permutation.
From Verif Require Import Syntax_Model Syntax_Proofs Traversal_Model Traversal_Spec Semantics_Spec Subst_Model Sort_Model Order_Model Macro_Model Parser_Model Parser_Spec Parser_Proofs Parser_More_Proofs
  Evaluate_Model File_Spec Sentence_Spec Source_Model Source_Spec Source_Closed_Spec Source_Proofs Source_More_Proofs Source_Closed_Proofs.
From Verif Require Traversal_Proofs Expander_Spec Expander_Proofs File_Proofs File_Model Assumption_Model Assumption_Spec.
Import ListNotations.

Local Notation pure := Expander_Spec.plain.
Local Notation symbolic s := (evaluated s = false).

Section Parts.
  Variable d : denv.
  Variable fuel : nat.
  Notation env := (penv_of d).
  Definition tame_asg (a : assign_ast) : Prop := Forall (tame env) (aa_args a) /\ tame env (aa_term a).
  Definition tame_body : term -> Prop := lets_around (tame env) (fun ty => forall so, e_sorts env ty = Some so -> symbolic so).
  Hypothesis Hcells : forall x fc k sorts, lookup x (d_funs d) = Some (EnCell fc k sorts) -> Forall (fun s => symbolic s) sorts.

  Hypothesis Hmac : tame_macros env.

  Section One.
    Variables (k : nat) (input : formula).
    Hypothesis Hinput : pure input.
    Hypothesis Hfree : forall i, occurs_free i input -> i < k.
    Definition steady (s : pst) : Prop := numbered (p_bv s) /\ S k <= length (p_bv s) /\ Forall calm (p_qs s).
    Lemma steady_trunc m s u s' : steady s -> S k <= m -> m <= length (p_bv s) -> truncbv m s = Done u s' -> steady s' /\ length (p_bv s') = m.
    Proof.
      intros (N & L & C) Hm Hl H. unfold truncbv in H. assert (s' = mkPst (p_heap s) (firstn m (p_bv s)) (p_qs s)) by congruence. subst s'. unfold steady. cbn [p_bv p_qs]. rewrite firstn_length, Nat.min_l by exact Hl. split; [|reflexivity]. split; [|split; [exact Hm|exact C]].
      intros i x v Hi. apply (N i x). rewrite <- Hi. rewrite <- (firstn_skipn m (p_bv s)) at 1. apply nth_error_app1. apply nth_error_Some. congruence.
    Qed.
    Definition inside (m : nat) (f : formula) : Prop := forall i, occurs_free i f -> i < m /\ i <> k.
    Lemma removed_pure t so s f s' : tame env t -> symbolic so -> steady s -> remove_in k input (parse env fuel t RSymbolic (Some (PStatic so))) s = Done f s' ->
      steady s' /\ pure f /\ length (p_bv s') = length (p_bv s) /\ inside (length (p_bv s)) f.
    Proof.
      intros Ht Hs (N & L & C) H. unfold remove_in in H. apply bind_done in H as (f0 & s1 & H1 & H).
      assert (E : sapply (one_var k input) f0 = Some f /\ s' = s1) by (unfold lift_opt in H; destruct (sapply _ f0); [|discriminate]; unfold ret in H; injection H as <- <-; auto). destruct E as [E ->].
      apply parse_strict in H1; auto; [|intros _; exists so; auto]. destruct H1 as (B & Q & [P V] & _). split; [unfold steady; rewrite B; auto|]. split; [|split; [congruence|]].
      - eapply Expander_Proofs.sapply_plain; [exact E|exact P|]. intros v t' _ Hv. unfold one_var in Hv. destruct (Nat.eqb (vid v) k); injection Hv as <-; [exact Hinput|apply pure_var].
      - intros i O. destruct (one_var_free _ _ _ _ _ E O) as [[O1 Ne]|O1]; [split; [exact (vars_below _ _ N V i O1)|exact Ne]|]. apply Hfree in O1. lia.
    Qed.
    Lemma removed_body t so s f s' : tame_body t -> symbolic so -> steady s -> remove_in k input (parse env fuel t RSymbolic (Some (PStatic so))) s = Done f s' ->
      steady s' /\ pure f /\ length (p_bv s) <= length (p_bv s') /\ inside (length (p_bv s)) f.
    Proof.
      intros Ht Hs (N & L & C) H. unfold remove_in in H. apply bind_done in H as (f0 & s1 & H1 & H).
      assert (E : sapply (one_var k input) f0 = Some f /\ s' = s1) by (unfold lift_opt in H; destruct (sapply _ f0); [|discriminate]; unfold ret in H; injection H as <- <-; auto). destruct E as [E ->].
      apply lets_strict in H1; auto; [|exists so; auto]. destruct H1 as ((b & B) & N1 & Q & [P V]). assert (Lb : length (p_bv s) <= length (p_bv s1)) by (rewrite B, app_length; lia).
      split; [split; [exact N1|split; [lia|exact Q]]|]. split; [|split; [exact Lb|]].
      - eapply Expander_Proofs.sapply_plain; [exact E|exact P|]. intros v t' _ Hv. unfold one_var in Hv. destruct (Nat.eqb (vid v) k); injection Hv as <-; [exact Hinput|apply pure_var].
      - intros i O. destruct (one_var_free _ _ _ _ _ E O) as [[O1 Ne]|O1]; [split; [exact (vars_below _ _ N V i O1)|exact Ne]|]. apply Hfree in O1. lia.
    Qed.
    Lemma args_pure m : forall ts s l s', Forall (fun x => tame env (fst x) /\ symbolic (snd x)) ts -> steady s -> S k <= m -> m <= length (p_bv s) ->
      mapMM (fun x => _ <- truncbv m ;; remove_in k input (parse env fuel (fst x) RSymbolic (Some (PStatic (snd x))))) ts s = Done l s' -> steady s' /\ m <= length (p_bv s') /\ Forall (inside m) l.
    Proof.
      induction ts as [|x ts IH]; intros s l s' Hp Hs Hm Hl H; cbn [mapMM] in H; [unfold ret in H; assert (l = [] /\ s' = s) as [-> ->] by (split; congruence); auto|].
      apply bind_done in H as (f & s1 & H1 & H). apply bind_done in H1 as (u & s0 & H0 & H1). inversion Hp as [|? ? [Hx Hx'] Hts]; subst. apply steady_trunc in H0 as [H0 L0]; auto. apply removed_pure in H1 as (H1 & _ & L1 & I1); auto.
      apply bind_done in H as (l1 & s2 & H2 & H). unfold ret in H. assert (l = f :: l1 /\ s' = s2) as [-> ->] by (split; congruence). rewrite L0 in *. apply IH in H2 as (A1 & A2 & A3); auto; lia.
    Qed.
    Lemma assignment_pure p a s c x s' : map vid (ps_vars p) = seq 0 k -> tame_asg a -> steady s -> parse_assignment d fuel (S k) k input p a s = Done (c, x) s' ->
      steady s' /\ Expander_Spec.asg_closed x /\ Expander_Spec.scoped (as_args x) (ps_vars (as_step x) ++ as_fresh x).
    Proof.
      intros Hp [Ta Tt] Hs H. unfold parse_assignment in H. apply bind_done in H as (fresh & s1 & H1 & H).
      assert (S1 : steady s1 /\ S k + length fresh <= length (p_bv s1) /\ map vid fresh = seq (S k) (length fresh)).
      { destruct (aa_fresh a) as [vs|]; [|unfold ret in H1; assert (fresh = [] /\ s1 = s) as [-> ->] by (split; congruence); split; [exact Hs|split; [destruct Hs as (_ & L & _); cbn; lia|reflexivity]]]. apply bind_done in H1 as (u & s0 & H0 & H1).
        apply steady_trunc in H0 as [S0 L0]; auto; [|apply Hs].
        apply fresh_good in H1; [|lia]. destruct H1 as (E1 & E2 & E3 & _). destruct S0 as (N0 & _ & C0). unfold steady. rewrite E2, E3. split; [split; [rewrite Nat.add_0_r, <- L0; apply numbered_named; exact N0|]; split; [rewrite app_length; lia|exact C0]|].
        rewrite E1, Nat.add_0_r, named_vars_ids, !map_length, app_length, !named_vars_length. split; [lia|]. unfold binders. rewrite map_length. reflexivity. }
      destruct S1 as (S1 & L1 & If).
      cbv zeta in H. destruct (lookup (aa_cell a) (d_funs d)) as [[fc|fc st b|fc n sorts]|] eqn:El; try discriminate.
      apply bind_done in H as (args & s2 & H2 & H). apply args_pure in H2; auto; [|apply Forall_forall; intros [t so] Hin; cbn; split|lia].
      2:{ rewrite Forall_forall in Ta. apply Ta. eapply in_combine_l; exact Hin. }
      2:{ specialize (Hcells _ _ _ _ El). rewrite Forall_forall in Hcells. apply Hcells. eapply in_combine_r; exact Hin. }
      destruct H2 as (S2 & L2 & I2).
      apply bind_done in H as (u & s3 & H3 & H). apply steady_trunc in H3 as [S3 L3]; auto; [|lia]. apply bind_done in H as (content & s4 & H4 & H). apply removed_pure in H4 as (H4 & P & _ & I4); auto. rewrite L3 in I4.
      unfold ret in H. assert (x = mkAsg p args content fresh /\ s' = s4) as [-> ->] by (split; congruence). unfold Expander_Spec.asg_closed. cbn [as_step as_fresh as_content as_args]. split; [exact H4|].
      assert (Ids : map vid (ps_vars p ++ fresh) = seq 0 k ++ seq (S k) (length fresh)) by (rewrite map_app, Hp, If; reflexivity).
      assert (Sc : forall f i, inside (S k + length fresh) f -> occurs_free i f -> In i (map vid (ps_vars p ++ fresh))).
      { intros f i If' O. destruct (If' i O) as [I1 I2']. rewrite Ids, in_app_iff, !in_seq. lia. }
      split; [split; [|split; [|exact P]]|].
      - rewrite Ids. apply File_Proofs.NoDup_app_intro; [apply seq_NoDup|apply seq_NoDup|]. intros i. rewrite !in_seq. lia.
      - intros f i [<-|[]] O. eapply Sc; eauto.
      - intros f i Hf O. rewrite Forall_forall in I2. exact (Sc f i (I2 f Hf) O).
    Qed.
    Lemma assignments_pure p : map vid (ps_vars p) = seq 0 k -> forall asgs s l s', Forall tame_asg asgs -> steady s -> mapMM (parse_assignment d fuel (S k) k input p) asgs s = Done l s' ->
      steady s' /\ Forall (fun x => Expander_Spec.asg_closed (snd x) /\ Expander_Spec.scoped (as_args (snd x)) (ps_vars (as_step (snd x)) ++ as_fresh (snd x))) l.
    Proof.
      intros Hp. induction asgs as [|a asgs IH]; intros s l s' Ha Hs H; cbn [mapMM] in H; [unfold ret in H; assert (l = [] /\ s' = s) as [-> ->] by (split; congruence); auto|].
      apply bind_done in H as ([c x] & s1 & H1 & H). inversion Ha; subst. apply assignment_pure in H1 as [H1 P1]; auto.
      apply bind_done in H as (l1 & s2 & H2 & H). unfold ret in H. assert (l = (c, x) :: l1 /\ s' = s2) as [-> ->] by (split; congruence). apply IH in H2 as [H2 P2]; auto.
    Qed.
  End One.

  Lemma step_decl_pure j st asgs s p l s' : tame_body (st_msg st) -> tame_body (st_cond st) -> Forall tame_asg asgs -> Forall calm (p_qs s) ->
    parse_step_decl d fuel j st asgs s = Done (p, l) s' ->
    Forall calm (p_qs s') /\ Expander_Spec.step_closed p /\ ps_fun p = j /\ ps_vars p = map snd (named_vars 0 (st_args st)) /\
    Forall (fun x => Expander_Spec.asg_closed (snd x) /\ Expander_Spec.scoped (as_args (snd x)) (ps_vars (as_step (snd x)) ++ as_fresh (snd x))) l.
  Proof.
    intros Tm Tc Ta Hq H. unfold parse_step_decl in H. cbv zeta in H. set (k := length (st_args st)) in *. set (vars := map snd (named_vars 0 (st_args st))) in *. set (input := FFun (Fmacro MInput) [FFun (Fstep j) (map FVar vars)]) in *.
    assert (Pi : pure input).
    { apply pure_fun. constructor; [|constructor]. apply pure_fun. apply Forall_forall. intros a Ha. apply in_map_iff in Ha as (v & <- & _). apply pure_var. }
    assert (Iv : map vid vars = seq 0 k) by (unfold vars; apply named_vars_ids).
    assert (Fi : forall i, occurs_free i input -> i < k).
    { intros i O. apply occurs_free_fun_inv in O as (a & [<-|[]] & O). apply occurs_free_fun_inv in O as (a & Ha & O). apply in_map_iff in Ha as (v & <- & Hv). apply occurs_free_var_inv in O. subst i.
      assert (H0 : In (vid v) (seq 0 k)) by (rewrite <- Iv; apply in_map; exact Hv). apply in_seq in H0. lia. }
    apply bind_done in H as (u & s0 & H0 & H). unfold setbv in H0. injection H0 as _ <-. set (s0 := mkPst (p_heap s) (step_bvars st) (p_qs s)) in *.
    assert (L0 : length (p_bv s0) = S k) by (unfold s0; cbn [p_bv]; apply bvars_length).
    assert (S0 : steady k s0).
    { unfold steady. rewrite L0. split; [|split; [lia|exact Hq]]. unfold s0. cbn [p_bv]. pose proof (bvars_named st []) as E. cbn [named_vars List.app] in E. rewrite !app_nil_r in E. rewrite E. exact (numbered_named _ [] numbered_nil). }
    apply bind_done in H as (m0 & s1 & H1 & H). apply bind_done in H as (u1 & s2 & H2 & H). apply bind_done in H as (c0 & s3 & H3 & H). apply bind_done in H as (u3 & s4 & H4 & H).
    apply bind_done in H as (m & s5 & H5 & H). apply bind_done in H as (c & s6 & H6 & H). apply bind_done in H as (l' & s7 & H7 & H). unfold ret in H. injection H as <- <- <-.
    assert (Hm : remove_in k input (parse env fuel (st_msg st) RSymbolic (Some (PStatic SMessage))) s0 = Done m s1).
    { unfold remove_in, bind. rewrite H1. unfold lift_opt in H5 |- *. destruct (sapply _ m0); [|discriminate]. unfold ret in H5 |- *. congruence. }
    apply removed_body in Hm as (S1 & Pm & L1 & Im); auto. rewrite L0 in *. apply steady_trunc with (k := k) in H2 as [S2 L2]; auto; try lia.
    assert (Hc : remove_in k input (parse env fuel (st_cond st) RSymbolic (Some (PStatic SCondition))) s2 = Done c s3).
    { unfold remove_in, bind. rewrite H3. unfold lift_opt in H6 |- *. destruct (sapply _ c0); [|discriminate]. unfold ret in H6 |- *. congruence. }
    apply removed_body in Hc as (S3 & Pc & L3 & Ic); auto. rewrite L2 in *. apply steady_trunc with (k := k) in H4 as [S4 L4]; auto; try lia.
    assert (s5 = s4) by (unfold lift_opt in H5; destruct (sapply _ m0); [|discriminate]; unfold ret in H5; congruence).
    assert (s6 = s5) by (unfold lift_opt in H6; destruct (sapply _ c0); [|discriminate]; unfold ret in H6; congruence). subst s6 s5.
    apply assignments_pure in H7 as [S7 P7]; auto. split; [apply S7|]. cbn [ps_fun ps_vars]. split; [|auto].
    assert (Cl : forall f, pure f -> inside k (S k) f -> Expander_Spec.closed_over vars f).
    { intros f Pf If. split; [rewrite Iv; apply seq_NoDup|]. split; [|exact Pf]. intros f' i [<-|[]] O. rewrite Iv. apply in_seq. destruct (If i O). lia. }
    split; cbn [ps_msg ps_cond ps_vars]; apply Cl; assumption.
  Qed.

  Definition tame_entry (e : entry) : Prop :=
    match e with EnStep _ st a => tame_body (st_msg st) /\ tame_body (st_cond st) /\ Forall tame_asg (sa_asgs a) | _ => True end.
  Lemma steps_pure : forall l s ps asgs s', Forall (fun x => tame_entry (snd x)) l -> Forall calm (p_qs s) -> parse_steps d fuel l s = Done (ps, asgs) s' ->
    Forall calm (p_qs s') /\
    (forall p, In p ps -> Expander_Spec.step_closed p /\ exists x j kd nm sp st a, In (x, EnStep (mkFc (Fstep j) kd nm sp) st a) l /\ ps_fun p = j /\ ps_vars p = map snd (named_vars 0 (st_args st))) /\
    (forall c a, In (c, a) asgs -> Expander_Spec.asg_closed a /\ Expander_Spec.scoped (as_args a) (ps_vars (as_step a) ++ as_fresh a)).
  Proof.
    induction l as [|[x e] l IH]; intros s ps asgs s' Hl Hq H.
    - cbn in H. unfold ret in H. assert (ps = [] /\ asgs = [] /\ s' = s) as (-> & -> & ->) by (repeat split; congruence). split; [exact Hq|]. split; [intros p []|intros c a []].
    - inversion Hl as [|? ? He Hl']; subst. cbn [snd] in He.
      assert (Skip : parse_steps d fuel l s = Done (ps, asgs) s' -> Forall calm (p_qs s') /\
        (forall p, In p ps -> Expander_Spec.step_closed p /\ exists y j kd nm sp st a, In (y, EnStep (mkFc (Fstep j) kd nm sp) st a) ((x, e) :: l) /\ ps_fun p = j /\ ps_vars p = map snd (named_vars 0 (st_args st))) /\
        (forall c a, In (c, a) asgs -> Expander_Spec.asg_closed a /\ Expander_Spec.scoped (as_args a) (ps_vars (as_step a) ++ as_fresh a))).
      { intros E. apply IH in E; auto. destruct E as (E1 & E2 & E3). split; [exact E1|]. split; [|exact E3]. intros p Hp. destruct (E2 p Hp) as (A & y & j & kd & nm & sp & st & a & Hin & B). split; [exact A|]. exists y, j, kd, nm, sp, st, a. split; [right; exact Hin|exact B]. }
      destruct e as [fc|[sy kd nm sp] st a|fc n so]; try exact (Skip H). destruct sy; try exact (Skip H). clear Skip. cbn [parse_steps] in H.
      apply bind_done in H as ([p l1] & s1 & H1 & H). apply bind_done in H as ([ps2 l2] & s2 & H2 & H). unfold ret in H. cbn [fst snd] in H. assert (ps = p :: ps2 /\ asgs = l1 ++ l2 /\ s' = s2) as (-> & -> & ->) by (repeat split; congruence). clear H.
      cbn [tame_entry] in He. destruct He as (Tm & Tc & Ta).
      apply step_decl_pure in H1; auto. destruct H1 as (C1 & P1 & F1 & V1 & P3). apply IH in H2; auto. destruct H2 as (C2 & D2 & E2). split; [exact C2|]. split.
      + intros p' [<-|Hp'].
        * split; [exact P1|]. exists x, i, kd, nm, sp, st, a. split; [left; reflexivity|]. auto.
        * destruct (D2 p' Hp') as (B & y & j & kd' & nm' & sp' & st' & a' & Hin & B'). split; [exact B|]. exists y, j, kd', nm', sp', st', a'. split; [right; exact Hin|exact B'].
      + intros c b Hb. apply in_app_iff in Hb as [Hb|Hb]; [|eapply E2; exact Hb]. rewrite Forall_forall in P3. exact (P3 _ Hb).
  Qed.

  Lemma assert_calm t s f s' : tame env t -> Forall calm (p_qs s) -> parse_assert env fuel t s = Done f s' -> Forall calm (p_qs s') /\ sentence f /\ sorted_terms f.
  Proof.
    intros Ht Hq H. unfold parse_assert in H. apply bind_done in H as (u & s1 & H1 & H). unfold setbv in H1. injection H1 as _ <-.
    apply parse_strict in H; [|exact Hmac|exact Ht|exact numbered_nil|exact Hq|discriminate]. destruct H as (_ & C & (R & _ & W) & _). split; [exact C|]. split; [|exact R]. intros i O. apply W in O. cbn in O. lia.
  Qed.
  Lemma asserts_calm : forall ts s fs s', Forall (tame env) ts -> Forall calm (p_qs s) -> mapMM (parse_assert env fuel) ts s = Done fs s' -> Forall calm (p_qs s') /\ Forall (fun f => sentence f /\ sorted_terms f) fs.
  Proof.
    induction ts as [|t ts IH]; intros s fs s' Ht Hq H; cbn [mapMM] in H; [unfold ret in H; assert (fs = [] /\ s' = s) as [-> ->] by (split; congruence); auto|].
    apply bind_done in H as (f & s1 & H1 & H). inversion Ht; subst. apply assert_calm in H1 as (C1 & A1); auto. apply bind_done in H as (fs1 & s2 & H2 & H). unfold ret in H. assert (fs = f :: fs1 /\ s' = s2) as [-> ->] by (split; congruence).
    apply IH in H2 as [C2 A2]; auto.
  Qed.
  Definition tame_order (o : order) : Prop := tame env (od_t1 o) /\ tame env (od_t2 o) /\ forall g, od_guard o = Some g -> tame env g.
  Lemma order_calm o s r s' : tame_order o -> Forall calm (p_qs s) -> parse_order env fuel o s = Done r s' -> Forall calm (p_qs s') /\ Expander_Spec.scoped (order_formulas r) (or_vars r).
  Proof.
    intros (T1 & T2 & Tg) Hq H. unfold parse_order in H.
    apply bind_done in H as (l & s0 & H0 & H). apply order_args_spec in H0. destruct H0 as (-> & El & Bl & Nl).
    apply bind_done in H as (u & s1 & H1 & H). unfold setbv in H1. injection H1 as _ <-.
    assert (Hn : numbered l) by (rewrite El; exact (bound_numbered env (od_args o) [] (map snd l) numbered_nil Bl)).
    assert (P : forall es t s f s', tame env t -> p_bv s = l -> Forall calm (p_qs s) -> parse env fuel t REvaluated es s = Done f s' ->
                  Forall calm (p_qs s') /\ p_bv s' = l /\ forall i, occurs_free i f -> In i (map vid (map snd l))).
    { intros es t s2 f s3 Ht Hb C G. apply parse_strict in G; [|exact Hmac|exact Ht|rewrite Hb; exact Hn|exact C|discriminate].
      destruct G as (B & C' & (_ & _ & W) & _). rewrite Hb in W. split; [exact C'|]. split; [congruence|]. intros i O. apply W in O. destruct (bound_new _ _ _ _ Bl) as [_ Hall]. apply Hall. rewrite map_length. lia. }
    apply bind_done in H as (g & s2 & H2 & H).
    assert (G : Forall calm (p_qs s2) /\ p_bv s2 = l /\ forall i, occurs_free i g -> In i (map vid (map snd l))).
    { destruct (od_guard o) as [g0|]; [eapply P; [apply Tg; reflexivity| | |exact H2]; [reflexivity|exact Hq]|]. unfold ret in H2. injection H2 as <- <-. split; [exact Hq|]. split; [reflexivity|]. intros i O. apply occurs_free_fun_inv in O as (a & [] & _). }
    destruct G as (C2 & B2 & F2).
    assert (Tr : forall s u s', p_bv s = l -> truncbv (length l) s = Done u s' -> p_bv s' = l /\ p_qs s' = p_qs s).
    { intros a v b E T. unfold truncbv in T. assert (b = mkPst (p_heap a) (firstn (length l) (p_bv a)) (p_qs a)) by congruence. subst b. cbn. rewrite E, firstn_all. auto. }
    apply bind_done in H as (u3 & s3 & H3 & H). apply Tr in H3 as [B3 Q3]; auto. apply bind_done in H as (t1 & s4 & H4 & H). apply P in H4; auto; [|rewrite Q3; exact C2]. destruct H4 as (C4 & B4 & F4).
    apply bind_done in H as (u5 & s5 & H5 & H). apply Tr in H5 as [B5 Q5]; auto. apply bind_done in H as (t2 & s6 & H6 & H). apply P in H6; auto; [|rewrite Q5; exact C4]. destruct H6 as (C6 & B6 & F6).
    apply bind_done in H as (u7 & s7 & H7 & H). apply Tr in H7 as [B7 Q7]; auto. unfold ret in H. injection H as <- <-. split; [rewrite Q7; exact C6|].
    intros f i Hf O. unfold order_formulas in Hf. cbn [or_guard or_kind or_vars] in *. destruct Hf as [<-|Hf]; [auto|]. destruct (od_kind o); destruct Hf as [<-|[<-|[]]]; auto.
  Qed.
  Lemma orders_calm : forall os s rs s', Forall tame_order os -> Forall calm (p_qs s) -> mapMM (parse_order env fuel) os s = Done rs s' -> Forall calm (p_qs s') /\ Forall (fun r => Expander_Spec.scoped (order_formulas r) (or_vars r)) rs.
  Proof.
    induction os as [|o os IH]; intros s rs s' Ht Hq H; cbn [mapMM] in H; [unfold ret in H; assert (rs = [] /\ s' = s) as [-> ->] by (split; congruence); auto|].
    apply bind_done in H as (r & s1 & H1 & H). inversion Ht; subst. apply order_calm in H1 as (C1 & A1); auto. apply bind_done in H as (rs1 & s2 & H2 & H). unfold ret in H. assert (rs = r :: rs1 /\ s' = s2) as [-> ->] by (split; congruence).
    apply IH in H2 as [C2 A2]; auto.
  Qed.
  Lemma crypto_state l : forall s r s', all_crypto d fuel l s = Done r s' -> s' = s.
  Proof.
    induction l as [|c l IH]; intros s r s' H; cbn [all_crypto] in H; [unfold ret in H; congruence|]. apply bind_done in H as (a & s1 & H1 & H). apply bind_done in H as (r1 & s2 & H2 & H). unfold ret in H.
    assert (s' = s2) by congruence. subst s2. apply IH in H2. subst s'. unfold also in H1. destruct (parse_assert_crypto d fuel c); congruence.
  Qed.
End Parts.

(** ** The initial step *)
Lemma position_some {A} (p : A -> bool) l i : position p l = Some i -> exists a, nth_error l i = Some a /\ p a = true.
Proof.
  revert i. induction l as [|a l IH]; intros i H; [discriminate|]. cbn in H. destruct (p a) eqn:E; [injection H as <-; exists a; auto|].
  destruct (position p l) as [k|]; [|discriminate]. injection H as <-. destruct (IH k eq_refl) as (b & Hb). exists b. exact Hb.
Qed.
Lemma set_nth_in {A} (x y : A) l : forall i, In y (set_nth i x l) -> y = x \/ In y l.
Proof. induction l as [|a l IH]; intros [|i] H; cbn in *; try tauto; [destruct H as [<-|H]; auto|]. destruct H as [<-|H]; [auto|]. apply IH in H. tauto. Qed.
Lemma init_first_spec p l l' : init_first p l = Some l' -> (forall y, In y l' -> In y l) /\ exists a m, l' = a :: m /\ In a l /\ p a = true.
Proof.
  unfold init_first. destruct (position p l) as [i|] eqn:E; [|discriminate]. intros [= <-]. apply position_some in E as (b & Hb & Pb). unfold swap_first. destruct l as [|a l]; [destruct i; discriminate|]. rewrite Hb.
  pose proof (nth_error_In _ _ Hb) as Ib. split.
  - intros y Hy. apply set_nth_in in Hy as [->|Hy]; [exact Ib|]. apply set_nth_in in Hy as [->|Hy]; [left; reflexivity|exact Hy].
  - destruct i as [|i]; cbn [set_nth]; eexists; eexists; (split; [reflexivity|auto]).
Qed.

(** What the parts are made of. *)
Record calm_parts (p : parts) (qs : list tquant) : Prop := mkCalm {
  cp_quants : Forall calm qs;
  cp_steps : forall s, In s (pa_steps p) -> Expander_Spec.step_closed s;
  cp_init : forall s l, pa_steps p = s :: l -> ps_vars s = [];
  cp_asgs : forall c a, In c (pa_cells p) -> In a (ce_asgs c) -> Expander_Spec.asg_closed a /\ Expander_Spec.scoped (as_args a) (ps_vars (as_step a) ++ as_fresh a);
  cp_orders : forall o, In o (pa_orders p) -> Expander_Spec.scoped (order_formulas o) (or_vars o);
  cp_terms : forall f, In f (pa_query p :: pa_asserts p ++ pa_lemmas p) -> sentence f /\ sorted_terms f
}.
Record tame_source (so : source) : Prop := mkTameSource {
  ts_macros : tame_macros (penv_of (so_env so));
  ts_cells : forall x fc k sorts, lookup x (d_funs (so_env so)) = Some (EnCell fc k sorts) -> Forall (fun s => symbolic s) sorts;
  ts_entries : forall x e, In (x, e) (d_funs (so_env so)) -> tame_entry (so_env so) e;
  ts_asserts : Forall (tame (penv_of (so_env so))) (so_query so :: so_asserts so ++ so_lemmas so);
  ts_orders : Forall (tame_order (so_env so)) (so_orders so);
  ts_init : forall e, In (n_init, e) (d_funs (so_env so)) -> match e with EnStep _ st _ => st_args st = [] | _ => True end;
  ts_steps : forall x y e e', In (x, e) (d_funs (so_env so)) -> In (y, e') (d_funs (so_env so)) ->
    match e, e' with EnStep fc _ _, EnStep fc' _ _ => fc_sym fc = fc_sym fc' -> (x, e) = (y, e') | _, _ => True end
}.
Lemma parts_calm so es il fuel s p s' : tame_source so -> Permutation es (d_funs (so_env so)) -> Forall calm (p_qs s) -> parse_parts so es il fuel s = Done p s' -> calm_parts p (p_qs s').
Proof.
  intros [Tm Tc Te Ta To Ti Ts] HP Hq H. unfold parse_parts in H. cbv zeta in H.
  assert (Hes : forall x e, In (x, e) es -> In (x, e) (d_funs (so_env so))) by (intros x e Hin; eapply Permutation_in; eauto).
  apply bind_done in H as ([ps asgs] & s1 & H1 & H). apply steps_pure in H1; [|exact Tc|exact Tm|apply Forall_forall; intros [x e] Hin; apply (Te x); auto|exact Hq]. destruct H1 as (C1 & D1 & E1).
  inversion Ta as [|? ? Tq Tas]; subst. apply Forall_app in Tas as [Tas Tl].
  apply bind_done in H as (asserts & s2 & H2 & H). apply asserts_calm in H2 as [C2 A2]; auto.
  apply bind_done in H as (query & s3 & H3 & H). apply assert_calm in H3 as (C3 & A3); auto.
  apply bind_done in H as (crypto & s4 & H4 & H). apply crypto_state in H4. subst s4.
  apply bind_done in H as (lemmas & s5 & H5 & H).
  assert (G5 : Forall calm (p_qs s5) /\ Forall (fun f => sentence f /\ sorted_terms f) lemmas).
  { destruct il; [unfold ret in H5; assert (lemmas = [] /\ s5 = s3) as [-> ->] by (split; congruence); auto|]. eapply asserts_calm; eauto. }
  destruct G5 as [C5 A5]. apply bind_done in H as (orders & s6 & H6 & H). apply orders_calm in H6 as [C6 A6]; auto.
  apply bind_done in H as (steps & s7 & H7 & H). unfold ret in H. cbn [snd] in H. assert (p = mkParts (so_env so) steps (parse_cells es asgs) orders asserts lemmas query crypto /\ s' = s7) as [-> ->] by (split; congruence). clear H.
  unfold lift_opt in H7. cbn [fst] in H7. destruct (init_first _ ps) as [l|] eqn:Ei; [|discriminate]. unfold ret in H7. assert (l = steps /\ s7 = s6) as [-> ->] by (split; congruence). clear H7.
  apply init_first_spec in Ei as [I1 (a & m & -> & Ia & Pa)].
  split; cbn [pa_steps pa_cells pa_orders pa_asserts pa_lemmas pa_query].
  - exact C6.
  - intros st Hst. apply D1. apply I1. exact Hst.
  - intros st l E. assert (st = a) by congruence. subst st. clear E. destruct (D1 a Ia) as (_ & x & j & kd & nm & sp & st & b & Hin & Ej & Ev).
    destruct (lookup n_init es) as [e|] eqn:El; [|discriminate]. apply lookup_in in El. destruct e as [|[sy kd' nm' sp'] st' b'|]; try discriminate. destruct sy; try discriminate. apply Nat.eqb_eq in Pa.
    assert (F : fc_sym (mkFc (Fstep j) kd nm sp) = fc_sym (mkFc (Fstep i) kd' nm' sp')) by (cbn; congruence).
    pose proof (Ts _ _ _ _ (Hes _ _ Hin) (Hes _ _ El) F) as E. injection E as -> _ _ _ _ -> _. pose proof (Ti _ (Hes _ _ El)) as E. cbn in E. rewrite Ev, E. reflexivity.
  - intros c x Hc Hx. unfold parse_cells in Hc. apply in_flat_map in Hc as ([y e] & _ & Hc). cbn [snd fst] in Hc. destruct e as [| |fc k sorts]; try destruct Hc. 2: contradiction.
    subst c. cbn [ce_asgs] in Hx. apply in_map_iff in Hx as ([z x'] & <- & Hx). apply filter_In in Hx as [Hx _]. eapply E1. exact Hx.
  - rewrite Forall_forall in A6. exact A6.
  - intros f [<-|Hf]; [exact A3|]. apply in_app_iff in Hf. rewrite Forall_forall in A2, A5. destruct Hf; auto.
Qed.

Lemma calm_whole p qs w : calm_parts p qs -> assembled p w -> scoped_whole (table_of qs) w.
Proof.
  intros [Q St In_ As Or Te] [As1 As2 As3 As4 As5 As6 As7].
  assert (Hg : forall g, In g (File_Model.gp_asserts (Assumption_Model.wp_gen w) ++ [File_Model.gp_query (Assumption_Model.wp_gen w)]) -> sentence g /\ sorted_terms g).
  { intros g Hg. apply in_app_iff in Hg as [Hg|[<-|[]]]; [destruct (As3 _ Hg) as [<-|Hg']; [|apply Te; right; exact Hg']|apply Te].
    { split.
      - intros i (q & v & Hp & _). inversion Hp as [|? ? k ? a ? Hn|]; subst. destruct k; discriminate Hn.
      - intros q s args Hp. inversion Hp as [|? ? k ? a ? Hn|]; subst; [|destruct k; discriminate Hn]. intros [[]|[E _]]. discriminate E. }
    destruct As4 as [<-|H]; [left; reflexivity|right; apply in_app_iff; auto]. }
  split.
  - rewrite As2. exact Or.
  - rewrite As1. exact St.
  - rewrite As1. exact In_.
  - rewrite As5. exact As.
  - intros k q H. unfold table_of in H. destruct (nth_error qs k) as [t|] eqn:E; [|discriminate]. rewrite Forall_forall in Q. destruct (Q _ (nth_error_In _ _ E)) as (N & C & L). unfold quantifier_of in H.
    destruct (tk t), (tc t) as [|c [|c' [|c'' [|]]]]; try discriminate; injection H as <-; unfold quantifier_formulas; cbn [qt_free qt_bound qt_inner];
      (split; [exact N|]; split; [intros f i Hf O; exact (proj2 (C f Hf) i O)|intros f Hf; exact (proj1 (C f Hf))]).
  - intros g H. apply Hg. exact H.
  - intros g H. destruct H as [g H| |g H|g H|s H|s H|c a Hc Ha].
    + apply Hg. apply in_app_iff. auto.
    + apply Hg. apply in_app_iff. right. left. reflexivity.
    + apply Te. destruct (As6 _ H) as [<-|H']; [left; reflexivity|]. right. apply in_app_iff. right. exact H'.
    + rewrite As7 in H. destruct H.
    + apply pure_sorted. rewrite As1 in H. apply St in H as [_ (_ & _ & P)]. exact P.
    + apply pure_sorted. rewrite As1 in H. apply St in H as [(_ & _ & P) _]. exact P.
    + apply pure_sorted. rewrite As5 in Hc. destruct (As _ _ Hc Ha) as [(_ & _ & P) _]. exact P.
Qed.

(** ** Accepted files *)
Lemma everywhere_impl (P Q : term -> Prop) : (forall t, P t -> Q t) -> forall t, everywhere P t -> everywhere Q t.
Proof.
  intros H. fix IH 1. intros t Ht.
  assert (L : forall l, (fix all (l : list term) : Prop := match l with [] => True | a :: l' => everywhere P a /\ all l' end) l ->
                        (fix all (l : list term) : Prop := match l with [] => True | a :: l' => everywhere Q a /\ all l' end) l).
  { fix IHl 1. intros [|a l]; [trivial|]. intros [Ha Hl]. split; [exact (IH a Ha)|exact (IHl l Hl)]. }
  destruct t as [x ty t1 t2|c a b|vs c a b|q vs b|f|f args|o ts|m f args|m args]; destruct Ht as [Hh Ht]; (split; [apply H; exact Hh|]).
  - split; apply IH; apply Ht.
  - split; [|split]; apply IH; apply Ht.
  - split; [|split]; apply IH; apply Ht.
  - apply IH. exact Ht.
  - exact I.
  - exact (L args Ht).
  - exact (L ts Ht).
  - destruct args as [args|]; [exact (L args Ht)|exact I].
  - exact (L args Ht).
Qed.
Section File.
  Variables (bs : list (name * sort)) (bf : list (name * fcache)) (kw : list name) (sh : bool) (l : list item).
  Hypothesis B : builtins bs bf kw.
  Hypothesis W : well_declared bs bf kw l.
  Hypothesis T : tame_file bs bf l.
  Let d0 := typed_env bs bf kw sh l.
  Let d := full_env bs bf kw sh l.

  Lemma full_in x e : In (x, e) (d_funs d) -> (exists fc, In (x, fc) bf /\ e = EnFun fc) \/ exists i j, In i (completed l) /\ entry_of d0 j i = Some (x, e).
  Proof.
    intros H. unfold d in H. rewrite full_funs in H. apply in_app_iff in H as [H|H].
    - left. cbn in H. apply in_map_iff in H as ([y fc] & E & H). cbn in E. injection E as <- <-. eauto.
    - right. apply entries_in in H as (i & j & Hi & He & _). eauto.
  Qed.
  Lemma completed_in i : In i (completed l) -> In i l \/ i = default_init.
  Proof. unfold completed. destruct (in_dec _ _ _); [auto|]. intros H. apply in_app_iff in H as [H|[H|[]]]; auto. Qed.
  Lemma sort_of x s : lookup x (d_sorts d0) = Some s -> In (x, s) bs \/ exists k, s = SIndex k.
  Proof. intros H. destruct (typed_sorts _ _ _ _ _ _ _ H) as [H'|[_ H']]; auto. Qed.
  Lemma used_sorts i : In i l -> forall xs ss, get_sorts d0 xs = Some ss -> incl xs (types_used i) -> forall s, In s ss -> s <> SBitstring /\ (evaluated s = true -> s = SBool /\ exists x, In x xs /\ In (x, SBool) bs).
  Proof.
    intros Hi. induction xs as [|x xs IH]; intros ss H Hu s Hs; cbn [get_sorts] in H; [injection H as <-; destruct Hs|].
    destruct (lookup x (d_sorts d0)) as [sx|] eqn:Ex; [|discriminate]. destruct (get_sorts d0 xs) as [ss'|]; [|discriminate]. injection H as <-. destruct Hs as [<-|Hs].
    - apply sort_of in Ex as [Ex|(k & ->)]; [|split; [discriminate|intros E; discriminate E]]. split; [intros ->; apply (tm_bitstrings _ _ _ T i x Hi); [apply Hu; left; reflexivity|exact Ex]|].
      intros Ev. pose proof (bi_kinds _ _ _ B _ _ Ex) as K. assert (sx <> SBitstring) by (intros ->; apply (tm_bitstrings _ _ _ T i x Hi); [apply Hu; left; reflexivity|exact Ex]).
      assert (sx = SBool) by (repeat destruct K as [<-|K]; cbn in Ev; try discriminate; try congruence; destruct K). subst sx. split; [reflexivity|]. exists x. split; [left; reflexivity|exact Ex].
    - destruct (IH ss' eq_refl (fun y Hy => Hu y (or_intror Hy)) s Hs) as [H1 H2]. split; [exact H1|]. intros Ev. destruct (H2 Ev) as (E & y & Hy & Hb). split; [exact E|]. exists y. split; [right; exact Hy|exact Hb].
  Qed.

  Lemma step_sorts a ss : In (IStep a) (completed l) -> get_sorts d0 (map snd (sa_params a)) = Some ss -> Forall (fun s => symbolic s) ss.
  Proof.
    intros Hi H. apply Forall_forall. intros s Hs. destruct (evaluated s) eqn:E; [|reflexivity]. exfalso. apply completed_in in Hi as [Hi|Hi]; [|unfold default_init in Hi; injection Hi as ->; cbn in H; injection H as <-; destruct Hs].
    destruct (used_sorts _ Hi _ _ H (incl_refl _) s Hs) as [_ H2]. destruct (H2 E) as (_ & x & Hx & Hb). exact (tm_booleans _ _ _ T x a Hi Hx Hb).
  Qed.
  Lemma cell_sorts n args out ss : In (ICell n args out) (completed l) -> get_sorts d0 args = Some ss -> Forall (fun s => symbolic s) ss.
  Proof.
    intros Hi H. apply Forall_forall. intros s Hs. destruct (evaluated s) eqn:E; [|reflexivity]. exfalso. apply completed_in in Hi as [Hi|Hi]; [|discriminate].
    destruct (used_sorts _ Hi _ _ H (incl_refl _) s Hs) as [_ H2]. destruct (H2 E) as (_ & x & Hx & Hb). exact (tm_cells _ _ _ T x n args out Hi Hx Hb).
  Qed.
  Lemma fun_sorts n args out ss : In (IFun n args out) (completed l) -> get_sorts d0 args = Some ss -> Forall (fun s => symbolic s) (map user_bool_to_condition ss).
  Proof.
    intros Hi H. apply Forall_forall. intros s Hs. apply in_map_iff in Hs as (s0 & <- & Hs). apply completed_in in Hi as [Hi|Hi]; [|discriminate].
    destruct (used_sorts _ Hi _ _ H (fun y Hy => or_intror Hy) s0 Hs) as [H1 H2]. destruct (evaluated s0) eqn:E; [destruct (H2 eq_refl) as [-> _]; reflexivity|]. destruct s0; cbn in *; congruence.
  Qed.

  Lemma function_tame x e : In (x, e) (d_funs d) -> fc_kind (entry_cache e) = SgIte /\ In (x, entry_cache e) bf \/ tame_function (entry_cache e).
  Proof.
    intros H. apply full_in in H as [(fc & H & ->)|(i & j & Hi & He)]; [destruct (tm_builtins _ _ _ T _ _ H) as (_ & _ & [H'|H']); cbn; auto|]. right.
    destruct i as [n|n args out|n args out|a|n ps body|t|t|t|o|c]; cbn [entry_of] in He; try discriminate.
    - destruct (lookup out (d_sorts d0)) as [o|] eqn:Eo; [|discriminate]. destruct (get_sorts d0 args) as [ss|] eqn:Es; [|discriminate]. cbv zeta in He. pose proof (fun_sorts _ _ _ _ Hi Es) as F.
      assert (Hi' : In (IFun n args out) l) by (apply completed_in in Hi as [Hi|Hi]; [exact Hi|discriminate]).
      destruct (sort_eqb (user_bool_to_condition o) SName) eqn:En; [injection He as <- <-; cbn; auto|]. destruct (is_term_algebra (user_bool_to_condition o)) eqn:Et; [|discriminate]. injection He as <- <-. cbn.
      destruct (wd_results _ _ _ _ W _ _ _ Hi') as (so & Hb & K). assert (o = so).
      { pose proof (wd_types _ _ _ _ W) as [_ Nt]. apply lookup_in in Eo. cbn [d0 typed_env with_sorts d_sorts] in Eo. apply in_app_iff in Eo as [Eo|Eo].
        - pose proof (bi_sorts _ _ _ B) as N. apply (in_lookup _ _ _ N) in Eo. apply (in_lookup _ _ _ N) in Hb. congruence.
        - exfalso. apply (Nt out); [rewrite <- (number_names (types_of l) (length bs)); apply in_map_iff; exists (out, o); auto|]. apply in_map_iff. exists (out, so). auto. }
      subst so. assert (o <> SStep) by (intros ->; exact (tm_results _ _ _ T _ _ _ Hi' Hb)).
      repeat destruct K as [<-|K]; try destruct K; cbn in *; try discriminate; try congruence; auto.
    - destruct (get_sorts d0 args) as [ss|] eqn:Es; [|discriminate]. injection He as <- <-. cbn. split; [|reflexivity]. apply Forall_app. split; [exact (cell_sorts _ _ _ _ Hi Es)|repeat constructor].
    - destruct (get_sorts d0 (map snd (sa_params a))) as [ss|] eqn:Es; [|discriminate]. injection He as <- <-. cbn. split; [exact (step_sorts _ _ Hi Es)|]. repeat split; auto.
  Qed.
  Lemma name_item x e : In (x, e) (d_funs d) -> fc_name (entry_cache e) <> None -> exists ss out, In (IFun x ss out) l /\ In (out, SName) bs.
  Proof.
    intros H Hn. apply full_in in H as [(fc & H & ->)|(i & j & Hi & He)]; [cbn in Hn; destruct (tm_builtins _ _ _ T _ _ H) as [E _]; contradiction|].
    destruct i as [n|n args out|n args out|a|n ps body|t|t|t|o|c]; cbn [entry_of] in He; try discriminate.
    - destruct (lookup out (d_sorts d0)) as [o|] eqn:Eo; [|discriminate]. destruct (get_sorts d0 args) as [ss|] eqn:Es; [|discriminate]. cbv zeta in He.
      assert (Hi' : In (IFun n args out) l) by (apply completed_in in Hi as [Hi|Hi]; [exact Hi|discriminate]).
      destruct (sort_eqb (user_bool_to_condition o) SName) eqn:En; [|destruct (is_term_algebra (user_bool_to_condition o)); [injection He as <- <-; cbn in Hn; congruence|discriminate]].
      injection He as <- <-. exists args, out. split; [exact Hi'|]. apply sort_of in Eo as [Eo|(k & ->)]; [|discriminate]. assert (o = SName) by (destruct o; try discriminate; reflexivity). congruence.
    - destruct (get_sorts d0 args) as [ss|] eqn:Es; [|discriminate]. injection He as <- <-. cbn in Hn. congruence.
    - destruct (get_sorts d0 (map snd (sa_params a))) as [ss|] eqn:Es; [|discriminate]. injection He as <- <-. cbn in Hn. congruence.
  Qed.
  Lemma functions_in x fc : e_functions (penv_of d) x = Some fc -> exists e, In (x, e) (d_funs d) /\ fc = entry_cache e.
  Proof. cbn. destruct (lookup x (d_funs d)) as [e|] eqn:E; [|discriminate]. intros [= <-]. exists e. split; [apply lookup_in; exact E|reflexivity]. Qed.

  Lemma type_sort x so : In (x, so) bs -> lookup x (d_sorts d0) = Some so.
  Proof.
    intros H. destruct (lookup x (d_sorts d0)) as [s'|] eqn:E.
    - apply lookup_in in E. cbn [d0 typed_env with_sorts d_sorts] in E. apply in_app_iff in E as [E|E].
      + pose proof (bi_sorts _ _ _ B) as N. apply (in_lookup _ _ _ N) in E. apply (in_lookup _ _ _ N) in H. congruence.
      + exfalso. pose proof (wd_types _ _ _ _ W) as [_ Nt]. apply (Nt x); [rewrite <- (number_names (types_of l) (length bs)); apply in_map_iff; exists (x, s'); auto|]. apply in_map_iff. exists (x, so). auto.
    - exfalso. apply lookup_none in E. apply E. cbn [d0 typed_env with_sorts d_sorts]. rewrite map_app. apply in_app_iff. left. apply in_map_iff. exists (x, so). auto.
  Qed.
  Lemma macro_in m mc : e_macros (penv_of d) m = Some mc -> exists params body ss, In (ILet m params body) l /\ get_sorts d0 (map snd params) = Some ss /\ mc = mkMac (combine (map fst params) ss) body.
  Proof.
    cbn. intros H. apply lookup_in in H. unfold d in H. rewrite full_macros in H. apply in_flat_map in H as (i & Hi & H). fold d0 in H. destruct i; cbn [macro_of opt_list] in H; try contradiction.
    destruct (get_sorts d0 (map snd params)) as [ss|] eqn:E; [|destruct H]. destruct H as [H|[]]. injection H as <- <-. eauto 8.
  Qed.
  Lemma params_nth : forall (params : list (name * name)) ss i (x : name * sort), get_sorts d0 (map snd params) = Some ss -> nth_error (combine (map fst params) ss) i = Some x -> exists y, nth_error params i = Some y /\ lookup (snd y) (d_sorts d0) = Some (snd x).
  Proof.
    induction params as [|y params IH]; intros ss i x H Hi; cbn [map get_sorts] in H; [injection H as <-; destruct i; discriminate|].
    destruct (lookup (snd y) (d_sorts d0)) as [so|] eqn:E; [|discriminate]. destruct (get_sorts d0 (map snd params)) as [ss'|]; [|discriminate]. injection H as <-. destruct i as [|i]; cbn in Hi.
    - injection Hi as <-. exists y. auto.
    - destruct (IH ss' i x eq_refl Hi) as (z & Hz). exists z. exact Hz.
  Qed.
  Lemma not_user x fc : e_functions (penv_of d) x = Some fc -> (forall fc k, In (x, fc) bf -> fc_sym fc <> Fuser k) -> (forall ss out, In (IFun x ss out) l -> In (out, SName) bs) -> ~ user_function fc.
  Proof.
    intros H H1 H2 (Hn & k & Hs). apply functions_in in H as (e & H & ->). apply full_in in H as [(fc & H & ->)|(i & j & Hi & He)]; [exact (H1 _ _ H Hs)|].
    destruct i as [n|n args out|n args out|a|n ps body|t|t|t|o|c]; cbn [entry_of] in He; try discriminate.
    - destruct (lookup out (d_sorts d0)) as [o|] eqn:Eo; [|discriminate]. destruct (get_sorts d0 args) as [ss|] eqn:Es; [|discriminate]. cbv zeta in He.
      assert (Hi' : In (IFun n args out) l) by (apply completed_in in Hi as [Hi|Hi]; [exact Hi|discriminate]).
      destruct (sort_eqb (user_bool_to_condition o) SName) eqn:En; [injection He as <- <-; discriminate|]. destruct (is_term_algebra (user_bool_to_condition o)); [|discriminate]. injection He as -> _.
      apply H2, type_sort in Hi'. rewrite Hi' in Eo. injection Eo as <-. discriminate.
    - destruct (get_sorts d0 args) as [ss|] eqn:Es; [|discriminate]. injection He as <- <-. discriminate.
    - destruct (get_sorts d0 (map snd (sa_params a))) as [ss|] eqn:Es; [|discriminate]. injection He as <- <-. discriminate.
  Qed.

  Lemma step_item x e sc : In (x, e) (d_funs d) -> fc_step (entry_cache e) = Some sc ->
    exists a, (In (IStep a) l \/ IStep a = default_init) /\ sa_name a = x /\ st_msg sc = sa_msg a /\ st_cond sc = sa_cond a.
  Proof.
    intros H Hs. apply full_in in H as [(fc & H & ->)|(i & j & Hi & He)]; [destruct (tm_builtins _ _ _ T _ _ H) as (_ & N & _); cbn in Hs; congruence|].
    destruct i as [n|n args out|n args out|b|n ps body|t|t|t|o|c]; cbn [entry_of] in He; try discriminate.
    - exfalso. destruct (lookup out (d_sorts d0)); [|discriminate]. destruct (get_sorts d0 args); [|discriminate]. cbv zeta in He. destruct (sort_eqb _ _); [injection He as <- <-; discriminate|]. destruct (is_term_algebra _); [injection He as <- <-; discriminate|discriminate].
    - exfalso. destruct (get_sorts d0 args); [|discriminate]. injection He as <- <-. discriminate.
    - destruct (get_sorts d0 (map snd (sa_params b))) as [ss|] eqn:Es; [|discriminate]. injection He as <- <-. cbn in Hs. injection Hs as <-. exists b. apply completed_in in Hi. auto.
  Qed.
  Lemma call_tame : forall t, tame_call bs bf l t -> tame_node (penv_of d) t.
  Proof.
    intros t Ht. destruct t as [x ty t1 t2|c a b|vs c a b|q vs b|f|f args|o ts|m f args|m args]; try exact I; try contradiction.
    - right. intros fc Hf. apply functions_in in Hf as (e & He & ->). apply function_tame in He. tauto.
    - cbn in Ht. destruct Ht as [H1 H2]. right. intros fc Hf. apply functions_in in Hf as (e & He & ->). split; [destruct (function_tame _ _ He) as [[E Hb]|E]; [elim (H1 _ Hb E)|exact E]|].
      intros Hn. destruct (name_item _ _ He Hn) as (ss & out & Hin & Hs). exact (H2 _ _ Hin Hs).
    - cbn in Ht |- *. destruct Ht as [H1 H2]. split; [exact H1|]. intros fc sc Hf Hs. apply functions_in in Hf as (e & He & ->). destruct (step_item _ _ _ He Hs) as (b & Hb & E & Em & Ec). rewrite Em, Ec.
      destruct Hb as [Hb|Hb]; [exact (H2 _ Hb E)|]. unfold default_init in Hb. injection Hb as ->. split; exact (conj I I).
    - intros mc i x t Hm Hx Hi. apply macro_in in Hm as (params & body & ss & Hin & Hss & ->). cbn [mc_args] in Hx. destruct (params_nth _ _ _ _ Hss Hx) as (y & Hy & Hl).
      destruct (Ht params body i y t Hin Hy Hi) as [H1 H2].
      destruct x as [x so]. cbn [snd] in *. destruct (evaluated so || realmless so) eqn:Er.
      + apply H2. intros [S|S]; apply type_sort in S; assert (so = SMessage \/ so = SCondition) as [E|E] by (rewrite S in Hl; injection Hl; auto); rewrite E in Er; discriminate.
      + assert (S : symbolic_type bs (snd y)).
        { apply sort_of in Hl as [Hl|(k & E)]; [|rewrite E in Er; discriminate]. pose proof (bi_kinds _ _ _ B _ _ Hl) as K. destruct so; try discriminate; first [left; exact Hl|right; exact Hl|exfalso; cbn in K; repeat destruct K as [K|K]; try discriminate; exact K]. }
        specialize (H1 S). destruct t; try contradiction; destruct H1 as [H1a H1b]; right; intros fc Hfc; eapply not_user; eauto.
  Qed.
  Lemma term_tame i t : In i l -> In t (terms_of i) -> tame (penv_of d) t.
  Proof.
    intros Hi Ht. exact (everywhere_impl _ _ call_tame _ (tm_calls _ _ _ T _ _ Hi Ht)).
  Qed.
  Lemma body_tame a t : In (IStep a) l -> t = sa_cond a \/ t = sa_msg a -> tame_body d t.
  Proof.
    intros Hi Ht. apply (tm_bodies _ _ _ T) in Ht; [|exact Hi]. clear a Hi. induction Ht as [t Ht|x ty t1 t2 H1 H2 H3 [H4 H5] H6 IH]; [apply la_body; exact (everywhere_impl _ _ call_tame _ Ht)|].
    apply la_let; auto; [exact (everywhere_impl _ _ call_tame _ H3)|].
    intros so Hs. cbn [penv_of e_sorts] in Hs. unfold d in Hs. rewrite full_sorts in Hs. apply sort_of in Hs as [Hs|(k & ->)]; [|reflexivity]. pose proof (bi_kinds _ _ _ B _ _ Hs) as K. repeat destruct K as [<-|K]; try reflexivity; try contradiction.
  Qed.
  Lemma const_tame x : tame (penv_of d) (TVar x).
  Proof. split; [|exact I]. right. intros fc Hf. apply functions_in in Hf as (e & He & ->). apply function_tame in He. tauto. Qed.
  Lemma entry_tame x fc st a : In (x, EnStep fc st a) (d_funs d) -> fc_step fc = Some st /\ fc_name fc = None /\ tame_body d (st_msg st) /\ tame_body d (st_cond st).
  Proof.
    intros H. apply full_in in H as [(fc' & _ & E)|(i & j & Hi & He)]; [discriminate|].
    destruct i as [n|n args out|n args out|b|n ps body|t|t|t|o|c]; cbn [entry_of] in He; try discriminate.
    - destruct (lookup out (d_sorts d0)); [|discriminate]. destruct (get_sorts d0 args); [|discriminate]. cbv zeta in He. destruct (sort_eqb _ _); [discriminate|]. destruct (is_term_algebra _); discriminate.
    - destruct (get_sorts d0 args); discriminate.
    - destruct (get_sorts d0 (map snd (sa_params b))) as [ss|] eqn:Es; [|discriminate]. injection He as <- <- <- <-. cbn. split; [reflexivity|]. split; [reflexivity|].
      apply completed_in in Hi as [Hi|Hi]; [split; apply (body_tame _ _ Hi); auto|]. unfold default_init in Hi. injection Hi as ->. split; apply la_body; apply const_tame.
  Qed.
  Lemma macros_tame : tame_macros (penv_of d).
  Proof.
    split.
    - intros m mc Hm. apply macro_in in Hm as (params & body & ss & Hin & _ & ->). apply (term_tame _ _ Hin). left. reflexivity.
    - intros f fc sc Hf Hs. apply functions_in in Hf as (e & He & ->). destruct (function_tame _ _ He) as [[_ Hb]|Tf]; [destruct (tm_builtins _ _ _ T _ _ Hb) as (_ & N & _); congruence|]. split; [exact Tf|].
      pose proof He as He'. apply full_in in He' as [(fc & H & ->)|(i & j & Hi & He')]; [destruct (tm_builtins _ _ _ T _ _ H) as (_ & N & _); cbn in Hs; congruence|].
      destruct e as [fc|fc st a|fc k so].
      + exfalso. destruct i as [n|n args out|n args out|b|n ps body|t|t|t|o|c]; cbn [entry_of] in He'; try discriminate.
        * destruct (lookup out (d_sorts d0)); [|discriminate]. destruct (get_sorts d0 args); [|discriminate]. cbv zeta in He'. destruct (sort_eqb _ _); [injection He' as <- <-; discriminate|]. destruct (is_term_algebra _); [injection He' as <- <-; discriminate|discriminate].
        * destruct (get_sorts d0 args); discriminate.
        * destruct (get_sorts d0 _); discriminate.
      + cbn [entry_cache] in *. destruct (entry_tame _ _ _ _ He) as (E & N & M & C). rewrite E in Hs. injection Hs as <-. split; [exact N|]. split; eapply lets_free; eassumption.
      + exfalso. destruct i as [n|n args out|n args out|b|n ps body|t|t|t|o|c]; cbn [entry_of] in He'; try discriminate.
        * destruct (lookup out (d_sorts d0)); [|discriminate]. destruct (get_sorts d0 args); [|discriminate]. cbv zeta in He'. destruct (sort_eqb _ _); [discriminate|]. destruct (is_term_algebra _); discriminate.
        * destruct (get_sorts d0 args); [|discriminate]. injection He' as <- <- <- <-. discriminate.
        * destruct (get_sorts d0 _); discriminate.
  Qed.

  Lemma source_tame q : queries_of l = [q] -> tame_source (full_source bs bf kw sh l q).
  Proof.
    intros Hq. unfold full_source. split; cbn [so_env so_asserts so_lemmas so_orders so_query]; fold d.
    - exact macros_tame.
    - intros x fc k sorts H. apply lookup_in in H. apply full_in in H as [(fc' & _ & E)|(i & j & Hi & He)]; [discriminate|].
      destruct i as [n|n args out|n args out|a|n ps body|t|t|t|o|c]; cbn [entry_of] in He; try discriminate.
      + destruct (lookup out (d_sorts d0)); [|discriminate]. destruct (get_sorts d0 args); [|discriminate]. cbv zeta in He. destruct (sort_eqb _ _); [discriminate|]. destruct (is_term_algebra _); discriminate.
      + destruct (get_sorts d0 args) as [ss|] eqn:Es; [|discriminate]. injection He as _ _ _ <-. exact (cell_sorts _ _ _ _ Hi Es).
      + destruct (get_sorts d0 _); discriminate.
    - intros x e H. apply full_in in H as [(fc' & _ & ->)|(i & j & Hi & He)]; [exact I|].
      destruct i as [n|n args out|n args out|a|n ps body|t|t|t|o|c]; cbn [entry_of] in He; try discriminate.
      + destruct (lookup out (d_sorts d0)); [|discriminate]. destruct (get_sorts d0 args); [|discriminate]. cbv zeta in He. destruct (sort_eqb _ _); [injection He as <- <-; exact I|]. destruct (is_term_algebra _); [injection He as <- <-; exact I|discriminate].
      + destruct (get_sorts d0 args); [|discriminate]. injection He as <- <-. exact I.
      + destruct (get_sorts d0 (map snd (sa_params a))) as [ss|] eqn:Es; [|discriminate]. injection He as <- <-. cbn [tame_entry st_msg st_cond].
        apply completed_in in Hi as [Hi|Hi].
        * split; [apply (body_tame _ _ Hi); auto|]. split; [apply (body_tame _ _ Hi); auto|]. apply Forall_forall. intros b Hb.
          assert (Hin : forall t, In t (aa_term b :: aa_args b) -> tame (penv_of d) t) by (intros t Ht; apply (term_tame _ _ Hi); apply in_flat_map; exists b; auto).
          split; [apply Forall_forall; intros t Ht|]; apply Hin; [right; exact Ht|left; reflexivity].
        * unfold default_init in Hi. injection Hi as ->. cbn [sa_msg sa_cond sa_asgs]. split; [apply la_body, const_tame|]. split; [apply la_body, const_tame|constructor].
    - assert (Hin : forall i t, In i l -> In t (terms_of i) -> tame (penv_of d) t) by apply term_tame. apply Forall_forall. intros t [<-|Ht].
      + assert (H : In q (queries_of l)) by (rewrite Hq; left; reflexivity). apply in_flat_map in H as (i & Hi & H). destruct i; try destruct H; [|contradiction]. subst. apply (Hin _ _ Hi). left. reflexivity.
      + apply in_app_iff in Ht as [Ht|Ht]; apply in_flat_map in Ht as (i & Hi & H); destruct i; try destruct H; try contradiction; subst; apply (Hin _ _ Hi); left; reflexivity.
    - apply Forall_forall. intros o Ho. apply in_flat_map in Ho as (i & Hi & H). destruct i; try destruct H; [|contradiction]. subst o0.
      assert (Hin : forall t, In t (terms_of (IOrder o)) -> tame (penv_of d) t) by (intros t Ht; exact (term_tame _ _ Hi Ht)). cbn [terms_of] in Hin.
      split; [apply Hin; left; reflexivity|]. split; [apply Hin; right; left; reflexivity|]. intros g Eg. apply Hin. rewrite Eg. right. right. left. reflexivity.
    - intros e H. apply full_in in H as [(fc' & _ & ->)|(i & j & Hi & He)]; [exact I|]. destruct e as [|fc st b|]; try exact I.
      pose proof (well_fits bs bf kw sh l B W _ Hi) as F.
      destruct i as [n|n args out|n args out|a|n ps body|t|t|t|o|c]; cbn [entry_of] in He; try discriminate.
      + destruct (lookup out (d_sorts d0)); [|discriminate]. destruct (get_sorts d0 args); [|discriminate]. cbv zeta in He. destruct (sort_eqb _ _); [discriminate|]. destruct (is_term_algebra _); discriminate.
      + destruct (get_sorts d0 args); discriminate.
      + destruct (get_sorts d0 (map snd (sa_params a))) as [ss|] eqn:Es; [|discriminate]. injection He as En _ <- _. cbn [st_args].
        apply completed_in in Hi as [Hi|Hi]; [|unfold default_init in Hi; injection Hi as ->; cbn in Es; injection Es as <-; reflexivity].
        assert (H6 : In 6 (names_of l)) by (apply names_in; exists (IStep a); split; [exact Hi|left; exact En]).
        destruct (wd_init _ _ _ _ W H6) as (a' & Ha & E6 & Ep). assert (Ea : IStep a = IStep a').
        { apply (names_unique l _ _ 6); [apply (wd_names _ _ _ _ W)|exact Hi|exact Ha|left; exact En|left; exact E6]. }
        injection Ea as <-. rewrite Ep. reflexivity.
    - intros x y e e' H H'. destruct e as [|fc st a|]; [exact I| |exact I]. destruct e' as [|fc' st' a'|]; [exact I| |exact I]. intros E.
      assert (Hd : forall z fc0 st0 a0, In (z, EnStep fc0 st0 a0) (d_funs d) -> In (z, EnStep fc0 st0 a0) (entries d0 (length (d_funs d0)) (completed l))).
      { intros z fc0 st0 a0 Hz. unfold d in Hz. rewrite full_funs in Hz. apply in_app_iff in Hz as [Hz|Hz]; [|exact Hz]. cbn in Hz. apply in_map_iff in Hz as (? & Ez & _). discriminate. }
      eapply entries_inj; [apply Hd; exact H|apply Hd; exact H'|exact E].
  Qed.
End File.

Theorem file_scoped bs bf kw sh l so es il fuel p s' w : builtins bs bf kw -> tame_file bs bf l -> declare_all bs bf kw sh l = DOk so -> Permutation es (d_funs (so_env so)) ->
  parse_parts so es il fuel (mkPst [] [] []) = Done p s' -> assembled p w -> scoped_whole (table_of (p_qs s')) w.
Proof.
  intros B T D P H A. apply accepted_only in D; [|exact B]. destruct D as (W & E & Hq). eapply calm_whole; [|exact A]. eapply parts_calm; [|exact P| |exact H]; [|constructor]. rewrite E. apply source_tame; assumption.
Qed.
