(** Proofs for C113. *)
From Coq Require Import List Arith Bool Lia.
From Verif Require Import Syntax_Model Subst_Model Sort_Model Parser_Model Parser_Base_Proofs Truth_Spec.
Import ListNotations.

Lemma mapMM_none {A B} (f : A -> M B) l a : In a l -> (forall s b s', f a s <> Done b s') -> forall s bs s', mapMM f l s <> Done bs s'.
Proof.
  intros Ha Hf. induction l as [|x l IH]; [destruct Ha|]. intros s bs s' H. cbn [mapMM] in H. apply bind_done in H as (b & s1 & H1 & H).
  destruct Ha as [->|Ha]; [exact (Hf _ _ _ H1)|]. apply bind_done in H as (c & s2 & H2 & _). exact (IH Ha _ _ _ H2).
Qed.
Lemma unify_bool h o : o <> SBool -> o <> SCondition -> forall h' x, unify_rev h (PStatic SBool) (PStatic o) REvaluated <> Some (h', Ok x).
Proof. intros H1 H2 h' x. destruct o; try contradiction; cbn; discriminate. Qed.
Lemma rep_in {A} (p : proxy) (l : list A) a : In a l -> In (p, a) (zip_args [] (Some p) l).
Proof. induction l as [|b l IH]; cbn; [tauto|]. intros [->|H]; auto. Qed.

Section Env.
  Variable env : penv.
  Definition never (m : M formula) : Prop := forall s f s', m s <> Done f s'.

  (** The arguments. *)
  Lemma app_arg rec r es fc args p t sg : (forall h, snd (signature h (fc_kind fc)) = sg) -> In (p, t) (zip_args (sargs sg) (srep sg) args) ->
    (forall h, as_option h (sout sg) = Some SBool) -> never (rec t REvaluated (Some p)) -> never (parse_application rec r es fc args).
  Proof.
    intros Hsg Hin Ho Hn s f s' H. unfold parse_application in H. apply bind_done in H as (sg' & s1 & H1 & H).
    assert (sg' = sg) as ->. { unfold newsig in H1. specialize (Hsg (p_heap s)). destruct (signature (p_heap s) (fc_kind fc)) as [h2 sg2]. injection H1 as <- _. exact Hsg. }
    apply bind_done in H as (o & s2 & H2 & H). unfold readp in H2. injection H2 as <- <-. rewrite Ho in H. cbn [sort_realm] in H.
    apply bind_done in H as (nargs & s3 & H3 & _). revert H3. apply (mapMM_none _ _ (p, t) Hin). cbn [fst snd]. exact Hn.
  Qed.

  Lemma app_out rec fc args a o : fc_kind fc = SgFixed a o -> o <> SBool -> o <> SCondition -> never (parse_application rec REvaluated (Some (PStatic SBool)) fc args).
  Proof.
    intros Hk H1 H2 s f s' H. unfold parse_application in H. rewrite Hk in H. apply bind_done in H as (sg' & s1 & Hs & H). cbn in Hs. injection Hs as <- <-.
    cbn [sout sargs srep as_option] in H. apply bind_done in H as (o1 & s2 & Hr & H). cbn in Hr. injection Hr as <- <-. apply bind_done in H as (nargs & s3 & _ & H).
    destruct (negb _); [discriminate|]. apply bind_done in H as (o2 & s4 & Hr & H). cbn in Hr. injection Hr as <- <-.
    apply bind_done in H as ([[f1 fr] hs] & s5 & _ & H). apply bind_done in H as (f2 & s6 & _ & H). apply bind_done in H as (oo & s7 & Hr & H).
    apply bind_done in H as (u & s8 & H & _). cbn [when] in H. apply bind_done in H as (v & s9 & H & _). unfold lift in H.
    match type of H with match unify_rev ?h ?p ?q ?r with _ => _ end = _ => destruct (unify_rev h p q r) as [[h' [x|e]]|] eqn:E end; try discriminate.
    revert E. destruct (sym_realm fr), o; try contradiction; cbn in Hr; injection Hr as <- <-; cbn; discriminate.
  Qed.

  Lemma never_ind t : not_truth env t -> forall fuel, never (parse env fuel t REvaluated (Some (PStatic SBool))).
  Proof.
    induction 1 as [vs c l d|f args o (Hf & g & a & c & st & He) H1 H2|x ty t b _ IH|c l d _ IH|c l d _ IH|c l d _ IH|q vs b _ IH|t args _ IH|o t ts Ho Ht _ IH|t ts _ IH|u t ts _ IH|m args mc Hm _ IH|f args g k c sc He _ IH];
      intros [|fuel] s r s' H; try discriminate; cbn [parse parse_step] in H.
    - unfold parse_app in H. apply bind_done in H as (fc & s1 & Hg & H). unfold get_function_mow in Hg.
      assert (E : forall n, In n [n_true; n_True; n_false; n_False; n_not] -> Nat.eqb f n = false) by (intros n Hn; apply Nat.eqb_neq; intros ->; contradiction).
      rewrite !E in Hg by (cbn; tauto). cbn [orb] in Hg. rewrite He in Hg. injection Hg as <- <-. revert H. exact (app_out _ (mkFc g (SgFixed a o) c st) _ a o eq_refl H1 H2 _ _ _).
    - unfold parse_let in H. apply bind_done in H as (v & s1 & _ & H). apply bind_done in H as (f1 & s2 & _ & H). apply bind_done in H as (f2 & s3 & H & _). exact (IH _ _ _ _ H).
    - unfold parse_if in H. apply bind_done in H as (f1 & s1 & H & _). exact (IH _ _ _ _ H).
    - unfold parse_if in H. apply bind_done in H as (f1 & s1 & _ & H). apply bind_done in H as (f2 & s2 & H & _). exact (IH _ _ _ _ H).
    - unfold parse_if in H. apply bind_done in H as (f1 & s1 & _ & H). apply bind_done in H as (f2 & s2 & _ & H). apply bind_done in H as (f3 & s3 & H & _). exact (IH _ _ _ _ H).
    - unfold parse_quant in H. apply bind_done in H as (x & s1 & _ & H). apply bind_done in H as (bn & s2 & _ & H). apply bind_done in H as (vars & s3 & _ & H).
      apply bind_done in H as (c & s4 & H & _). exact (IH _ _ _ _ H).
    - unfold parse_app in H. apply bind_done in H as (fc & s1 & Hg & H). cbn in Hg. injection Hg as <- <-. revert H.
      refine (app_arg _ _ _ NOT_CACHE _ (PStatic SBool) t _ (fun h => eq_refl) _ (fun h => eq_refl) (IH fuel) _ _ _). left. reflexivity.
    - assert (Hand : never (parse_application (parse env fuel) REvaluated (Some (PStatic SBool)) AND_CACHE ts)).
      { refine (app_arg _ _ _ AND_CACHE _ (PStatic SBool) t _ (fun h => eq_refl) _ (fun h => eq_refl) (IH fuel)). apply rep_in. exact Ht. }
      assert (Hor : never (parse_application (parse env fuel) REvaluated (Some (PStatic SBool)) OR_CACHE ts)).
      { refine (app_arg _ _ _ OR_CACHE _ (PStatic SBool) t _ (fun h => eq_refl) _ (fun h => eq_refl) (IH fuel)). apply rep_in. exact Ht. }
      destruct Ho as [<-|[<-|[]]]; cbn [parse_infix parse_andor] in H; [exact (Hand _ _ _ H)|exact (Hor _ _ _ H)].
    - cbn [parse_infix] in H. revert H. refine (app_arg _ _ _ IMPLIES_CACHE _ (PStatic SBool) t _ (fun h => eq_refl) _ (fun h => eq_refl) (IH fuel) _ _ _). left. reflexivity.
    - cbn [parse_infix] in H. revert H. refine (app_arg _ _ _ IMPLIES_CACHE _ (PStatic SBool) t _ (fun h => eq_refl) _ (fun h => eq_refl) (IH fuel) _ _ _). right. left. reflexivity.
    - unfold parse_macro in H. rewrite Hm in H. destruct (negb _); [discriminate|]. apply bind_done in H as (fs & s1 & _ & H). apply bind_done in H as (t & s2 & H & _).
      unfold with_bv in H. apply bind_done in H as (b0 & s3 & _ & H). apply bind_done in H as (u & s4 & _ & H). apply bind_done in H as (a & s5 & H & _). exact (IH _ _ _ _ H).
    - unfold parse_step_mac in H. apply bind_done in H as (st & s1 & _ & H). destruct st as [v|g' sargs|q vs b]; try discriminate. rewrite He in H.
      apply bind_done in H as (t & s2 & H & _). unfold with_bv in H. apply bind_done in H as (b0 & s3 & _ & H). apply bind_done in H as (u & s4 & _ & H). apply bind_done in H as (a & s5 & H & _). exact (IH _ _ _ _ H).
  Qed.
  Lemma never_assert t : not_truth env t -> forall fuel, never (parse_assert env fuel t).
  Proof. intros Ht fuel s f s' H. unfold parse_assert in H. apply bind_done in H as (u & s1 & _ & H). exact (never_ind t Ht _ _ _ _ H). Qed.
End Env.
