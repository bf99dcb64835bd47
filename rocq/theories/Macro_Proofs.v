From Coq Require Import List Arith Bool Lia FinFun.
From Verif Require Import Syntax_Model Traversal_Model Traversal_Spec Subst_Model Semantics_Spec Semantics_Proofs Subst_Proofs Order_Model
  Order_Spec Binding_Proofs Order_Proofs Order_Steps_Proofs Macro_Model Macro_Spec.
Import ListNotations.

Lemma zip_eq_spec {A B} (l : list A) : forall (m : list B) ps, zip_eq l m = Some ps -> ps = combine l m /\ length l = length m.
Proof.
  induction l as [|a l IH]; intros [|b m] ps H; cbn in H; try discriminate.
  - injection H as <-. auto.
  - destruct (zip_eq l m) as [r|] eqn:E; [|discriminate]. injection H as <-. destruct (IH m r E) as [-> El]. cbn. auto.
Qed.

Lemma sorts_ids from ss : map vid (sorts_to_variables from ss) = seq from (length ss).
Proof. revert from. induction ss as [|s ss IH]; intros from; cbn; [auto|]. rewrite IH; auto. Qed.
Lemma sorts_sorts from ss : map vsort (sorts_to_variables from ss) = ss.
Proof. revert from. induction ss as [|s ss IH]; intros from; cbn; [auto|]. rewrite IH; auto. Qed.

Lemma mapM_combine {A B} (f : A -> option B) l bs : mapM f l = Some bs ->
  length l = length bs /\ forall a b, In (a, b) (combine l bs) -> f a = Some b.
Proof.
  revert bs. induction l as [|a l IH]; intros bs H; cbn in H.
  - injection H as <-. split; [auto|]. intros a b [].
  - destruct (f a) as [b|] eqn:E; [|discriminate]. destruct (mapM f l) as [bs'|] eqn:E'; [|discriminate].
    injection H as <-. destruct (IH bs' eq_refl) as [Hl Hin]. split; [cbn; auto|].
    intros a' b' [H|H]; [injection H as <- <-; auto|auto].
Qed.
Lemma in_combine_left {A B} (l : list A) (m : list B) a : length l = length m -> In a l -> exists b, In (a, b) (combine l m).
Proof.
  revert m. induction l as [|x l IH]; intros [|y m] Hl Ha; try discriminate; [destruct Ha|].
  destruct Ha as [->|Ha]; [exists y; left; auto|]. destruct (IH m) as [b Hb]; auto. exists b; right; auto.
Qed.

Section Cells.
  Context (M : structure).

  Lemma bindv_in vs : forall (r1 r2 : env M) ds i, length vs = length ds -> In i (map vid vs) ->
    bindv r1 vs ds i = bindv r2 vs ds i.
  Proof.
    induction vs as [|v vs IH]; intros r1 r2 [|d ds] i Hl Hi; try discriminate; [destruct Hi|].
    rewrite !bindv_cons. injection Hl as Hl.
    destruct (in_dec Nat.eq_dec i (map vid vs)) as [H|H]; [apply IH; auto|].
    rewrite !bindv_other by auto. destruct Hi as [<-|Hi]; [|contradiction]. unfold upd. rewrite Nat.eqb_refl. reflexivity.
  Qed.
  Lemma bindv_app vs ws : forall (rho : env M) ds es, length vs = length ds ->
    bindv rho (vs ++ ws) (ds ++ es) = bindv (bindv rho vs ds) ws es.
  Proof.
    induction vs as [|v vs IH]; intros rho [|d ds] es Hl; try discriminate; [reflexivity|].
    injection Hl as Hl. cbn [List.app]. rewrite !bindv_cons. apply IH; auto.
  Qed.
  Lemma typed_app vs ws ds es : typed (M:=M) vs ds -> typed ws es -> typed (vs ++ ws) (ds ++ es).
  Proof. apply Forall2_app. Qed.
  Lemma typed_app_inv vs ws ds : typed (M:=M) (vs ++ ws) ds ->
    exists d1 d2, ds = d1 ++ d2 /\ typed vs d1 /\ typed ws d2.
  Proof.
    intros H. apply Forall2_app_inv_l in H as (d1 & d2 & H1 & H2 & ->). eauto.
  Qed.

  Lemma args_of_length ss ds : args_of M ss ds -> length ss = length ds.
  Proof. induction 1; cbn; congruence. Qed.

  (** The values of an assignment as the specification sees them. *)
  Definition writes (rho : env M) (c : mcell) : list (write M) :=
    map (fun a => mkWrite M (map vsort (asg_vars a))
           (fun ds => inst M (ps_fun (as_step a)) (firstn (length (ps_vars (as_step a))) ds))
           (fun ds => map (fun t => eval (M:=M) t (bindv rho (asg_vars a) ds)) (as_args a))
           (fun ds => eval (M:=M) (as_content a) (bindv rho (asg_vars a) ds))) (ce_asgs c).

  (** The assignment's variables are distinct and below [m], and nothing else occurs free in it. *)
  Definition asg_ok (m : nat) (a : assignment) : Prop :=
    NoDup (map vid (asg_vars a)) /\ (forall v, In v (asg_vars a) -> vid v < m) /\
    (forall f i, In f (as_content a :: as_args a) -> occurs_free i f -> In i (map vid (asg_vars a))).

  Context (m : nat) (c : mcell) (ok : forall a, In a (ce_asgs c) -> asg_ok m a).
  Let step_var := mkVar m SStep.
  Let vars := sorts_to_variables (m + 1) (ce_args c).
  Let nvars := vars ++ [step_var].

  Lemma nvars_ids i : In i (map vid nvars) -> m <= i.
  Proof.
    unfold nvars, vars. rewrite map_app, sorts_ids. intros H. apply in_app_or in H as [H|[<-|[]]]; [|cbn; lia].
    apply in_seq in H. lia.
  Qed.
  Lemma nvars_nodup : NoDup (map vid nvars).
  Proof.
    unfold nvars, vars. rewrite map_app, sorts_ids. apply Traversal_Proofs.NoDup_app_intro.
    - apply seq_NoDup.
    - repeat constructor; auto.
    - intros x H [E|[]]. cbn in E. subst. apply in_seq in H. lia.
  Qed.
  Lemma nvars_typed es t : typed (M:=M) nvars (es ++ [t]) <-> args_of M (ce_args c) es /\ is_time M t.
  Proof.
    rewrite typed_args. unfold nvars. rewrite map_app. unfold vars. rewrite sorts_sorts. cbn [map vsort step_var].
    unfold args_of. split.
    - intros H. apply Forall2_app_inv_l in H as (d1 & d2 & H1 & H2 & E).
      inversion H2 as [|? x ? ? Hx Hn]; subst. inversion Hn; subst. apply app_inj_tail in E as [-> ->]. auto.
    - intros [H1 H2]. apply Forall2_app; auto.
  Qed.
  Lemma nvars_split ds : typed (M:=M) nvars ds -> exists es t, ds = es ++ [t] /\ args_of M (ce_args c) es /\ is_time M t.
  Proof.
    intros H. pose proof H as H0. unfold nvars in H. apply typed_app_inv in H as (d1 & d2 & -> & H1 & H2).
    inversion H2 as [|? x ? ? Hx Hn]; subst. inversion Hn; subst. exists d1, x. split; [auto|]. apply nvars_typed; auto.
  Qed.

  Section Env.
    Context (rho : env M) (es : list (D M)) (t : D M) (Hes : args_of M (ce_args c) es) (Ht : is_time M t).
    Let r := bindv rho nvars (es ++ [t]).

    Lemma len_es : length vars = length es.
    Proof.
      unfold vars. rewrite <- (map_length vid), sorts_ids, seq_length. eapply args_of_length; exact Hes.
    Qed.
    Lemma nvars_values : map (fun v => r (vid v)) nvars = es ++ [t].
    Proof.
      apply bindv_values; [apply nvars_nodup|]. unfold nvars. rewrite !app_length, len_es. reflexivity.
    Qed.
    Lemma vars_values : map (fun v => r (vid v)) vars = es.
    Proof.
      pose proof nvars_values as H. unfold nvars in H. rewrite map_app in H. cbn [map] in H.
      apply app_inj_tail in H as [H _]. exact H.
    Qed.
    Lemma step_value : r m = t.
    Proof.
      pose proof nvars_values as H. unfold nvars in H. rewrite map_app in H. cbn [map] in H.
      apply app_inj_tail in H as [_ H]. exact H.
    Qed.
    (** Values of the new variables below an assignment's own quantifiers. *)
    Lemma under a ds : In a (ce_asgs c) -> length (asg_vars a) = length ds ->
      map (fun v => bindv r (asg_vars a) ds (vid v)) vars = es /\ bindv r (asg_vars a) ds m = t.
    Proof.
      intros Ha Hl. destruct (ok a Ha) as (_ & Hlt & _). split.
      - etransitivity; [|exact vars_values]. apply map_ext_in. intros v Hv. apply bindv_other. intros Hin.
        apply in_map_iff in Hin as (w & E & Hw). apply Hlt in Hw.
        assert (m <= vid v) by (apply nvars_ids; unfold nvars; rewrite map_app; apply in_or_app; left; apply in_map; auto). lia.
      - rewrite bindv_other; [apply step_value|]. intros Hin. apply in_map_iff in Hin as (w & E & Hw). apply Hlt in Hw. lia.
    Qed.
    Lemma closed_value a f ds : In a (ce_asgs c) -> In f (as_content a :: as_args a) -> length (asg_vars a) = length ds ->
      eval (M:=M) f (bindv r (asg_vars a) ds) = eval f (bindv rho (asg_vars a) ds).
    Proof.
      intros Ha Hf Hl. apply eval_agree. intros i Hi. apply bindv_in; auto. destruct (ok a Ha) as (_ & _ & H). eapply H; eauto.
    Qed.
    Lemma step_instance a ds : In a (ce_asgs c) -> length (asg_vars a) = length ds ->
      eval (M:=M) (into_formula (as_step a)) (bindv r (asg_vars a) ds)
      = inst M (ps_fun (as_step a)) (firstn (length (ps_vars (as_step a))) ds).
    Proof.
      intros Ha Hl. unfold into_formula, step_term. rewrite eval_fv_step. f_equal.
      destruct (ok a Ha) as (Hn & _ & _).
      pose proof (bindv_values (asg_vars a) r ds Hn Hl) as E.
      apply (f_equal (firstn (length (ps_vars (as_step a))))) in E. etransitivity; [|exact E].
      generalize (bindv r (asg_vars a) ds). intros r'. unfold asg_vars.
      rewrite map_app, firstn_app, map_length, Nat.sub_diag, firstn_O, app_nil_r.
      rewrite firstn_all2 by (rewrite map_length; auto). reflexivity.
    Qed.

    Lemma eqs_iff a e ds : In a (ce_asgs c) -> asg_eqs vars step_var a = Some e -> length (asg_vars a) = length ds ->
      (holds (M:=M) e (bindv r (asg_vars a) ds) <->
       t = inst M (ps_fun (as_step a)) (firstn (length (ps_vars (as_step a))) ds) /\
       es = map (fun t => eval (M:=M) t (bindv rho (asg_vars a) ds)) (as_args a)).
    Proof.
      intros Ha He Hl. unfold asg_eqs in He. destruct (zip_eq vars (as_args a)) as [ps|] eqn:Ez; [|discriminate].
      injection He as <-. apply zip_eq_spec in Ez as [-> Ez]. rewrite holds_and_list, map_app, Forall_app.
      destruct (under a ds Ha Hl) as [U1 U2]. cbn [map]. rewrite Forall_cons_iff, holds_meq.
      assert (X : forall P, Forall P (@nil formula) <-> True) by (split; auto). rewrite X; clear X.
      rewrite (step_instance a ds Ha Hl). cbn [eval vid step_var]. rewrite U2.
      enough (Forall (fun f => holds (M:=M) f (bindv r (asg_vars a) ds)) (map (fun '(v, t) => meq (FVar v) t) (combine vars (as_args a)))
              <-> es = map (fun t => eval (M:=M) t (bindv rho (asg_vars a) ds)) (as_args a)) by tauto.
      rewrite <- U1.
      assert (Q : forall f, In f (as_args a) -> eval (M:=M) f (bindv r (asg_vars a) ds) = eval f (bindv rho (asg_vars a) ds))
        by (intros; apply closed_value; auto; right; auto).
      clear U1. revert Ez Q. generalize (as_args a) as l. generalize vars as w. induction w as [|v w IH]; intros [|f l] Ez Q; try discriminate; cbn.
      - split; auto.
      - injection Ez as Ez. rewrite Forall_cons_iff, (IH l Ez) by (intros; apply Q; right; auto). rewrite holds_meq. cbn [eval].
        rewrite Q by (left; auto). split; [intros [-> ->]; auto|intros E; injection E as -> ->; auto].
    Qed.
  End Env.

  Theorem cell_axioms_iff rho fs : cell_axioms m c = Some fs ->
    (Forall (fun f => holds (M:=M) f rho) fs <->
     cell_written M (ce_fun c) (ce_args c) (writes rho c) /\ cell_kept M (ce_fun c) (ce_args c) (writes rho c)).
  Proof.
    unfold cell_axioms. fold step_var vars. fold nvars. destruct (mapM (asg_eqs vars step_var) (ce_asgs c)) as [eqs|] eqn:Em; [|discriminate].
    intros H; injection H as <-. apply mapM_combine in Em as [Hlen Heq].
    assert (Call : forall es t, args_of M (ce_args c) es -> is_time M t ->
      eval (M:=M) (fv (Fcell (ce_fun c)) nvars) (bindv rho nvars (es ++ [t])) = cell_at M (ce_fun c) es t).
    { intros es t Hes Ht. unfold fv, cell_at. cbn. rewrite map_map. f_equal. apply nvars_values; auto. }
    rewrite Forall_cons_iff, !Forall_map, Forall_forall.
    assert (Wr : forall w, In w (writes rho c) <-> exists a, In a (ce_asgs c) /\ w = mkWrite M (map vsort (asg_vars a))
           (fun ds => inst M (ps_fun (as_step a)) (firstn (length (ps_vars (as_step a))) ds))
           (fun ds => map (fun t => eval (M:=M) t (bindv rho (asg_vars a) ds)) (as_args a))
           (fun ds => eval (M:=M) (as_content a) (bindv rho (asg_vars a) ds))).
    { intros w. unfold writes. rewrite in_map_iff. split; intros (a & H1 & H2); exists a; auto. }
    assert (Neg : forall es t, args_of M (ce_args c) es -> is_time M t ->
      (holds (M:=M) (ands (map (fun '(a, e) => mk_forall (asg_vars a) (fnot e)) (combine (ce_asgs c) eqs))) (bindv rho nvars (es ++ [t])) <->
       forall w ds, In w (writes rho c) -> args_of M (w_sorts M w) ds -> ~ (t = w_step M w ds /\ es = w_args M w ds))).
    { intros es t Hes Ht. rewrite holds_and_list, Forall_map, Forall_forall. split.
      - intros H w ds Hw Hds. apply Wr in Hw as (a & Ha & ->). cbn in *.
        destruct (in_combine_left _ eqs a Hlen Ha) as [e Hae]. specialize (H _ Hae). cbn beta iota in H.
        apply typed_args in Hds. rewrite holds_all in H. specialize (H ds Hds). rewrite holds_not in H.
        rewrite (eqs_iff rho es t Hes a e ds Ha (Heq a e Hae) (typed_length _ _ Hds)) in H. exact H.
      - intros H [a e] Hae. pose proof (in_combine_l _ _ _ _ Hae) as Ha. rewrite holds_all. intros ds Hds. rewrite holds_not.
        rewrite (eqs_iff rho es t Hes a e ds Ha (Heq a e Hae) (typed_length _ _ Hds)).
        refine (H _ ds (proj2 (Wr _) (ex_intro _ a (conj Ha eq_refl))) _). cbn. apply typed_args; auto. }
    split.
    - intros [Hk Hw]. split.
      + intros w ds Hin Hds Ht Hargs. apply Wr in Hin as (a & Ha & ->). cbn [w_sorts w_step w_args w_value] in *.
        destruct (in_combine_left _ eqs a Hlen Ha) as [e Hae]. specialize (Hw _ Hae). cbn beta iota in Hw.
        rewrite holds_all in Hw. specialize (Hw _ (proj2 (nvars_typed _ _) (conj Hargs Ht))).
        apply typed_args in Hds. rewrite holds_all in Hw. specialize (Hw ds Hds). rewrite holds_imp in Hw.
        rewrite (eqs_iff rho _ _ Hargs a e ds Ha (Heq a e Hae) (typed_length _ _ Hds)) in Hw.
        specialize (Hw (conj eq_refl eq_refl)). rewrite holds_meq in Hw.
        rewrite (closed_value rho _ _ a (as_content a) ds Ha (or_introl eq_refl) (typed_length _ _ Hds)) in Hw.
        rewrite <- Hw. rewrite <- (Call _ _ Hargs Ht). apply eval_agree. intros i Hi. symmetry. apply bindv_other. intros Hin.
        destruct (ok a Ha) as (_ & Hlt & _). apply in_map_iff in Hin as (v & <- & Hv). apply Hlt in Hv.
        assert (m <= vid v); [|lia]. apply nvars_ids. clear -Hi. unfold fv in Hi. destruct Hi as (p & v' & Hp & E & _).
        inversion Hp as [| ? ? k a p' ? Hk Hp'|]; subst. apply nth_error_In, in_map_iff in Hk as (v'' & <- & Hv'').
        inversion Hp'; subst. rewrite <- E. apply in_map; auto.
      + intros es t Hes Ht Hn. rewrite holds_all in Hk. specialize (Hk _ (proj2 (nvars_typed _ _) (conj Hes Ht))).
        rewrite holds_imp, (Neg es t Hes Ht), holds_meq in Hk. specialize (Hk Hn).
        unfold vmsg. rewrite <- (Call es t Hes Ht). unfold ev_msg in Hk. cbn [eval map] in Hk.
        change (Semantics_Spec.app (M:=M) (Feval SMessage)) with (fint M (Feval SMessage)) in Hk. rewrite Hk. f_equal. f_equal.
        cbn. unfold cell_at. f_equal. rewrite map_app, map_map. cbn [map eval vid step_var]. f_equal.
        * apply (vars_values rho es t Hes).
        * f_equal. cbn. f_equal. f_equal. apply (step_value rho es t Hes).
    - intros [Hw Hk]. split.
      + rewrite holds_all. intros ds Hds. apply nvars_split in Hds as (es & t & -> & Hes & Ht).
        rewrite holds_imp, (Neg es t Hes Ht), holds_meq. intros Hn. unfold ev_msg. cbn [eval map].
        change (Semantics_Spec.app (M:=M) (Feval SMessage)) with (fint M (Feval SMessage)).
        rewrite (Call es t Hes Ht). fold (vmsg M (cell_at M (ce_fun c) es t)). rewrite (Hk es t Hes Ht Hn). unfold vmsg. f_equal. f_equal.
        cbn. unfold cell_at. f_equal. rewrite map_app, map_map. cbn [map eval vid step_var]. f_equal.
        * symmetry. apply (vars_values rho es t Hes).
        * f_equal. cbn. f_equal. f_equal. symmetry. apply (step_value rho es t Hes).
      + intros [a e] Hae. pose proof (in_combine_l _ _ _ _ Hae) as Ha. rewrite holds_all. intros ns Hns.
        apply nvars_split in Hns as (es & t & -> & Hes & Ht). rewrite holds_all. intros ds Hds. rewrite holds_imp.
        rewrite (eqs_iff rho es t Hes a e ds Ha (Heq a e Hae) (typed_length _ _ Hds)). intros [-> ->].
        rewrite holds_meq. rewrite (closed_value rho _ _ a (as_content a) ds Ha (or_introl eq_refl) (typed_length _ _ Hds)).
        assert (Hin : In (mkWrite M (map vsort (asg_vars a))
           (fun ds => inst M (ps_fun (as_step a)) (firstn (length (ps_vars (as_step a))) ds))
           (fun ds => map (fun t => eval (M:=M) t (bindv rho (asg_vars a) ds)) (as_args a))
           (fun ds => eval (M:=M) (as_content a) (bindv rho (asg_vars a) ds))) (writes rho c)) by (apply Wr; exists a; auto).
        specialize (Hw _ ds Hin). cbn [w_sorts w_step w_args w_value] in Hw.
        rewrite <- Hw by (auto; apply typed_args; auto). rewrite <- (Call _ _ Hes Ht).
        apply eval_agree. intros i Hi. apply bindv_other. intros Hi'.
        destruct (ok a Ha) as (_ & Hlt & _). apply in_map_iff in Hi' as (v & <- & Hv). apply Hlt in Hv.
        assert (m <= vid v); [|lia]. apply nvars_ids. clear -Hi. unfold fv in Hi. destruct Hi as (p & v' & Hp & E & _).
        inversion Hp as [| ? ? k a p' ? Hk Hp'|]; subst. apply nth_error_In, in_map_iff in Hk as (v'' & <- & Hv'').
        inversion Hp'; subst. rewrite <- E. apply in_map; auto.
  Qed.
End Cells.
