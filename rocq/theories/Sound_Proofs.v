From Coq Require Import List Arith Bool Lia.
From Verif Require Import Syntax_Model Syntax_Proofs Traversal_Spec Semantics_Spec Semantics_Proofs Order_Spec Order_Model Order_Proofs Order_Steps_Proofs Binding_Proofs Sort_Model Evaluate_Model Evaluate_Spec Evaluate_Proofs
  Propagate_Model Propagate_Spec Propagate_Proofs File_Model File_Spec Assumption_Model Assumption_Spec Assumption_Proofs Expander_Spec Expander_Props Sentence_Spec Sentence_Proofs Arity_Spec Arity_Proofs Arity_Props Sound_Spec.
From Verif Require Parser_Model Smt_Model Smt_Spec Smt_Proofs Subst_Model Order_Props Propagate_Props Evaluate_Props.
Import ListNotations.

(** ** Structures that differ in auxiliary functions *)
Section Agree.
  Context (M : structure) (fi : fsym -> list (D M) -> D M) (HA : agrees M fi).
  Local Notation M' := (with_functions M fi).

  Lemma app_agrees s ds : ~ auxiliary s -> app (M:=M') s ds = app (M:=M) s ds.
  Proof. intros H. destruct s as [c| | | | | |c|s|i| |i|m|i|s|i|i|i|i|i|i]; try (apply HA; exact H); cbn.
    - destruct c; try reflexivity; repeat (destruct ds as [|? ds]; try reflexivity; try (apply HA; exact H)).
    - repeat (destruct ds as [|? ds]; try reflexivity; try (apply HA; exact H)).
  Qed.
  Lemma quantify_agrees q vs : forall (rho : env M) k k', (forall r, k r = k' r) -> quantify (M:=M') q vs rho k = quantify (M:=M) q vs rho k'.
  Proof.
    induction vs as [|v vs IH]; intros rho k k' H; cbn [quantify]; [apply H|]. destruct q; unfold ex_; cbn.
    - f_equal. apply eq_true_iff_eq. rewrite !all_spec. split; intros G d Hd; specialize (G d Hd); cbn in *; [rewrite <- (IH _ _ _ H)|rewrite (IH _ _ _ H)]; exact G.
    - apply eq_true_iff_eq. rewrite !all_spec. split; intros G d Hd; specialize (G d Hd); cbn in *; [rewrite <- (IH _ _ _ H)|rewrite (IH _ _ _ H)]; exact G.
  Qed.
  Lemma eval_agrees f : direct f -> forall rho : env M, eval (M:=M') f rho = eval (M:=M) f rho.
  Proof.
    induction f as [v|s args IH|q vs b IH] using formula_ind'; intros H rho; [reflexivity| |].
    - cbn [eval]. rewrite app_agrees by (eapply H; constructor). f_equal. apply map_ext_in. intros a Ha. rewrite Forall_forall in IH. apply IH; [exact Ha|].
      apply In_nth_error in Ha as (i & Hi). intros p s' l Hp. eapply H. econstructor; eassumption.
    - cbn [eval]. change (dinj M' ?x) with (dinj M x). f_equal. apply quantify_agrees. intros r. change (dtest M' ?x) with (dtest M x). f_equal. apply IH. intros p s' l Hp. eapply H. constructor. exact Hp.
  Qed.
  Lemma holds_agrees f (rho : env M) : direct f -> holds (M:=M) f rho -> holds (M:=M') f rho.
  Proof. intros H Hf. unfold holds. rewrite eval_agrees by exact H. exact Hf. Qed.

  Ltac same := repeat match goal with
    | |- context [fi ?s ?ds] => rewrite (HA s ds) by (intros []; fail)
    | K : context [fi ?s ?ds] |- _ => rewrite (HA s ds) in K by (intros []; fail)
    end.
  Lemma trace_agrees i tr u : is_trace M i tr u -> is_trace M' i tr u.
  Proof.
    intros [H1 H2 H3 H4 H5 H6 H7 H8 H9 H10 H11]. assert (HN : forall s, match s with Fhappens | Fleq | Flt | Fpred => ~ auxiliary s | _ => True end) by (intros []; cbn; tauto).
    split; try assumption; unfold tholds, is_time in *; cbn [fint with_functions dtest dom dinj].
    - intros d Hd. rewrite HA by exact (HN Fhappens). auto.
    - intros a b Ha Hb. rewrite HA by exact (HN Fleq). auto.
    - intros a b Ha Hb. rewrite HA by exact (HN Flt). auto.
    - intros a b Ha Hb. rewrite HA by exact (HN Flt). auto.
    - intros k a b Ha Hb. rewrite HA by exact (HN Fpred). eauto.
    - rewrite HA by exact (HN Fpred). exact H10.
    - rewrite HA by exact (HN Fpred). exact H11.
  Qed.
  Lemma distinct_agrees l : steps_distinct M l -> steps_distinct M' l.
  Proof.
    intros H f ss g ss' ds ds' Hf Hg Hd Hd'. unfold tholds, inst. cbn [fint with_functions dtest]. rewrite !HA by (cbn; tauto). apply (H f ss g ss' ds ds' Hf Hg Hd Hd').
  Qed.
  Lemma exhaustive_agrees l : steps_exhaustive M l -> steps_exhaustive M' l.
  Proof.
    intros H d Hd. unfold tholds, inst. cbn [fint with_functions dtest]. rewrite HA by (cbn; tauto). intros Hh G. apply (H d Hd Hh). intros f ss ds Hf Ha E. apply (G f ss ds Hf Ha). rewrite HA by (cbn; tauto). exact E.
  Qed.
  Lemma value_agrees evs s d : value evs M' s d = value evs M s d.
  Proof. unfold value. destruct (existsb _ _); [|reflexivity]. apply HA. cbn. tauto. Qed.
  Lemma means_agrees evs choice f : (forall k q g, f = PQuant k q -> In g (quantifier_formulas q) -> direct g) -> means evs M choice f -> means evs M' choice f.
  Proof.
    intros Hc Hm. destruct f as [i args out| | |c|k q|]; cbn [means] in *.
    - intros ds Hd. rewrite value_agrees. cbn [fint with_functions]. rewrite !HA by (cbn; tauto). rewrite (Hm ds Hd). f_equal.
      apply map_ext. intros x. symmetry. apply value_agrees.
    - intros c l r Ha. unfold truth in *. rewrite !value_agrees. cbn [fint with_functions dtest]. rewrite !HA by (cbn; tauto). exact (Hm c l r Ha).
    - intros a b Ha. rewrite !value_agrees. cbn [fint with_functions dinj deq]. rewrite !HA by (cbn; tauto). exact (Hm a b Ha).
    - intros ds Hd. rewrite value_agrees. cbn [fint with_functions dinj]. rewrite !HA by (cbn; tauto). rewrite (Hm ds Hd).
      change (dtest M') with (dtest M). rewrite (map_ext (fun d => dtest M (value evs M' SCondition d)) (fun d => dtest M (value evs M SCondition d))) by (intros d; rewrite value_agrees; reflexivity). reflexivity.
    - intros rho fs Hfs. specialize (Hm rho fs Hfs). specialize (Hc k q). unfold quantifier_formulas in Hc.
      assert (T : forall d, truth evs M' d <-> truth evs M d) by (intros d; unfold truth; rewrite value_agrees; reflexivity).
      destruct (qt_inner q) as [c|c|c l r].
      + assert (Hd : direct c) by (apply Hc; cbn; auto). rewrite T. cbn [fint with_functions]. rewrite !HA by (cbn; tauto). rewrite Hm.
        split; intros G ds Ht; specialize (G ds Ht); apply T + apply T in G; unfold at_ in *; try rewrite (eval_agrees _ Hd); try rewrite (eval_agrees _ Hd) in G; exact G.
      + assert (Hd : direct c) by (apply Hc; cbn; auto). rewrite T. cbn [fint with_functions]. rewrite !HA by (cbn; tauto). rewrite Hm.
        split; intros G ds Ht N; apply (G ds Ht); apply T + apply T in N; unfold at_ in *; try rewrite (eval_agrees _ Hd); try rewrite (eval_agrees _ Hd) in N; exact N.
      + assert (Hd : direct c) by (apply Hc; cbn; auto). assert (Hl : direct l) by (apply Hc; cbn; auto). assert (Hr : direct r) by (apply Hc; cbn; auto).
        destruct Hm as [H1 H2]. split; [exact H1|]. unfold at_ in *. rewrite !value_agrees. cbn [fint with_functions]. rewrite !HA by (cbn; tauto).
        rewrite T, (eval_agrees _ Hd), (eval_agrees _ Hl), (eval_agrees _ Hr). destruct H2 as [H2|[H2 H3]]; [left; exact H2|right]. split; [|exact H3].
        intros ds Ht N. apply (H2 ds Ht). apply T in N. rewrite (eval_agrees _ Hd) in N. exact N.
    - exact I.
  Qed.
End Agree.

(** ** The lines of a file *)
Lemma rewrite_true (M : structure) fn vs l t (rho : env M) : axiom_holds (ARewrite vs l t) rho -> Smt_Spec.axiom_true M rho (Smt_Model.XRewrite fn vs l t).
Proof.
  cbn. intros H. apply holds_forall. intros ds Hd. unfold holds. cbn [eval map app]. rewrite dtest_inj. apply deq_spec. exact (H ds Hd).
Qed.
Lemma lines_true (M : structure) (rho : env M) axs xs : lines axs xs -> forall l q, axs = l ++ [ABase q] ->
  (Forall (fun a => axiom_holds a rho) l -> Forall (Smt_Spec.axiom_true M rho) xs) /\ flat_map Smt_Spec.query_of xs = [q].
Proof.
  induction 1 as [f|axs xs H IH|a x axs xs Hx H IH]; intros l q E.
  - destruct l as [|a [|b l]]; try discriminate E. injection E as ->. split; [repeat constructor|reflexivity].
  - destruct (IH l q E) as [G1 G2]. split; [intros F; constructor; [exact I|auto]|exact G2].
  - assert (N : exists l', l = a :: l' /\ axs = l' ++ [ABase q]).
    { destruct l as [|b l]; [|injection E as -> ->; eauto]. injection E as _ ->. inversion H. exfalso. revert H. clear. intros H. remember [] as n eqn:E. induction H; try discriminate E. auto. }
    destruct N as (l' & -> & ->). destruct (IH l' q eq_refl) as [G1 G2]. split.
    + intros F. inversion F; subst. constructor; [|auto]. destruct Hx; try assumption. apply rewrite_true. assumption.
    + cbn [flat_map]. rewrite G2. destruct Hx; reflexivity.
Qed.
Lemma lines_arities sig funs axs xs : lines axs xs -> Forall (counts_axiom sig funs) axs -> Forall Smt_Spec.axiom_arities xs.
Proof.
  induction 1 as [f|axs xs H IH|a x axs xs Hx H IH]; intros F.
  - inversion F; subst. repeat constructor. cbn in *. eapply counts_arities. eassumption.
  - constructor; [exact I|auto].
  - inversion F; subst. constructor; [|auto]. destruct Hx; cbn in *; try (eapply counts_arities; eassumption). match goal with K : _ /\ _ |- _ => destruct K end. split; eapply counts_arities; eassumption.
Qed.
Lemma mapM_last {A B} (f : A -> option B) l x : forall l', Subst_Model.mapM f (l ++ [x]) = Some l' -> exists ys y, l' = ys ++ [y] /\ Subst_Model.mapM f l = Some ys /\ f x = Some y.
Proof.
  induction l as [|a l IH]; intros l' H; cbn in H.
  - destruct (f x) as [y|] eqn:E; [|discriminate]. injection H as <-. exists [], y. auto.
  - destruct (f a) as [b|] eqn:Ea; [|discriminate]. destruct (Subst_Model.mapM f (l ++ [x])) as [m|] eqn:Em; [|discriminate]. injection H as <-. destruct (IH _ eq_refl) as (ys & y & -> & E1 & E2).
    exists (b :: ys), y. cbn. rewrite Ea, E1. auto.
Qed.

Lemma some_inj {A} (a b : A) : Some a = Some b -> a = b.
Proof. congruence. Qed.
Lemma base_holds (M : structure) (rho : env M) l : Forall (fun f => holds f rho) l -> Forall (fun a => axiom_holds a rho) (map ABase l).
Proof. induction 1; cbn; constructor; assumption. Qed.

(** ** One problem *)
(** ** Skolem functions of the right sorts *)
Lemma build_sorted evs (M : structure) choice (rho : env M) : forall fs n, Forall (means evs M choice) fs ->
  forall i ins s ds, In (i, (ins, s)) (skolem_sorts n fs) -> args_of M ins ds -> dom M s (build M choice n fs i ds).
Proof.
  induction fs as [|f fs IH]; intros n Hm i ins s ds Hi Hds; [destruct Hi|]. apply Forall_cons_iff in Hm as [Hm Hms].
  assert (Low : forall fs n i ins s, In (i, (ins, s)) (skolem_sorts n fs) -> n <= i).
  { clear. induction fs as [|f fs IH]; intros n i ins s H; [destruct H|]. destruct f as [| | | |k q|]; cbn in H; try (exact (IH _ _ _ _ H)).
    destruct (qt_inner q); try (exact (IH _ _ _ _ H)). apply in_app_iff in H as [H|H]; [apply in_combine_l, in_seq in H; lia|]. apply IH in H. lia. }
  assert (Skip : skolem_count f = 0 -> In (i, (ins, s)) (skolem_sorts n fs) -> dom M s (build M choice n (f :: fs) i ds)).
  { intros E H. cbn [build]. rewrite E, Nat.add_0_r. pose proof (Low _ _ _ _ _ H). destruct (Nat.ltb_spec i n); [lia|]. eapply IH; eassumption. }
  destruct f as [| | | |k q|]; try (apply Skip; [reflexivity|exact Hi]). destruct (qt_inner q) as [c|c|c l r] eqn:Eq; cbn [skolem_sorts] in Hi; rewrite Eq in Hi;
    try (apply Skip; [cbn; rewrite Eq; reflexivity|exact Hi]).
  apply in_app_iff in Hi as [Hi|Hi].
  - assert (Hl := in_combine_l _ _ _ _ Hi). apply in_seq in Hl. cbn [build skolem_count]. rewrite Eq. destruct (Nat.ltb_spec i (n + length (qt_bound q))); [|lia].
    cbn [means] in Hm. rewrite Eq in Hm.
    assert (Hn : exists v, nth_error (qt_bound q) (i - n) = Some v /\ ins = map vsort (qt_free q) /\ s = vsort v).
    { clear - Hi. revert n Hi. induction (qt_bound q) as [|v vs IHv]; intros n Hi; cbn in Hi; [destruct Hi|]. destruct Hi as [[= <- <- <-]|Hi]; [rewrite Nat.sub_diag; exists v; auto|].
      assert (Hl := in_combine_l _ _ _ _ Hi). apply in_seq in Hl. destruct (IHv _ Hi) as (v' & Hv & E). replace (i - n) with (S (i - S n)) by lia. exists v'. auto. }
    destruct Hn as (v & Hv & -> & ->).
    assert (Ht : typed (qt_free q) ds).
    { clear - Hds. unfold args_of in Hds. remember (map vsort (qt_free q)) as ss eqn:E. revert E. generalize (qt_free q) as vs. induction Hds as [|x d ss ds Hx Hds IHd]; intros [|y vs] E; try discriminate; [constructor|].
      injection E as -> ->. constructor; [exact Hx|apply IHd; reflexivity]. }
    destruct (Hm rho ds Ht) as [Hw _]. clear - Hw Hv. revert Hv. generalize (i - n). induction Hw as [|x d vs ws Hx Hw IHw]; intros j Hv; [destruct j; discriminate|]. destruct j as [|j]; [injection Hv as ->; exact Hx|].
    apply IHw. exact Hv.
  - assert (Hl := Low _ _ _ _ _ Hi). cbn [build skolem_count]. rewrite Eq. destruct (Nat.ltb_spec i (n + length (qt_bound q))); [lia|]. eapply IH; eassumption.
Qed.
Lemma generate_sorted osort evs r nb n fs axs : Evaluate_Model.generate osort evs r nb false n fs = Some axs -> Forall (Evaluate_Spec.declared osort) fs ->
  forall (M : structure) choice (some : env M), Forall (means evs M choice) fs -> conditions_are_booleans evs M ->
  (r = REvaluated -> forall s d, In s evs -> dom M s d -> fint M (Feval s) [d] = d) ->
  exists sk, (forall i ins s ds, In (i, (ins, s)) (skolem_sorts n fs) -> args_of M ins ds -> dom M s (sk i ds)) /\
    forall rho : env (with_skolems M sk), Forall (fun a => axiom_holds a rho) axs.
Proof.
  intros H Hd M choice some Hm Hb Hr. exists (build M choice n fs). split; [intros; eapply build_sorted; eassumption|].
  intros rho. eapply (generate_ok osort evs (with_skolems M (build M choice n fs)) choice); eauto.
  - rewrite Forall_forall in *. intros f Hf. apply (means_with M _ osort evs choice f); auto.
  - apply build_takes. reflexivity.
Qed.

Section Sound.
  Context (sig : fsym -> option (list sort * sort)) (table : nat -> option quantifier) (r : realm) (w : whole_problem).
  Local Notation p := (wp_gen w).
  Context (HU : usual sig table w) (HT : told_apart w) (HD : all_direct table w) (HS : scoped_whole table w).

  (** [gt] as its axiom has it. *)
  Definition gt_fixed (M : structure) (s : fsym) (ds : list (D M)) : D M :=
    match s with Fgt => dinj M (match ds with [a; b] => negb (dtest M (fint M Flt [b; a])) | _ => false end) | _ => fint M s ds end.
  Lemma gt_agrees M : agrees M (gt_fixed M).
  Proof. intros s ds H. destruct s; try reflexivity. destruct (H I). Qed.
  Definition both_fixed (M : structure) (sk : nat -> list (D M) -> D M) (s : fsym) (ds : list (D M)) : D M :=
    match s with Fskolem i => sk i ds | _ => gt_fixed M s ds end.
  Lemma both_agrees M sk : agrees M (both_fixed M sk).
  Proof. intros s ds H. destruct s; try reflexivity; destruct (H I). Qed.

  Lemma means_both (M : structure) fi choice : agrees M fi -> Forall (means (gp_evs p) M choice) (map (classify sig table) (gp_funs p)) -> Forall (means (gp_evs p) (with_functions M fi) choice) (map (classify sig table) (gp_funs p)).
  Proof.
    intros HA H. rewrite Forall_forall in *. intros f Hf. apply means_agrees; [exact HA| |apply H; exact Hf]. intros k q g -> Hg. apply in_map_iff in Hf as (s & E & _).
    assert (Ht : table k = Some q).
    { destruct s; cbn in E; repeat match type of E with match ?o with _ => _ end = _ => destruct o eqn:?; try discriminate end; try discriminate. injection E as <- <-. assumption. }
    exact (di_quants _ _ HD k q g Ht Hg).
  Qed.

  Lemma settled_meaning (M : structure) sk fuel f g : execution sig table r w M -> In f (gp_asserts p ++ [gp_query p]) -> settled sig table w f -> propagate_evaluate (osort sig) (gp_evs p) table fuel f = Some g ->
    forall rho : env M, dtest M (eval (M:=with_functions M (both_fixed M sk)) g rho) = dtest M (eval (M:=M) f rho).
  Proof.
    intros HE Hf Hs Hg rho. set (M2 := with_functions M (both_fixed M sk)).
    assert (Ef : forall rho' : env M, eval (M:=M2) f rho' = eval (M:=M) f rho') by (intros rho'; apply eval_agrees; [apply both_agrees|apply (di_asserts _ _ HD); exact Hf]).
    destruct Hs as [Hs|(G & Hw)].
    - rewrite (Propagate_Props.C76_elsewhere _ _ _ _ _ _ Hg Hs). rewrite Ef. reflexivity.
    - destruct (ex_inhabited _ _ _ _ _ HE) as (some & Hsome). set (rho0 := (fun i => some (G i)) : env M2).
      assert (HV : evaluation (osort sig) (gp_evs p) (map (classify sig table) (gp_funs p)) M2).
      { split.
        - destruct (ex_means _ _ _ _ _ HE) as (choice & Hm). exists choice. apply means_both; [apply both_agrees|exact Hm].
        - intros d Hd. unfold M2. rewrite !value_agrees by apply both_agrees. exact (ex_booleans _ _ _ _ _ HE d Hd).
        - intros h s ds Hh. unfold M2. cbn [dom fint with_functions]. pose proof (ex_sorts _ _ _ _ _ HE h s ds Hh) as K. destruct h; try exact K; unfold osort in Hh.
          + cbn. destruct (sig Fgt) as [[ins out]|] eqn:E; [|discriminate Hh]. injection Hh as <-. rewrite (us_gt _ _ _ HU _ _ E). apply (ex_bool _ _ _ _ _ HE).
          + rewrite (us_skolems _ _ _ HU) in Hh. discriminate Hh. }
      assert (Hsg : sentence g).
      { eapply propagate_closed; [exact (sw_quants _ _ HS)| |exact Hg|apply (sw_asserts _ _ HS); exact Hf]. apply (sw_terms _ _ HS). apply in_app_or in Hf as [Hf|[<-|[]]]; [apply pt_assert; exact Hf|apply pt_query]. }
      rewrite (eval_agree M2 g rho rho0) by (intros i Hi; destruct (Hsg i Hi)).
      rewrite (eval_agree M f rho rho0) by (intros i Hi; destruct (sw_asserts _ _ HS f Hf i Hi)).
      unfold propagate_evaluate in Hg. destruct (before_eval (osort sig) (gp_evs p) table fuel f) as [x|] eqn:Ex; [|discriminate]. injection Hg as <-.
      rewrite (before_meaning _ _ _ _ _ M2 fuel f HV (us_funs _ _ _ HU) Hw x Ex rho0) by (intros i; apply Hsome). rewrite Ef. reflexivity.
  Qed.

  Lemma problem_sound vampire_flag defined preprocess anc scmp mfuel fuel no_bitstring skolem n split le ds axs xs kind o file K ground :
    whole_file sig table r vampire_flag defined preprocess anc scmp mfuel fuel w no_bitstring false skolem n split le = Some (ds, axs) ->
    counts_whole sig table w -> answers_cells anc (wp_cells w) -> (forall i, split <= i -> ~ In (Fuser i) (gp_funs p)) ->
    (forall f, In f (gp_asserts p ++ [gp_query p]) -> settled sig table w f) ->
    lines axs xs -> Smt_Model.file_of kind o xs = Some file -> weaker ground -> invariant (skolem_sorts skolem (map (classify sig table) (gp_funs p))) K -> unsatisfiable K ground file ->
    forall M : structure, K M -> execution sig table r w M ->
    (forall out, generate_assumptions sig table r vampire_flag defined preprocess anc scmp mfuel fuel w (wp_assumptions w) n split = Some out -> assumed (skolem_sorts skolem (map (classify sig table) (gp_funs p))) M (o_axioms out)) ->
    forall rho : env M, (forall x, In x (gp_orders p) -> holds (Parser_Model.order_axiom x) rho) -> (forall a, In a (gp_asserts p) -> holds a rho) -> holds (gp_query p) rho.
  Proof.
    intros HW HC Hans Hfr Hset HX HF HG HK HUn M HM HE Hcr rho Hor Has.
    assert (HA : Forall Smt_Spec.axiom_arities xs) by (eapply lines_arities; [exact HX|]; apply Forall_forall; intros a Ha; eapply C108_arities; eassumption).
    destruct (Smt_Proofs.file_meaning kind o xs HA) as (cs & E & HFM). rewrite HF in E. injection E as ->.
    destruct (dtest M (eval (gp_query p) rho)) eqn:Eq; [exact Eq|exfalso].
    unfold whole_file in HW. destruct (problem_decls sig r p) as [d1|]; [|discriminate]. destruct (evaluate_decls sig table r no_bitstring skolem p) as [d2|]; [|discriminate].
    destruct (order_axioms p) as [a1|] eqn:E1; [|discriminate]. destruct (Evaluate_Model.generate _ _ _ _ _ _ _) as [a2|] eqn:E2; [|discriminate].
    destruct (generate_assumptions _ _ _ _ _ _ _ _ _ _ _ _ _ _) as [out|] eqn:Eo; [|discriminate]. specialize (Hcr out eq_refl).
    destruct (Subst_Model.mapM _ _) as [a3|] eqn:E3; [|discriminate]. destruct (rewrites_found _ _ _ _ _); [|discriminate]. injection HW as <- <-.
    destruct (mapM_last _ _ _ _ E3) as (as3 & q3 & -> & Ea & Eq3).
    set (M1 := with_functions M (gt_fixed M)).
    destruct (ex_means _ _ _ _ _ HE) as (choice & Hm). cbn [andb] in E2.
    destruct (generate_sorted _ _ _ _ _ _ _ E2 (us_funs _ _ _ HU) M1 choice rho) as (sk & Hss & Hsk).
    { apply means_both; [apply gt_agrees|exact Hm]. }
    { intros d Hd. unfold M1. rewrite !value_agrees by apply gt_agrees. exact (ex_booleans _ _ _ _ _ HE d Hd). }
    { intros Er s d Hs Hd. exact (ex_realm _ _ _ _ _ HE Er s d Hs Hd). }
    set (M2 := with_functions M (both_fixed M sk)). pose proof (both_agrees M sk) as HB.
    assert (HV : variation (skolem_sorts skolem (map (classify sig table) (gp_funs p))) M (both_fixed M sk)).
    { split; [exact HB|intros ds'; apply (ex_bool _ _ _ _ _ HE)|intros i ins s ds' Hi Hds; exact (Hss i ins s ds' Hi Hds)]. }
    specialize (Hsk rho). change (with_skolems M1 sk) with M2 in Hsk.
    apply (HUn M2 (HK _ _ HM HV) rho). destruct (HFM M2 (ground M2) rho) as [G _]. clear HFM. apply G; [intros _ g s; apply HG| |]; clear G.
    - eapply (proj1 (lines_true M2 rho _ _ HX _ q3 ltac:(rewrite map_app; cbn [map]; rewrite !app_assoc; reflexivity))).
      rewrite !Forall_app. split; [split; [split|]|].
      + unfold order_axioms in E1. destruct (gp_steps p) as [|init others] eqn:Es; [discriminate|]. apply some_inj in E1. rewrite <- E1. clear E1.
        assert (HO : Forall (fun f => holds (M:=M2) f rho) (order_theory (into_formula init) ++ [gt_axiom] ++ step_axioms (init :: others) ++ map Parser_Model.order_axiom (gp_orders p))).
        { destruct (ex_trace _ _ _ _ _ HE init others Es) as (tr & u & Ht). pose proof (trace_agrees M _ HB _ _ _ Ht) as Ht2.
          rewrite !Forall_app. split; [|split; [|split]].
          - eapply Order_Props.C23_ordering_axioms_sound; [|exact Ht2]. intros rho'. unfold into_formula, step_term. rewrite (sw_init _ _ HS _ _ Es). reflexivity.
          - constructor; [|constructor]. apply Order_Props.C25_gt_axiom_partial.
            + intros a b Ha Hb. split; [eexists; reflexivity|]. exact (tr_lt_bool _ _ _ _ Ht2 a b Ha Hb).
            + intros a b Ha Hb. unfold tholds. cbn. rewrite dtest_inj. rewrite negb_true_iff, not_true_iff_false. reflexivity.
          - apply Order_Props.C26_steps_distinct_exhaustive; [rewrite <- Es; exact HT|]. unfold signature. rewrite <- Es. split; [apply distinct_agrees; [exact HB|exact (ex_distinct _ _ _ _ _ HE)]|apply exhaustive_agrees; [exact HB|exact (ex_exhaustive _ _ _ _ _ HE)]].
          - apply Forall_forall. intros f Hf. apply in_map_iff in Hf as (x & <- & Hx). apply holds_agrees; [exact HB|apply (di_orders _ _ HD); exact Hx|auto]. }
        apply base_holds. exact HO.
      + exact Hsk.
      + apply Forall_forall. intros a Ha. apply in_map_iff in Ha as (f & <- & Hf). exact (Hcr _ HV rho f Hf).
      + apply Forall_forall. intros a Ha. apply in_map_iff in Ha as (g & <- & Hg). destruct (mapM_from _ _ _ _ Ea Hg) as (f & Hf & Ef). cbn. unfold holds.
        change (dtest M2) with (dtest M). unfold M2. rewrite (settled_meaning M sk fuel f g HE) by (auto using in_or_app). apply Has. exact Hf.
    - intros q Hq. rewrite (proj2 (lines_true M2 rho _ _ HX _ q3 ltac:(rewrite map_app; cbn [map]; rewrite !app_assoc; reflexivity))) in Hq. destruct Hq as [<-|[]]. unfold holds.
      change (dtest M2) with (dtest M). unfold M2. rewrite (settled_meaning M sk fuel (gp_query p) q3 HE) by (auto using in_or_app, in_eq). rewrite Eq. discriminate.
  Qed.
End Sound.
