From Coq Require Import List Arith Bool Lia Permutation.
From Verif Require Import Syntax_Model Syntax_Proofs Traversal_Model Traversal_Spec Semantics_Spec Subst_Model Sort_Model Order_Model Macro_Model Parser_Model Parser_Spec Parser_Base_Proofs Source_Model Source_Spec
  Source_Closed_Spec Source_Proofs Source_More_Proofs Source_Closed_More_Proofs Source_Problem_Proofs Assumption_Model Assumption_Spec Arity_Spec Arity_Proofs Arity_Source_Spec.
From Verif Require Evaluate_Model File_Model File_Spec.
Import ListNotations.

Section Runs.
  Context (sig : fsym -> option (list sort * sort)) (funs : list fsym) (T : list tquant).
  Notation takes := (Arity_Spec.takes sig funs).
  Notation counts := (Arity_Spec.counts sig funs).
  Hypothesis HT : forall i q, nth_error T i = Some q -> takes (Fquant i) (length (tf q)).

  Definition within (qs : list tquant) : Prop := exists l, T = qs ++ l.
  Definition kept (qs : list tquant) : Prop := Forall (fun q => Forall counts (tc q)) qs.
  (** What an action adds is fine, and so is its result. *)
  Definition run {A} (Pre : Prop) (m : M A) (P : A -> Prop) : Prop :=
    forall s a s', m s = Done a s' -> (exists l, p_qs s' = p_qs s ++ l) /\ (Pre -> within (p_qs s') -> kept (p_qs s) -> kept (p_qs s') /\ P a).

  Lemma run_bind {A B} (Pre : Prop) (m : M A) (k : A -> M B) P Q : run Pre m P -> (forall a, run (Pre /\ P a) (k a) Q) -> run Pre (bind m k) Q.
  Proof.
    intros H1 H2 s b s' H. apply bind_done in H as (a & s1 & E1 & E2). destruct (H1 _ _ _ E1) as ((l1 & G1) & K1). destruct (H2 _ _ _ _ E2) as ((l2 & G2) & K2).
    split; [exists (l1 ++ l2); rewrite G2, G1; symmetry; apply app_assoc|]. intros HP (l & HW) HK.
    destruct K1 as [K1 P1]; [exact HP|exists (l2 ++ l); rewrite HW, G2; symmetry; apply app_assoc|exact HK|]. apply K2; [auto|exists l; exact HW|exact K1].
  Qed.
  Lemma run_ret {A} (Pre : Prop) (a : A) (P : A -> Prop) : (Pre -> P a) -> run Pre (ret a) P.
  Proof. intros H s b s' E. unfold ret in E. injection E as <- <-. split; [exists []; symmetry; apply app_nil_r|auto]. Qed.
  Lemma run_fail {A} (Pre : Prop) (P : A -> Prop) : run Pre fail P.
  Proof. intros s a s' H. discriminate. Qed.
  Lemma run_panic {A} (Pre : Prop) (P : A -> Prop) : run Pre panic P.
  Proof. intros s a s' H. discriminate. Qed.
  Lemma run_timeout {A} (Pre : Prop) (P : A -> Prop) : run Pre timeout P.
  Proof. intros s a s' H. discriminate. Qed.
  Lemma run_quiet {A} (Pre : Prop) (m : M A) : (forall s a s', m s = Done a s' -> p_qs s' = p_qs s) -> run Pre m (fun _ => True).
  Proof. intros H s a s' E. rewrite (H _ _ _ E). split; [exists []; symmetry; apply app_nil_r|auto]. Qed.
  Lemma run_post {A} (Pre : Prop) (m : M A) (P Q : A -> Prop) : (forall a, Pre -> P a -> Q a) -> run Pre m P -> run Pre m Q.
  Proof. intros H R s a s' E. destruct (R _ _ _ E) as [G K]. split; [exact G|]. intros HP HW HK. destruct (K HP HW HK). auto. Qed.
  Lemma run_pre {A} (Pre Pre' : Prop) (m : M A) P : (Pre -> Pre') -> run Pre' m P -> run Pre m P.
  Proof. intros H R s a s' E. destruct (R _ _ _ E) as [G K]. split; [exact G|auto]. Qed.
  Lemma run_mapMM {A B} (Pre : Prop) (f : A -> M B) P l : (forall a, In a l -> run Pre (f a) P) -> run Pre (mapMM f l) (Forall P).
  Proof.
    induction l as [|a l IH]; intros H; cbn [mapMM]; [apply run_ret; constructor|]. eapply run_bind; [apply H; left; reflexivity|]. intros b. eapply run_bind; [eapply run_pre; [|apply IH; intros x Hx; apply H; right; exact Hx]; tauto|].
    intros bs. apply run_ret. intros [[_ Hb] Hbs]. constructor; assumption.
  Qed.
  Lemma quiet_getbv (Pre : Prop) : run Pre getbv (fun _ => True).
  Proof. apply run_quiet. intros s a s' [= _ <-]. reflexivity. Qed.
  Lemma quiet_setbv (Pre : Prop) b : run Pre (setbv b) (fun _ => True).
  Proof. apply run_quiet. intros s a s' [= _ <-]. reflexivity. Qed.
  Lemma quiet_pushbv (Pre : Prop) b : run Pre (pushbv b) (fun _ => True).
  Proof. apply run_quiet. intros s a s' [= _ <-]. reflexivity. Qed.
  Lemma quiet_truncbv (Pre : Prop) b : run Pre (truncbv b) (fun _ => True).
  Proof. apply run_quiet. intros s a s' [= _ <-]. reflexivity. Qed.
  Lemma quiet_newsig (Pre : Prop) k : run Pre (newsig k) (fun _ => True).
  Proof. apply run_quiet. intros s a s' H. unfold newsig in H. destruct (signature _ _). injection H as _ <-. reflexivity. Qed.
  Lemma quiet_readp (Pre : Prop) k : run Pre (readp k) (fun _ => True).
  Proof. apply run_quiet. intros s a s' [= _ <-]. reflexivity. Qed.
  Lemma quiet_lift {A} (Pre : Prop) f : run Pre (@lift A f) (fun _ => True).
  Proof. apply run_quiet. intros s a s' H. unfold lift in H. destruct (f _) as [[h [x|x]]|]; try discriminate. injection H as _ <-. reflexivity. Qed.
  Lemma run_when {A} (Pre : Prop) (o : option A) f : (forall x, run Pre (f x) (fun _ => True)) -> run Pre (Parser_Model.when o f) (fun _ => True).
  Proof. intros H. destruct o as [x|]; cbn; [apply H|apply run_ret; auto]. Qed.
  Lemma run_lift_opt {A} (Pre : Prop) (o : option A) (P : A -> Prop) : (forall a, o = Some a -> Pre -> P a) -> run Pre (lift_opt o) P.
  Proof. intros H. destruct o as [a|]; cbn; [apply run_ret; auto|apply run_panic]. Qed.

  Ltac quiet := first [apply quiet_getbv|apply quiet_setbv|apply quiet_pushbv|apply quiet_truncbv|apply quiet_newsig|apply quiet_readp|apply quiet_lift|
    apply run_when; intros; first [quiet|eapply run_bind; [quiet|intros; apply run_ret; auto]]].
  Ltac skip := eapply run_bind; [quiet|intros ?].

  Lemma rapply_counts f t : forall g, rapply f t = Some g -> counts t -> (forall v x, f v = Some x -> counts x) -> counts g.
  Proof.
    unfold rapply. induction t as [v|h args IH|q vs b IH] using formula_ind'; intros g H Ht Hf; cbn [rmap] in H.
    - eapply Hf. exact H.
    - match type of H with match ?o with Some _ => _ | None => None end = _ => destruct o as [l|] eqn:E; [|discriminate] end. injection H as <-. apply counts_fun in Ht as [Hn Ha]. apply counts_fun.
      assert (HL : length l = length args /\ Forall counts l).
      { clear Hn. revert l E. induction args as [|a args IHa]; intros l E; [injection E as <-; split; [reflexivity|constructor]|].
        destruct (rmap _ a) as [a'|] eqn:Ea; [|discriminate]. match type of E with match ?o with Some _ => _ | None => None end = _ => destruct o as [bs|] eqn:Eb; [|discriminate] end. injection E as <-.
        inversion IH; subst. destruct (IHa ltac:(assumption) (fun x Hx => Ha x (or_intror Hx)) bs eq_refl) as [L F]. split; [cbn; congruence|]. constructor; [|exact F].
        match goal with K : forall g, rmap _ a = Some g -> _ |- _ => eapply K; [exact Ea|apply Ha; left; reflexivity|exact Hf] end. }
      destruct HL as [HL HF]. rewrite HL. rewrite Forall_forall in HF. auto.
    - destruct (rmap _ b) as [b'|] eqn:E; [|discriminate]. injection H as <-. apply counts_quant. apply counts_quant in Ht. eapply IH; [exact eq_refl|exact Ht|exact Hf].
  Qed.

  Lemma number_ok k n : args_size_ok k n = true -> allows k n.
  Proof. destruct k; cbn; try apply Nat.eqb_eq. auto. Qed.

  Section Terms.
    Variable env : penv.
    Hypothesis Hfuns : forall f fc n, e_functions env f = Some fc -> allows (fc_kind fc) n -> takes (fc_sym fc) n.
    Hypothesis Hsteps : forall f fc st, e_functions env f = Some fc -> fc_step fc = Some st -> takes (fc_sym fc) (length (st_args st)).
    Definition counted_fun (fc : fcache) : Prop := forall n, allows (fc_kind fc) n -> takes (fc_sym fc) n.
    Definition all_counts (rec : term -> realm -> option proxy -> M formula) : Prop := forall t r es, run True (rec t r es) counts.

    Variable fuel : nat.
    Variable rec : term -> realm -> option proxy -> M formula.
    Hypothesis Hrec : all_counts rec.
    Lemma rec_counts (Pre : Prop) t r es : run Pre (rec t r es) counts.
    Proof. eapply run_pre; [|apply Hrec]. auto. Qed.

    Lemma try_eval_counts s f : counts f -> counts (try_eval s f).
    Proof. intros H. destruct s; try exact H; apply counts_args; [exact eq_refl|repeat constructor; exact H|exact eq_refl|repeat constructor; exact H]. Qed.
    Lemma mow_counts (Pre : Prop) f r : run Pre (get_function_mow env f r) counted_fun.
    Proof.
      unfold get_function_mow. destruct (_ || _); [apply run_ret; intros _ n; destruct r; cbn; auto|]. destruct (_ || _); [apply run_ret; intros _ n; destruct r; cbn; auto|].
      destruct (Nat.eqb f n_not); [apply run_ret; intros _ n; destruct r; cbn; auto|]. destruct (e_functions env f) as [fc|] eqn:E; [|apply run_fail]. apply run_ret. intros _ n. apply (Hfuns f). exact E.
    Qed.
    Lemma application_counts (Pre : Prop) r es fc args : (Pre -> counted_fun fc) -> run Pre (parse_application rec r es fc args) counts.
    Proof.
      intros Hfc. unfold parse_application. skip. skip. cbv zeta. eapply run_bind; [apply run_mapMM; intros x _; apply rec_counts|]. intros nargs.
      destruct (args_size_ok (fc_kind fc) (length nargs)) eqn:E; cbn [negb]; [|apply run_fail]. apply number_ok in E. skip.
      assert (HF : Pre -> Forall counts nargs -> counts (FFun (fc_sym fc) nargs)) by (intros HP HN; apply counts_args; [apply Hfc; assumption|exact HN]).
      eapply (run_bind _ _ _ (fun x => counts (fst (fst x)))).
      { destruct (fc_name fc) as [so|]; [|apply run_ret; cbn; tauto]. destruct so; try apply run_panic. apply run_ret. cbn. intros H. apply counts_args; [exact eq_refl|]. repeat constructor. tauto. }
      intros [[f fr] hs]. cbn [fst]. eapply (run_bind _ _ _ counts).
      { destruct r; [apply run_ret; tauto|]. destruct (sym_realm fr); [|apply run_ret; tauto]. destruct hs as [so|]; [|apply run_panic]. apply run_ret. intros H. apply try_eval_counts. tauto. }
      intros g. skip. skip. apply run_ret. tauto.
    Qed.
    Lemma variable_counts (Pre : Prop) r es v : run Pre (parse_variable r es v) counts.
    Proof.
      unfold parse_variable. destruct (vsort v) eqn:Ev; try apply run_fail; cbn [maybe_evaluated_sort]; destruct r;
        try (destruct es as [p|]; [skip|]; apply run_ret; intros _; apply counts_var); try apply run_panic;
        try (skip; apply run_ret; intros _; apply counts_args; [exact eq_refl|repeat constructor; apply counts_var]).
    Qed.
    Lemma const_counts (Pre : Prop) r es x : run Pre (parse_const_var env rec r es x) counts.
    Proof.
      unfold parse_const_var. skip. destruct (find _ _) as [[y v]|]; [apply variable_counts|]. eapply run_bind; [apply mow_counts|]. intros fc. apply application_counts. tauto.
    Qed.
    Lemma app_counts (Pre : Prop) r es f args : run Pre (parse_app env rec r es f args) counts.
    Proof. unfold parse_app. eapply run_bind; [apply mow_counts|]. intros fc. apply application_counts. tauto. Qed.
    Lemma binding_quiet (Pre : Prop) x : run Pre (parse_binding env x) (fun _ => True).
    Proof. unfold parse_binding. skip. destruct (_ && _); [apply run_fail|]. destruct (e_sorts env (snd x)); [|apply run_fail]. cbv zeta. skip. apply run_ret. auto. Qed.
    Lemma bindings_quiet (Pre : Prop) vs : run Pre (mapMM (parse_binding env) vs) (fun _ => True).
    Proof. eapply run_post; [|apply run_mapMM; intros x _; apply binding_quiet]. auto. Qed.
    Lemma fv_quiet (Pre : Prop) fs : run Pre (fv_all fuel fs) (fun _ => True).
    Proof. induction fs as [|f fs IH]; cbn [fv_all]; [apply run_ret; auto|]. destruct (free_vars fuel f); [|apply run_timeout]. eapply run_bind; [exact IH|]. intros l'. apply run_ret. auto. Qed.
    Lemma newq_run (Pre : Prop) q : (Pre -> Forall counts (tc q)) -> run Pre (newq q) (fun i => takes (Fquant i) (length (tf q))).
    Proof.
      intros H s i s' E. unfold newq in E. injection E as <- <-. cbn [p_qs]. split; [eexists; reflexivity|]. intros HP (l & HW) HK. split; [apply Forall_app; split; [exact HK|constructor; [auto|constructor]]|].
      apply HT. rewrite HW, <- app_assoc, nth_error_app2, Nat.sub_diag by lia. reflexivity.
    Qed.
    Lemma new_quantifier_counts (Pre : Prop) k vs cs : (Pre -> Forall counts cs) -> run Pre (new_quantifier fuel k vs cs) counts.
    Proof.
      intros H. unfold new_quantifier. eapply run_bind; [apply fv_quiet|]. intros l. cbv zeta. eapply run_bind; [apply newq_run; cbn [tc]; tauto|]. intros i. cbn [tf]. apply run_ret. intros [_ Ht].
      apply counts_args; [rewrite map_length; exact Ht|apply counts_vars].
    Qed.
    Lemma quant_counts (Pre : Prop) r es q vs b : run Pre (parse_quant env fuel rec r es q vs b) counts.
    Proof.
      unfold parse_quant. cbv zeta. skip. skip. eapply run_bind; [apply bindings_quiet|]. intros vars. eapply run_bind; [apply rec_counts|]. intros c. skip.
      destruct r; [|apply run_ret; intros H; apply counts_quant; tauto]. apply new_quantifier_counts. intros H. repeat constructor. tauto.
    Qed.
    Lemma find_counts (Pre : Prop) r es vs c l d : run Pre (parse_find env fuel rec r es vs c l d) counts.
    Proof.
      unfold parse_find. skip. eapply run_bind; [apply rec_counts|]. intros d'. skip. eapply run_bind; [apply bindings_quiet|]. intros vars.
      eapply run_bind; [apply rec_counts|]. intros c'. eapply run_bind; [apply rec_counts|]. intros l'. skip. eapply run_bind; [apply new_quantifier_counts; intros H; repeat constructor; tauto|].
      intros f. apply run_ret. intros H. destruct r; [tauto|]. apply try_eval_counts. tauto.
    Qed.
    Lemma if_counts (Pre : Prop) r es c l d : run Pre (parse_if rec r es c l d) counts.
    Proof.
      unfold parse_if. cbv zeta. eapply run_bind; [apply rec_counts|]. intros c'. eapply run_bind; [apply rec_counts|]. intros l'. eapply run_bind; [apply rec_counts|]. intros d'.
      apply run_ret. intros H. apply counts_args; [destruct r; exact eq_refl|]. repeat constructor; tauto.
    Qed.
    Lemma let_counts (Pre : Prop) r es x ty t1 t2 : run Pre (parse_let env rec r es x ty t1 t2) counts.
    Proof.
      unfold parse_let. eapply run_bind; [apply binding_quiet|]. intros v. eapply run_bind; [apply rec_counts|]. intros f1. eapply run_bind; [apply rec_counts|]. intros f2.
      apply run_lift_opt. intros g E H. eapply one_var_counts; [exact E|tauto|tauto].
    Qed.
    Lemma with_bv_run {A} (Pre : Prop) b (m : M A) P : run Pre m P -> run Pre (with_bv b m) P.
    Proof.
      intros H. unfold with_bv. skip. skip. eapply run_bind; [eapply run_pre; [|exact H]; tauto|]. intros a'. skip. apply run_ret. tauto.
    Qed.
    Lemma step_mac_counts (Pre : Prop) r es is_msg f args : run Pre (parse_step_mac env rec r es is_msg f args) counts.
    Proof.
      unfold parse_step_mac. eapply (run_bind _ _ _ counts); [destruct args; [apply app_counts|apply const_counts]|]. intros st. destruct st as [v|h sargs|q vs b]; try apply run_fail.
      destruct (e_functions env f) as [[g k nm [sc|]]|] eqn:E; try apply run_fail. eapply run_bind; [apply with_bv_run; apply rec_counts|]. intros t.
      destruct (Nat.eqb (length sargs) (length (st_args sc))) eqn:EL; cbn [negb]; [|apply run_panic]. apply Nat.eqb_eq in EL. apply run_lift_opt. intros x Ex [[_ Hs] Ht].
      pose proof (proj1 (counts_fun _ _ _ _) Hs) as [_ Ha]. pose proof (Hsteps f _ sc E eq_refl) as Hk. cbn [fc_sym] in Hk.
      eapply sapply_counts; [exact Ex|exact Ht|]. intros v y Ey. apply frozen_get_in in Ey as [->|Hy]; [apply counts_var|]. apply in_app_or in Hy as [Hy|[<-|[]]]; [apply Ha; exact Hy|].
      apply counts_args; [exact eq_refl|]. repeat constructor. apply counts_fun. rewrite EL. auto.
    Qed.
    Lemma macro_counts (Pre : Prop) r es m args : run Pre (parse_macro env rec r es m args) counts.
    Proof.
      unfold parse_macro. destruct (e_macros env m) as [mc|]; [|apply run_fail]. destruct (negb _); [apply run_fail|]. eapply run_bind; [apply run_mapMM; intros x _; apply rec_counts|]. intros fs.
      eapply run_bind; [apply with_bv_run; apply rec_counts|]. intros t. apply run_lift_opt. intros g E [[_ Hf] Ht]. eapply rapply_counts; [exact E|exact Ht|]. intros v y Ey. cbv beta in Ey.
      destruct (Subst_Model.position _ _) as [i|]; [|injection Ey as <-; apply counts_var]. apply nth_error_In in Ey. rewrite Forall_forall in Hf. auto.
    Qed.
    Lemma fold_counts f r es : (forall n, takes f n) \/ takes f 2 -> forall ts (Pre : Prop) acc, (Pre -> counts acc) -> run Pre (fold_infix rec f r es acc ts) counts.
    Proof.
      intros Hf. induction ts as [|t ts IH]; intros Pre acc Ha; cbn [fold_infix]; [apply run_ret; exact Ha|]. eapply run_bind; [apply rec_counts|]. intros g. apply IH. intros [HP Hg].
      apply counts_args; [destruct Hf as [Hf|Hf]; [apply Hf|exact Hf]|]. repeat constructor; auto.
    Qed.
    Lemma andor_counts (Pre : Prop) r es b ts : run Pre (parse_andor rec r es b ts) counts.
    Proof.
      unfold parse_andor. destruct r; [|apply application_counts; intros _ n; destruct b; cbn; auto]. destruct ts as [|t ts]; [apply run_panic|]. eapply run_bind; [apply rec_counts|]. intros g.
      apply fold_counts; [left; intros n; destruct b; exact I|tauto].
    Qed.
    Lemma infix_counts (Pre : Prop) r es o ts : run Pre (parse_infix rec r es o ts) counts.
    Proof.
      destruct o; cbn [parse_infix]; try apply andor_counts; try apply rec_counts.
      - destruct (Nat.eqb _ 2); [apply application_counts; intros _ n H; exact H|apply rec_counts].
      - destruct r; [apply rec_counts|apply application_counts; intros _ n H; exact H].
      - apply application_counts. intros _ n H. destruct r; exact H.
      - destruct r; [apply rec_counts|apply application_counts; intros _ n H; exact H].
    Qed.
    Lemma step_counts : all_counts (parse_step env fuel rec).
    Proof.
      intros t r es. destruct t; cbn [parse_step].
      - apply let_counts.
      - apply if_counts.
      - apply find_counts.
      - apply quant_counts.
      - apply const_counts.
      - apply app_counts.
      - apply infix_counts.
      - apply step_mac_counts.
      - apply macro_counts.
    Qed.
  End Terms.

  Section File.
    Variable d : denv.
    Variable fuel : nat.
    Notation env := (penv_of d).
    Hypothesis Hfuns : forall x e n, In (x, e) (d_funs d) -> allows (fc_kind (entry_cache e)) n -> takes (fc_sym (entry_cache e)) n.
    (** Steps and cells are declared with their parameters. *)
    Definition shaped (e : entry) : Prop :=
      match e with
      | EnFun fc => True
      | EnStep fc st a => fc_step fc = Some st /\ exists ss o, fc_kind fc = SgFixed ss o /\ length (st_args st) = length ss
      | EnCell fc k ss => fc_step fc = None /\ fc_sym fc = Fcell k /\ exists o, fc_kind fc = SgFixed (ss ++ [SStep]) o
      end.
    Hypothesis Hshape : forall x e, In (x, e) (d_funs d) -> shaped e.
    Hypothesis Hnone : forall x fc, In (x, EnFun fc) (d_funs d) -> fc_step fc = None.

    Lemma parse_counts n : all_counts (parse env n).
    Proof.
      induction n as [|n IH]; [intros t r es s a s' H; discriminate|]. cbn [parse]. apply step_counts; [| |exact IH].
      - intros f fc k E. cbn in E. destruct (lookup f (d_funs d)) as [e|] eqn:El; [|discriminate]. injection E as <-. apply (Hfuns f). apply lookup_in. exact El.
      - intros f fc st E Es. cbn in E. destruct (lookup f (d_funs d)) as [e|] eqn:El; [|discriminate]. injection E as <-. apply lookup_in in El. apply (Hfuns f); [exact El|].
        pose proof (Hshape _ _ El) as Hs. destruct e as [fc|fc st' a|fc k ss]; cbn [entry_cache shaped] in *.
        + rewrite (Hnone _ _ El) in Es. discriminate.
        + destruct Hs as (E1 & ss & o & E2 & E3). rewrite E2. cbn. congruence.
        + destruct Hs as (E1 & _). congruence.
    Qed.
    Lemma parses (Pre : Prop) t r es : run Pre (parse env fuel t r es) counts.
    Proof. eapply run_pre; [|apply parse_counts]. auto. Qed.
    Lemma assert_counts (Pre : Prop) t : run Pre (parse_assert env fuel t) counts.
    Proof. unfold parse_assert. skip. apply parses. Qed.
    Lemma order_args_quiet (Pre : Prop) l : forall i, run Pre (order_args env i l) (fun _ => True).
    Proof. revert Pre. induction l as [|x l IH]; intros Pre i; cbn [order_args]; [apply run_ret; auto|]. destruct (e_sorts env (snd x)); [|apply run_fail]. eapply run_bind; [apply IH|]. intros y. apply run_ret. auto. Qed.
    Lemma order_counts (Pre : Prop) o : run Pre (parse_order env fuel o) (fun x => forall f, In f (File_Spec.order_formulas x) -> counts f).
    Proof.
      unfold parse_order. eapply run_bind; [apply order_args_quiet|]. intros args. skip. cbv zeta. eapply (run_bind _ _ _ counts); [destruct (od_guard o); [apply parses|]; apply run_ret; intros _; apply counts_args; [exact eq_refl|constructor]|]. intros g.
      skip. eapply run_bind; [apply parses|]. intros t1. skip. eapply run_bind; [apply parses|]. intros t2. skip. apply run_ret. intros H f Hf. cbn [File_Spec.order_formulas or_guard or_kind] in Hf.
      destruct (od_kind o); cbn in Hf; destruct Hf as [<-|[<-|[<-|[]]]]; tauto.
    Qed.
    Lemma fresh_quiet (Pre : Prop) vs : forall n i, run Pre (parse_fresh d n i vs) (fun _ => True).
    Proof.
      revert Pre. induction vs as [|x vs IH]; intros Pre n i; cbn [parse_fresh]; [apply run_ret; auto|]. destruct (lookup (snd x) (d_sorts d)); [|apply run_fail]. skip. destruct (_ || _); [apply run_fail|]. skip.
      eapply run_bind; [apply IH|]. intros l. apply run_ret. auto.
    Qed.
    Lemma remove_counts (Pre : Prop) k input m : (Pre -> counts input) -> run Pre m counts -> run Pre (remove_in k input m) counts.
    Proof. intros Hi Hm. unfold remove_in. eapply run_bind; [exact Hm|]. intros f. apply run_lift_opt. intros g E [HP Hf]. eapply one_var_counts; [exact E|exact Hf|auto]. Qed.
    Definition asg_fine (ps : pstep) (x : name * assignment) : Prop := as_step (snd x) = ps /\ counts (as_content (snd x)) /\ Forall counts (as_args (snd x)).
    Lemma assignment_counts (Pre : Prop) n k input ps a : (Pre -> counts input) -> run Pre (parse_assignment d fuel n k input ps a) (asg_fine ps).
    Proof.
      intros Hi. unfold parse_assignment. eapply (run_bind _ _ _ (fun _ => True)); [destruct (aa_fresh a); [skip; apply fresh_quiet|apply run_ret; auto]|]. intros fresh. cbv zeta.
      destruct (lookup (aa_cell a) (d_funs d)) as [[| |fc kc sorts]|]; try apply run_fail. eapply run_bind; [apply run_mapMM; intros x _; skip; apply remove_counts; [tauto|apply parses]|]. intros args. skip.
      eapply run_bind; [apply remove_counts; [tauto|apply parses]|]. intros content. apply run_ret. intros H. unfold asg_fine. cbn. tauto.
    Qed.
    Definition step_fine (x : pstep * list (name * assignment)) : Prop :=
      takes (Fstep (ps_fun (fst x))) (length (ps_vars (fst x))) /\ counts (ps_cond (fst x)) /\ counts (ps_msg (fst x)) /\ Forall (asg_fine (fst x)) (snd x).
    Lemma named_length l : forall n, length (named_vars n l) = length l.
    Proof. induction l as [|[x s] l IH]; intros n; cbn; [reflexivity|]. f_equal. apply IH. Qed.
    Lemma step_decl_counts (Pre : Prop) j st asgs : takes (Fstep j) (length (st_args st)) -> run Pre (parse_step_decl d fuel j st asgs) step_fine.
    Proof.
      intros Hj. unfold parse_step_decl. cbv zeta. skip. eapply run_bind; [apply parses|]. intros m. skip. eapply run_bind; [apply parses|]. intros c. skip.
      set (vars := map snd (named_vars 0 (st_args st))). assert (Hv : takes (Fstep j) (length vars)) by (unfold vars; rewrite map_length, named_length; exact Hj).
      set (input := FFun (Fmacro MInput) [FFun (Fstep j) (map FVar vars)]).
      assert (Hin : counts input) by (apply counts_args; [exact eq_refl|]; repeat constructor; apply counts_args; [rewrite map_length; exact Hv|apply counts_vars]).
      eapply (run_bind _ _ _ counts); [apply run_lift_opt; intros g E H; eapply one_var_counts; [exact E|tauto|exact Hin]|]. intros m'. eapply (run_bind _ _ _ counts); [apply run_lift_opt; intros g E H; eapply one_var_counts; [exact E|tauto|exact Hin]|]. intros c'.
      eapply run_bind; [apply run_mapMM; intros x _; apply assignment_counts; intros _; exact Hin|]. intros l. apply run_ret. intros H. unfold step_fine. cbn [fst snd ps_fun ps_vars ps_cond ps_msg]. tauto.
    Qed.
    Definition steps_fine (x : list pstep * list (name * assignment)) : Prop :=
      Forall (fun s => step_fine (s, [])) (fst x) /\ Forall (fun y => exists s, In s (fst x) /\ asg_fine s y) (snd x).
    Lemma steps_counts (Pre : Prop) l : (forall x e, In (x, e) l -> In (x, e) (d_funs d)) -> run Pre (parse_steps d fuel l) steps_fine.
    Proof.
      revert Pre. induction l as [|[x e] l IH]; intros Pre Hl; cbn [parse_steps]; [apply run_ret; intros _; split; constructor|].
      assert (IH' : forall P, run P (parse_steps d fuel l) steps_fine) by (intros P; apply IH; intros y e' H; apply Hl; right; exact H).
      destruct e as [fc|[h k nm sp] st a|fc k ss]; try apply IH'. destruct h; try apply IH'. pose proof (Hl _ _ (or_introl eq_refl)) as Hin.
      assert (Ht : takes (Fstep i) (length (st_args st))).
      { apply (Hfuns _ _ _ Hin). destruct (Hshape _ _ Hin) as (_ & ss & o & E1 & E2). cbn [entry_cache] in *. rewrite E1. cbn. exact E2. }
      eapply run_bind; [apply step_decl_counts; exact Ht|]. intros y. eapply run_bind; [apply IH'|]. intros z. apply run_ret. intros [[_ (F1 & F2 & F3 & F4)] [G1 G2]]. split; cbn [fst snd].
      - constructor; [|exact G1]. unfold step_fine. cbn [fst snd]. auto.
      - apply Forall_app. split; [eapply Forall_impl; [|exact F4]; intros w Hw; exists (fst y); split; [left; reflexivity|exact Hw]|].
        eapply Forall_impl; [|exact G2]. intros w (s & Hs & Hw). exists s. split; [right; exact Hs|exact Hw].
    Qed.
  End File.
End Runs.

(** ** The entries of a file *)
Definition plainly (bf : list (name * fcache)) (x : name) (e : entry) : Prop :=
  (exists fc, e = EnFun fc /\ In (x, fc) bf) \/
  shaped e /\ declared_symbol (fc_sym (entry_cache e)) /\ (exists ss o, fc_kind (entry_cache e) = SgFixed ss o) /\ match e with EnFun fc => fc_step fc = None | _ => True end.
Definition plain_env (bf : list (name * fcache)) (d : denv) : Prop := forall x e, In (x, e) (d_funs d) -> plainly bf x e.

Lemma get_sorts_length d l : forall ss, get_sorts d l = Some ss -> length ss = length l.
Proof.
  induction l as [|x l IH]; intros ss H; cbn in H; [injection H as <-; reflexivity|]. destruct (lookup x (d_sorts d)); [|discriminate]. destruct (get_sorts d l) as [l'|]; [|discriminate]. injection H as <-. cbn. f_equal. apply IH. reflexivity.
Qed.
Lemma add_plain bf d x e : plain_env bf d -> plainly bf x e -> plain_env bf (add_fun d x e).
Proof. intros H He y f Hy. cbn [add_fun d_funs] in Hy. apply in_app_or in Hy as [Hy|[[= <- <-]|[]]]; auto. Qed.
Lemma function_plain bf d n args out d' : plain_env bf d -> declare_function d n args out = DOk d' -> plain_env bf d'.
Proof.
  intros H E. unfold declare_function in E. destruct (contains_name d n); [discriminate|]. destruct (lookup out (d_sorts d)) as [o|]; [|discriminate]. destruct (get_sorts d args) as [ss|]; [|discriminate]. cbv zeta in E.
  destruct (sort_eqb _ _); [|destruct (is_term_algebra _); [|discriminate]]; injection E as <-; apply add_plain; auto; right; cbn; repeat split; auto; eauto.
Qed.
Lemma step_plain bf d a d' : plain_env bf d -> declare_step d a = DOk d' -> plain_env bf d'.
Proof.
  intros H E. unfold declare_step in E. destruct (contains_name d _); [discriminate|]. destruct (get_sorts d _) as [ss|] eqn:Es; [|discriminate]. injection E as <-. apply add_plain; auto. right.
  apply get_sorts_length in Es. cbn. repeat split; auto; eauto. do 2 eexists. split; [reflexivity|]. rewrite combine_length, map_length. rewrite map_length in Es. lia.
Qed.
Lemma cell_plain bf d n args d' : plain_env bf d -> declare_cell d n args = DOk d' -> plain_env bf d'.
Proof.
  intros H E. unfold declare_cell in E. destruct (contains_name d _); [discriminate|]. destruct (get_sorts d _) as [ss|] eqn:Es; [|discriminate]. injection E as <-. apply add_plain; auto. right. cbn. repeat split; auto; eauto.
Qed.
Lemma items_plain bf l : forall f f', plain_env bf (ft_env f) -> fetch_items f l = DOk f' -> plain_env bf (ft_env f').
Proof.
  induction l as [|i l IH]; intros f f' H E; cbn [fetch_items] in E; [injection E as <-; exact H|]. destruct (fetch_item f i) as [| |f1] eqn:E1; try discriminate. apply (IH f1); [|exact E]. clear E IH.
  unfold fetch_item in E1. destruct (ft_query f) as [q|]; [|injection E1 as <-; exact H]. unfold on_env in E1. destruct i; try (injection E1 as <-; exact H).
  - destruct (declare_function _ _ _ _) eqn:E; try discriminate. injection E1 as <-. eapply function_plain; eauto.
  - destruct (declare_cell _ _ _) eqn:E; try discriminate. injection E1 as <-. eapply cell_plain; eauto.
  - destruct (declare_step _ _) eqn:E; try discriminate. apply (step_plain bf) in E; [|exact H]. destruct (Nat.eqb _ _); [destruct (Nat.eqb _ _); [|discriminate]|]; injection E1 as <-; exact E.
  - destruct (declare_let _ _ _ _) as [| |d'] eqn:E; try discriminate. injection E1 as <-. unfold declare_let in E. destruct (contains_macro _ _); [discriminate|]. destruct (get_sorts _ _); [|discriminate]. injection E as <-. exact H.
Qed.
Lemma sorts_funs l : forall d d', declare_sorts d l = DOk d' -> d_funs d' = d_funs d.
Proof.
  induction l as [|i l IH]; intros d d' H; cbn in H; [injection H as <-; reflexivity|]. destruct i; try (apply IH; exact H). destruct (is_some _); [discriminate|]. apply IH in H. exact H.
Qed.
Lemma declared_plain bs bf kw sh l so : declare_all bs bf kw sh l = DOk so -> plain_env bf (so_env so).
Proof.
  unfold declare_all. destruct (declare_sorts _ l) as [| |d] eqn:Ed; try discriminate. apply sorts_funs in Ed. cbn in Ed. unfold fetch_all. destruct (fetch_items _ l) as [| |f] eqn:Ef; try discriminate. intros H.
  assert (Hf : plain_env bf (ft_env f)).
  { eapply items_plain; [|exact Ef]. cbn. intros x e Hx. rewrite Ed in Hx. apply in_map_iff in Hx as ([y fc] & [= <- <-] & Hy). left. eauto. }
  assert (K : forall r, match r with DErr => DErr | DPanic => DPanic | DOk d0 => match ft_query f with Some (Some q) => DOk (mkSource d0 (ft_asserts f) (ft_lemmas f) (ft_orders f) (ft_crypto f) q) | _ => DErr end end = DOk so ->
    (forall d0, r = DOk d0 -> plain_env bf d0) -> plain_env bf (so_env so)).
  { intros [| |d0] E G; try discriminate. destruct (ft_query f) as [[q|]|]; try discriminate. injection E as <-. cbn. auto. }
  eapply K; [exact H|]. intros d0 E. destruct (ft_init f); [injection E as <-; exact Hf|]. eapply step_plain; eauto.
Qed.

(** ** The parts of a file *)
Section Parts.
  Variables (bs : list (name * sort)) (bf : list (name * fcache)) (kw : list name) (sh : bool) (l : list item) (so : source) (es : list (name * entry)) (il : bool) (fuel : nat) (p : parts) (s' : pst).
  Variables (sig : fsym -> option (list sort * sort)) (funs : list fsym).
  Notation takes := (Arity_Spec.takes sig funs).
  Notation counts := (Arity_Spec.counts sig funs).
  Hypothesis HD : declare_all bs bf kw sh l = DOk so.
  Hypothesis HE : Permutation es (d_funs (so_env so)).
  Hypothesis HP : parse_parts so es il fuel (mkPst [] [] []) = Done p s'.
  Hypothesis HS : signatures bf (so_env so) (p_qs s') sig funs.

  Lemma funs_take x e n : In (x, e) (d_funs (so_env so)) -> allows (fc_kind (entry_cache e)) n -> takes (fc_sym (entry_cache e)) n.
  Proof.
    intros Hx Hn. destruct (declared_plain _ _ _ _ _ _ HD x e Hx) as [(fc & -> & Hb)|(_ & Hd & (ss & o & Ek) & _)]; [apply (sg_builtins _ _ _ _ _ HS x fc Hb); exact Hn|].
    destruct (sg_declared _ _ _ _ _ HS x e ss o Hx Hd Ek) as [Hi Hg]. rewrite Ek in Hn. cbn in Hn. subst n.
    destruct (fc_sym (entry_cache e)); try contradiction; cbn; try split; try tauto; intros _ ins out E; rewrite Hg in E; injection E as <- <-; reflexivity.
  Qed.
  Lemma entries_shaped x e : In (x, e) (d_funs (so_env so)) -> shaped e.
  Proof. intros Hx. destruct (declared_plain _ _ _ _ _ _ HD x e Hx) as [(fc & -> & Hb)|(H & _)]; [exact I|exact H]. Qed.
  Lemma funs_none x fc : In (x, EnFun fc) (d_funs (so_env so)) -> fc_step fc = None.
  Proof. intros Hx. destruct (declared_plain _ _ _ _ _ _ HD x _ Hx) as [(fc' & [= <-] & Hb)|(_ & _ & _ & H)]; [apply (sg_builtins _ _ _ _ _ HS x fc Hb)|exact H]. Qed.
  Lemma quants_take i q : nth_error (p_qs s') i = Some q -> takes (Fquant i) (length (tf q)).
  Proof. intros E. destruct (sg_quantifiers _ _ _ _ _ HS i q E) as (o & Ho). intros _ ins out Eo. rewrite Ho in Eo. injection Eo as <- <-. symmetry. apply map_length. Qed.

  Definition parts_fine (p : parts) : Prop :=
    Forall (fun s => step_fine sig funs (s, [])) (pa_steps p) /\
    Forall (fun c => In (ce_fun c, ce_args c) (flat_map (fun e => match snd e with EnCell _ k ss => [(k, ss)] | _ => [] end) es) /\ Forall (fun a => exists s, In s (pa_steps p) /\ asg_fine sig funs s (0, a)) (ce_asgs c)) (pa_cells p) /\
    Forall (fun o => forall f, In f (File_Spec.order_formulas o) -> counts f) (pa_orders p) /\
    Forall counts (pa_asserts p) /\ Forall counts (pa_lemmas p) /\ counts (pa_query p).

  Lemma parts_counts : parts_fine p /\ kept sig funs (p_qs s').
  Proof.
    assert (R : run sig funs (p_qs s') True (parse_parts so es il fuel) parts_fine).
    { unfold parse_parts. cbv zeta. eapply run_bind.
      { apply steps_counts; [exact quants_take|exact funs_take|exact entries_shaped|exact funs_none|]. intros x e Hx. eapply Permutation_in; [exact HE|exact Hx]. }
      intros x. eapply run_bind; [apply run_mapMM; intros t _; apply assert_counts; [exact quants_take|exact funs_take|exact entries_shaped|exact funs_none]|]. intros asserts.
      eapply run_bind; [apply assert_counts; [exact quants_take|exact funs_take|exact entries_shaped|exact funs_none]|]. intros query.
      eapply run_bind; [apply run_quiet; intros s a s1 H; apply crypto_state in H; congruence|]. intros crypto.
      eapply (run_bind _ _ _ _ _ _ (Forall counts)); [destruct il; [apply run_ret; constructor|]; apply run_mapMM; intros t _; apply assert_counts; [exact quants_take|exact funs_take|exact entries_shaped|exact funs_none]|]. intros lemmas.
      eapply run_bind; [apply run_mapMM; intros t _; apply order_counts; [exact quants_take|exact funs_take|exact entries_shaped|exact funs_none]|]. intros orders.
      eapply (run_bind _ _ _ _ _ _ (fun steps => Permutation steps (fst x))).
      { apply run_lift_opt. intros st E _. unfold init_first in E. destruct (position _ _) as [i|]; [|discriminate]. injection E as <-. apply swap_perm. }
      intros steps. apply run_ret. intros ((((((( _ & F1 & F2) & Fa) & Fq) & _) & Fl) & Fo) & Hperm). unfold parts_fine. cbn [pa_steps pa_cells pa_orders pa_asserts pa_lemmas pa_query].
      split; [eapply Permutation_Forall; [symmetry; exact Hperm|exact F1]|]. split; [|auto].
      apply Forall_forall. intros c Hc. unfold parse_cells in Hc. apply in_flat_map in Hc as ([y e] & He & Hc). cbn [snd fst] in Hc. destruct e as [|?|fc k ss]; try contradiction. destruct Hc as [<-|[]]. cbn [ce_fun ce_args ce_asgs]. split.
      - apply in_flat_map. exists (y, EnCell fc k ss). split; [exact He|left; reflexivity].
      - apply Forall_forall. intros a Ha. apply in_map_iff in Ha as ([z a'] & <- & Ha). apply filter_In in Ha as [Ha _]. rewrite Forall_forall in F2. destruct (F2 _ Ha) as (s & Hs & Hf). exists s.
        split; [eapply Permutation_in; [symmetry; exact Hperm|exact Hs]|exact Hf]. }
    destruct (R _ _ _ HP) as [_ K]. destruct K as [K1 K2]; [exact I|exists []; symmetry; apply app_nil_r|constructor|]. auto.
  Qed.

  Lemma file_counts w : assembled p w -> File_Model.gp_funs (wp_gen w) = funs -> (forall a, In a (wp_assumptions w) -> exists c, In c (pa_crypto p) /\ same_assumption c a) ->
    arities_below (so_env so) fuel -> 4 <= fuel -> counts_whole sig (table_of (p_qs s')) w.
  Proof.
    intros A Hf Hc Hb H4. destruct parts_counts as [(F1 & F2 & F3 & F4 & F5 & F6) K]. rewrite Forall_forall in F1, F2, F3, F4, F5. pose proof (am_steps _ _ A) as As. pose proof (am_cells _ _ A) as Ac. split; rewrite ?Hf.
    - apply (sg_listed _ _ _ _ _ HS).
    - intros s Hs. rewrite As in Hs. exact (proj1 (F1 s Hs)).
    - intros c a Hin Ha. rewrite Ac in Hin. rewrite As. destruct (F2 c Hin) as [_ G]. rewrite Forall_forall in G. destruct (G a Ha) as (s & Hs & E & _). cbn in E. rewrite E. exact Hs.
    - intros c Hin. rewrite Ac in Hin. destruct (F2 c Hin) as [G _]. apply in_flat_map in G as ([x e] & He & G). cbn [snd] in G. destruct e as [|?|fc k ss]; try contradiction. destruct G as [G|[]]. injection G as G1 G2. rewrite <- G1, <- G2.
      assert (Hx : In (x, EnCell fc k ss) (d_funs (so_env so))) by (eapply Permutation_in; [exact HE|exact He]). destruct (entries_shaped _ _ Hx) as (_ & E2 & o & E3).
      pose proof (funs_take x _ (S (length ss)) Hx) as T. cbn [entry_cache] in T. rewrite E2, E3 in T. apply T. cbn. rewrite app_length. cbn. lia.
    - intros k q Hq. unfold table_of in Hq. destruct (nth_error (p_qs s') k) as [t|] eqn:E; [|discriminate]. pose proof (quants_take _ _ E) as Ht. unfold kept in K. rewrite Forall_forall in K. pose proof (K t (nth_error_In _ _ E)) as Kt.
      unfold quantifier_of in Hq. destruct t as [tk tb tf0 tc]. cbn [Parser_Model.tk Parser_Model.tb Parser_Model.tf Parser_Model.tc] in *.
      destruct tk; destruct tc as [|c1 [|c2 [|c3 [|c4 tc]]]]; try discriminate; injection Hq as <-; cbn [Evaluate_Model.qt_free File_Spec.quantifier_formulas Evaluate_Model.qt_inner]; (split; [exact Ht|]); intros f Hin; rewrite Forall_forall in Kt; apply Kt; exact Hin.
    - intros o f Ho Hin. rewrite (am_orders _ _ A) in Ho. exact (F3 o Ho f Hin).
    - intros c a t Hin Ha Ht. rewrite Ac in Hin. destruct (F2 c Hin) as [_ G]. rewrite Forall_forall in G. destruct (G a Ha) as (s & Hs & _ & _ & G3). rewrite Forall_forall in G3. apply G3. exact Ht.
    - intros g Hg. destruct Hg as [g Hg| |g Hg|g Hg|s Hs|s Hs|c a Hin Ha].
      + apply (am_asserts _ _ A) in Hg. destruct Hg as [<-|Hg]; [apply counts_args; [exact eq_refl|constructor]|]. apply in_app_or in Hg as [Hg|Hg]; auto.
      + destruct (am_query _ _ A) as [<-|Hg]; auto.
      + apply (am_lemmas _ _ A) in Hg as [<-|Hg]; auto.
      + rewrite (am_extra _ _ A) in Hg. destruct Hg.
      + rewrite As in Hs. apply (F1 s Hs).
      + rewrite As in Hs. apply (F1 s Hs).
      + rewrite Ac in Hin. destruct (F2 c Hin) as [_ G]. rewrite Forall_forall in G. destruct (G a Ha) as (s & Hs & _ & G2 & _). exact G2.
    - intros a Ha. destruct (Hc a Ha) as (c & Hin & Hs).
      assert (HA : exists ca, asks (so_env so) ca c).
      { clear -HP Hin Hb H4. unfold parse_parts in HP. cbv zeta in HP. repeat match type of HP with bind _ _ _ = _ => apply bind_done in HP as (? & ? & ?H & HP) end. unfold ret in HP. injection HP as <- _. cbn [pa_crypto] in Hin.
        match goal with G : all_crypto _ _ _ _ = _ |- _ => apply (crypto_asks (so_env so) fuel Hb H4) in G; destruct (Forall2_right _ _ _ _ G Hin) as (ca & _ & K) end. eauto. }
      destruct HA as (ca & HA). assert (HT : forall x ss o f, Source_Spec.takes (so_env so) x ss o f -> takes f (length ss)).
      { intros x ss o f (fc & El & Ek & <-). apply lookup_in in El. apply (funs_take x _ _ El). cbn [entry_cache]. rewrite Ek. reflexivity. }
      destruct Hs; inversion HA; subst; cbn [names_right]; repeat split; auto;
        repeat match goal with G : Source_Spec.takes _ _ _ _ _ |- _ => apply HT in G; cbn [length] in G; cbn [Arity_Spec.takes] in G; destruct G end; auto.
  Qed.
End Parts.
