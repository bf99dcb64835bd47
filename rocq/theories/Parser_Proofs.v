From Coq Require Import List Arith Bool Lia.
From Verif Require Import Syntax_Model Syntax_Proofs Traversal_Model Traversal_Spec Traversal_Proofs
  Semantics_Spec Semantics_Proofs Subst_Model Subst_Spec Subst_Proofs
  Sort_Model Sort_Spec Sort_Proofs Parser_Model Parser_Spec.
From Verif Require Export Parser_Base_Proofs.
Import ListNotations.

Section Plain.
  Variable env : penv.
  Variable calls : bool.

  Definition newqs (n : nat) (l : list tquant) : Prop := Forall (fun q => exists m, (calls = false -> n <= m) /\ closed_quant m q) l.
  Definition ext (s s' : pst) : Prop := p_bv s' = p_bv s /\ exists l, p_qs s' = p_qs s ++ l /\ newqs (length (p_bv s)) l.
  Lemma ext_refl s : ext s s.
  Proof. split; auto. exists []. rewrite app_nil_r. split; [auto|constructor]. Qed.
  Lemma ext_trans a b c : ext a b -> ext b c -> ext a c.
  Proof.
    intros [A1 (l1 & A2 & A3)] [B1 (l2 & B2 & B3)]. split; [congruence|]. exists (l1 ++ l2).
    split; [rewrite B2, A2, app_assoc; reflexivity|]. rewrite A1 in B3. apply Forall_app. auto.
  Qed.
  Lemma ext_same a b c : ext a b -> same b c -> ext a c.
  Proof. intros [A1 (l & A2 & A3)] [B1 B2]. split; [congruence|]. exists l. split; [congruence|auto]. Qed.
  Lemma same_ext a b : same a b -> ext a b.
  Proof. intros H. eapply ext_same; eauto. apply ext_refl. Qed.

  Local Notation means := (Parser_Spec.means env).
  Definition post (b : list (name * var)) (qs : list tquant) (t : term) (r : realm) (f : formula) : Prop :=
    well_scoped (length b) f /\ means b qs t r f.

  Lemma respects_app {M : structure} qsem qs l : respects (M:=M) qsem (qs ++ l) -> respects qsem qs.
  Proof. intros H i q Hi. apply H. rewrite nth_error_app1; auto. apply nth_error_Some. congruence. Qed.
  Lemma means_mono b qs l t r f : means b qs t r f -> means b (qs ++ l) t r f.
  Proof. intros H E C N M qsem mval U Q R rho. apply H; auto. eapply respects_app; eauto. Qed.
  Lemma post_ext s s' t r f : ext s s' -> post (p_bv s) (p_qs s) t r f -> post (p_bv s') (p_qs s') t r f.
  Proof. intros [-> (l & -> & _)] [W P]. split; auto. apply means_mono; auto. Qed.

  Lemma gentle_app n f l : gentle env calls n (TApp f l) <-> Forall (gentle env calls n) l.
  Proof. rewrite Forall_forall. split; [intros H; inversion H; auto|constructor; auto]. Qed.
  Lemma gentle_infix n o l : gentle env calls n (TInfix o l) <-> Forall (gentle env calls n) l.
  Proof. rewrite Forall_forall. split; [intros H; inversion H; auto|constructor; auto]. Qed.

  Definition good (rec : term -> realm -> option proxy -> M formula) : Prop :=
    forall t r es s f s', gentle env calls (length (p_bv s)) t -> numbered (p_bv s) -> rec t r es s = Done f s' ->
      ext s s' /\ post (p_bv s') (p_qs s') t r f.

  Section Good.
    Variable fuel : nat.
    Variable rec : term -> realm -> option proxy -> M formula.
    Hypothesis Hrec : good rec.
    Hypothesis Hnb : goodb env rec.

    Lemma mapMM_args : forall (l : list (proxy * term)) r s fs s', Forall (gentle env calls (length (p_bv s))) (map snd l) -> numbered (p_bv s) ->
      mapMM (fun pt => rec (snd pt) r (Some (fst pt))) l s = Done fs s' ->
      ext s s' /\ Forall2 (fun t f => post (p_bv s') (p_qs s') t r f) (map snd l) fs.
    Proof.
      induction l as [|[p t] l IH]; intros r s fs s' Hp Hn H; cbn in H.
      - inv_bind. split; [apply ext_refl|constructor].
      - inv_bind. inversion Hp as [|? ? Ht Hl]; subst. cbn in *.
        match goal with H1 : rec _ _ _ _ = _, H2 : mapMM _ _ _ = _ |- _ => apply Hrec in H1; auto; destruct H1 as [E1 P1]; apply IH in H2; auto; [destruct H2 as [E2 P2]|destruct E1 as [-> _]; auto..] end.
        split; [eapply ext_trans; eauto|]. constructor; auto. eapply post_ext; eauto.
    Qed.

    Lemma sig_out h k : as_option (fst (signature h k)) (sout (snd (signature h k))) = out_sort k
      /\ (forall h' o, out_sort k = Some o -> as_option h' (sout (snd (signature h k))) = Some o).
    Proof.
      destruct k; cbn; split; try reflexivity; try (intros h' o [= <-]; reflexivity); try discriminate.
      rewrite nth_middle. reflexivity.
    Qed.
    Lemma sig_zip h k (args : list term) : args_size_ok k (length (zip_args (sargs (snd (signature h k))) (srep (snd (signature h k))) args)) = true ->
      (forall n, arity k = Some n -> length args <= n) ->
      map snd (zip_args (sargs (snd (signature h k))) (srep (snd (signature h k))) args) = args.
    Proof.
      intros Hok Ha. destruct (zip_args_snd args (sargs (snd (signature h k))) (srep (snd (signature h k)))) as (n & H1 & H2 & H3).
      destruct (srep (snd (signature h k))) eqn:E; [apply H3; discriminate|]. specialize (H2 eq_refl).
      assert (L : length args <= length (zip_args (sargs (snd (signature h k))) None args)).
      { destruct k; cbn in *; try discriminate; apply Nat.eqb_eq in Hok; rewrite Hok; auto; rewrite map_length in *; auto. }
      rewrite H1. apply firstn_all2. rewrite <- (map_length snd), H1 in L. rewrite firstn_length in L. lia.
    Qed.

    Lemma map_post b qs r l fs (M : structure) qsem mval rho : e_shadowing env = false -> NoDup (map fst b) -> Forall (counted env) l ->
      unfolds env qsem mval -> extensional M qsem -> respects qsem qs ->
      Forall2 (fun t f => post b qs t r f) l fs ->
      map (fun f => eval f rho) fs = map (fun a => value env qsem mval a r (scope_of b rho)) l.
    Proof.
      intros E N C U Q R H. induction H as [|t f l fs Hp _ IH]; cbn; auto. inversion C; subst.
      rewrite IH; auto. f_equal. apply Hp; auto.
    Qed.

    Lemma parse_application_good r es fc args s f s' : Forall (gentle env calls (length (p_bv s))) args -> numbered (p_bv s) ->
      parse_application rec r es fc args s = Done f s' ->
      ext s s' /\ well_scoped (length (p_bv s')) f /\
      (e_shadowing env = false -> Forall (counted env) args -> (forall n, arity (fc_kind fc) = Some n -> length args <= n) ->
       NoDup (map fst (p_bv s')) -> forall (M : structure) qsem mval, unfolds env qsem mval -> extensional M qsem -> respects qsem (p_qs s') ->
       forall rho : Semantics_Spec.env M, eval f rho = apply_fn M r fc (fun r' => map (fun a => value env qsem mval a r' (scope_of (p_bv s') rho)) args)).
    Proof.
      intros Hp Hn H. unfold parse_application in H.
      apply bind_done in H; destruct H as (sg & s0 & H0 & H). apply newsig_same in H0. destruct H0 as (S0 & -> & Hh).
      apply bind_done in H; destruct H as (o & s1 & H1 & H). pose proof (readp_same _ _ _ _ H1); subst s1.
      unfold readp in H1. injection H1 as <-. rewrite Hh in H. rewrite (proj1 (sig_out _ _)) in H.
      apply bind_done in H; destruct H as (nargs & s2 & H2 & H).
      destruct (zip_args_snd args (sargs (snd (signature (p_heap s) (fc_kind fc)))) (srep (snd (signature (p_heap s) (fc_kind fc)))))
        as (n & Hz & _).
      set (sg := snd (signature (p_heap s) (fc_kind fc))) in *.
      pose proof H2 as H2'. apply mapMM_args in H2'; [|rewrite Hz; apply Forall_firstn'; rewrite (proj1 S0); auto|rewrite (proj1 S0); auto].
      destruct H2' as [E2 P2].
      destruct (args_size_ok (fc_kind fc) (length nargs)) eqn:Hok; [|discriminate]. cbn [negb] in H.
      apply bind_done in H; destruct H as (o2 & s3 & H3 & H). pose proof (readp_same _ _ _ _ H3); subst s3.
      unfold readp in H3. injection H3 as Ho2.
      apply bind_done in H; destruct H as ([[f0 fr] hs] & s3 & H3 & H).
      assert (s3 = s2) by (destruct (fc_name fc) as [[]|]; unfold ret, panic in H3; congruence). subst s3.
      apply bind_done in H; destruct H as (f1 & s4 & H4 & H).
      assert (s4 = s2) by (destruct r, (sym_realm fr), hs; unfold ret, panic in H4; congruence). subst s4.
      apply bind_done in H; destruct H as (oo & s5 & H5 & H). pose proof (readp_same _ _ _ _ H5); subst s5. clear H5.
      apply bind_done in H; destruct H as (u & s6 & H6 & H). unfold ret in H. injection H as <- <-.
      apply when_same in H6.
      2:{ intros p a v b Hb. apply bind_done in Hb. destruct Hb as (? & ? & Hb & Hr). apply lift_same in Hb.
          unfold ret in Hr. injection Hr as _ <-. exact Hb. }
      assert (E : ext s s6).
      { eapply ext_same; eauto. eapply ext_trans; [apply same_ext; exact S0|exact E2]. }
      split; [exact E|].
      rewrite (proj1 H6), (proj2 H6).
      assert (Hargs : Forall (well_scoped (length (p_bv s2))) nargs).
      { clear - P2. remember (map snd _) as l. clear Heql. induction P2 as [|a b l1 l2 [W _] _ IH]; constructor; auto. }
      assert (Hf1 : match fc_name fc, out_sort (fc_kind fc) with
                    | Some _, _ => f1 = match r with REvaluated => FFun (Feval SMessage) [FFun (Fcast SMessage) [FFun (fc_sym fc) nargs]]
                                                | RSymbolic => FFun (Fcast SMessage) [FFun (fc_sym fc) nargs] end
                    | None, Some o => f1 = match r with REvaluated => try_eval o (FFun (fc_sym fc) nargs) | RSymbolic => FFun (fc_sym fc) nargs end
                    | None, None => f1 = FFun (fc_sym fc) nargs
                    end).
      { destruct (fc_name fc) as [[]|]; unfold ret, panic in H3; try discriminate.
        - injection H3 as <- <- <-. destruct r; cbn in H4; injection H4 as <-; reflexivity.
        - injection H3 as <- <- <-. destruct (out_sort (fc_kind fc)) as [o|] eqn:Eo.
          + unfold sg in Ho2. rewrite (proj2 (sig_out _ _) _ _ Eo) in Ho2. subst o2. destruct r, o; cbn in H4; injection H4 as <-; reflexivity.
          + destruct r; cbn in H4; injection H4 as <-; reflexivity. }
      assert (Hw : well_scoped (length (p_bv s2)) (FFun (fc_sym fc) nargs)) by (apply ws_fun; auto).
      split.
      { destruct (fc_name fc) as [x|].
        - subst f1. destruct r; repeat (apply ws_fun; constructor; auto).
        - destruct (out_sort (fc_kind fc)) as [o|]; subst f1; auto. destruct r; auto. unfold try_eval.
          destruct o; auto; apply ws_fun; constructor; auto. }
      intros Hsh Hc Ha Hnd M qsem mval U Q R rho.
      assert (Hl : map snd (zip_args (sargs sg) (srep sg) args) = args).
      { apply sig_zip; auto. fold sg. replace (length (zip_args (sargs sg) (srep sg) args)) with (length nargs); auto.
        clear -P2. remember (map snd _) as l eqn:El. apply (f_equal (@length _)) in El. rewrite map_length in El.
        rewrite <- El. clear El. induction P2; cbn; auto. }
      rewrite Hl in P2.
      pose proof (map_post _ _ _ _ _ M qsem mval rho Hsh Hnd Hc U Q R P2) as Hv.
      unfold apply_fn. destruct (fc_name fc) as [x|].
      - subst f1. destruct (out_sort (fc_kind fc)), r; cbn [eval map evald]; rewrite Hv; reflexivity.
      - destruct (out_sort (fc_kind fc)) as [o|]; subst f1.
        + destruct r; [cbn [evald eval]; rewrite Hv; reflexivity|]. destruct o; cbn [evald try_eval eval map]; rewrite Hv; reflexivity.
        + cbn [eval]. rewrite Hv. reflexivity.
    Qed.

    (* ----- binders ----- *)
    Fixpoint bound (n : nat) (vs : list (name * name)) (vars : list var) : Prop :=
      match vs, vars with
      | [], [] => True
      | x :: vs', v :: vars' => v = mkVar n (sort_named env (snd x)) /\ bound (S n) vs' vars'
      | _, _ => False
      end.
    Lemma bindings_good : forall vs s vars s', mapMM (parse_binding env) vs s = Done vars s' ->
      p_bv s' = p_bv s ++ combine (map fst vs) vars /\ p_qs s' = p_qs s /\ bound (length (p_bv s)) vs vars /\
      (e_shadowing env = false -> NoDup (map fst (p_bv s)) -> NoDup (map fst (p_bv s'))).
    Proof.
      induction vs as [|[x ty] vs IH]; intros s vars s' H; cbn [mapMM] in H.
      - inv_bind. cbn. rewrite app_nil_r. auto.
      - apply bind_done in H; destruct H as (v & s1 & H1 & H). apply bind_done in H; destruct H as (vars' & s2 & H2 & H).
        unfold ret in H. injection H as <- <-.
        unfold parse_binding in H1. apply bind_done in H1; destruct H1 as (b & s0 & H0 & H1). unfold getbv in H0. injection H0 as <- <-.
        destruct ((_ || _) && _) eqn:Eb; [discriminate|]. cbn [fst snd] in *.
        destruct (e_sorts env ty) as [st|] eqn:Es; [|discriminate].
        cbn in H1. injection H1 as <- <-. apply IH in H2. cbn [p_bv p_qs] in H2. destruct H2 as (B & Qs & Bd & Nd).
        rewrite app_length in Bd. cbn in Bd. rewrite Nat.add_1_r in Bd.
        split; [rewrite B, <- app_assoc; reflexivity|]. split; [auto|]. split.
        + cbn. split; auto. unfold sort_named. cbn. rewrite Es. reflexivity.
        + intros Hsh Hn. apply Nd; auto. rewrite map_app. cbn. rewrite Hsh in Eb. cbn in Eb. rewrite andb_true_r in Eb.
          apply orb_false_iff in Eb. destruct Eb as [_ Eb].
          apply NoDup_app_intro; auto; [repeat constructor; auto|].
          intros y Hy [<-|[]]. apply in_map_iff in Hy. destruct Hy as (e & <- & He).
          assert (existsb (fun e0 => Nat.eqb (fst e0) (fst e)) (p_bv s) = true); [|congruence].
          apply existsb_exists. exists e. split; auto. apply Nat.eqb_refl.
    Qed.

    Lemma bound_ids vs : forall n vars, bound n vs vars ->
      map vid vars = seq n (length vs) /\ map vsort vars = map snd (binders env vs) /\ length vars = length vs.
    Proof.
      induction vs as [|x vs IH]; intros n [|v vars] H; cbn in *; try tauto. destruct H as [-> H].
      apply IH in H. destruct H as (H1 & H2 & H3). cbn. rewrite H1, H2, H3. auto.
    Qed.
    Lemma bound_numbered vs : forall b vars, numbered b -> bound (length b) vs vars -> numbered (b ++ combine (map fst vs) vars).
    Proof.
      induction vs as [|x vs IH]; intros b [|v vars] Hn H; cbn in H; try tauto; cbn.
      - rewrite app_nil_r. auto.
      - destruct H as [-> H]. replace (b ++ _ :: _) with ((b ++ [(fst x, mkVar (length b) (sort_named env (snd x)))]) ++ combine (map fst vs) vars)
          by (rewrite <- app_assoc; reflexivity).
        apply IH; [apply numbered_snoc; auto|]. rewrite app_length. cbn. rewrite Nat.add_1_r. exact H.
    Qed.
    Lemma bound_length vs b vars n : bound n vs vars -> length (b ++ combine (map fst vs) vars) = length b + length vars.
    Proof.
      intros H. apply bound_ids in H. destruct H as (_ & _ & H). rewrite app_length, combine_length, map_length. lia.
    Qed.
    Lemma scope_binders {M : structure} vs : forall b vars (rho : Semantics_Spec.env M) ds, numbered b -> bound (length b) vs vars -> length ds = length vs ->
      eqsc M (scope_of (b ++ combine (map fst vs) vars) (upds rho vars ds)) (bind_names (scope_of b rho) (binders env vs) ds).
    Proof.
      induction vs as [|x vs IH]; intros b [|v vars] rho ds Hn H Hl; cbn in H; try tauto.
      - destruct ds; [|discriminate]. cbn. rewrite app_nil_r. intros y. reflexivity.
      - destruct ds as [|d ds]; [discriminate|]. destruct H as [-> H]. set (v := mkVar (length b) (sort_named env (snd x))) in *.
        cbn [map combine upds binders bind_names]. cbn [vid].
        replace (b ++ (fst x, v) :: combine (map fst vs) vars) with ((b ++ [(fst x, v)]) ++ combine (map fst vs) vars)
          by (rewrite <- app_assoc; reflexivity).
        intros y. etransitivity; [apply IH; [apply numbered_snoc; auto|rewrite app_length; cbn; rewrite Nat.add_1_r; exact H|cbn in Hl; lia]|].
        apply bind_names_ext. intros z. exact (scope_snoc b rho (fst x) v d Hn eq_refl z).
    Qed.
    Lemma quantify_binders {M : structure} (k : Semantics_Spec.env M -> bool) (k' : scope M -> bool) q :
      (forall a b, eqsc M a b -> k' a = k' b) ->
      forall vs b vars rho, numbered b -> bound (length b) vs vars ->
      (forall rho, k rho = k' (scope_of (b ++ combine (map fst vs) vars) rho)) ->
      quantify q vars rho k = squantify q (binders env vs) (scope_of b rho) k'.
    Proof.
      intros Hk'. induction vs as [|x vs IH]; intros b [|v vars] rho Hn H Hk; cbn in H; try tauto.
      - cbn in *. rewrite app_nil_r in Hk. apply Hk.
      - destruct H as [-> H]. set (v := mkVar (length b) (sort_named env (snd x))) in *.
        cbn [map combine binders quantify squantify].
        assert (G : forall d, quantify q vars (upd rho (vid v) d) k = squantify q (binders env vs) (bind_name (scope_of b rho) (fst x) (vsort v) d) k').
        { intros d. rewrite (IH (b ++ [(fst x, v)])).
          - apply squantify_ext; auto. intros y. apply scope_snoc; auto.
          - apply numbered_snoc; auto.
          - rewrite app_length. cbn. rewrite Nat.add_1_r. exact H.
          - intros r'. rewrite Hk. cbn. rewrite <- app_assoc. reflexivity. }
        destruct q; [apply ex_ext|apply all_ext]; intros d _; apply G.
    Qed.

    Lemma fv_exact f l : free_vars fuel f = Some l -> forall i, occurs_free i f <-> In i (map vid l).
    Proof.
      intros H i. destruct (free_vars_exact f) as (n & out & Hn & ps & _ & Hlen & Hs & Hc).
      assert (E : out = l).
      { specialize (Hn (Nat.max n fuel) ltac:(lia)). apply (pile_collect_mono _ _ (Nat.max n fuel)) in H; [|lia]. unfold free_vars, iter_with in Hn. congruence. }
      subst l. split.
      - intros (p & v & Hp & <- & Hb). pose proof (Hc _ _ v Hp (conj eq_refl Hb)) as Hin. apply In_nth_error in Hin as (k & Hk).
        destruct (nth_error out k) as [u|] eqn:E.
        + destruct (Hs _ _ _ Hk E) as (g & Hp' & -> & _). pose proof (at_path_fun _ _ _ _ Hp Hp') as E'.
          injection E' as ->. apply in_map. eapply nth_error_In; eauto.
        + apply nth_error_None in E. assert (L : nth_error ps k <> None) by congruence. apply nth_error_Some in L. lia.
      - intros Hi. apply in_map_iff in Hi as (v & <- & Hin). apply In_nth_error in Hin as (k & Hk).
        destruct (nth_error ps k) as [p|] eqn:E.
        + destruct (Hs _ _ _ E Hk) as (g & Hp & -> & Hb). exists p, v. auto.
        + apply nth_error_None in E. assert (L : nth_error out k <> None) by congruence. apply nth_error_Some in L. lia.
    Qed.
    Lemma fv_all_spec : forall fs s l s', fv_all fuel fs s = Done l s' -> s' = s /\
      forall i, In i (map vid l) <-> exists f, In f fs /\ occurs_free i f.
    Proof.
      induction fs as [|f fs IH]; intros s l s' H; cbn in H.
      - inv_bind. split; auto. cbn. intros i. split; [tauto|intros (? & [] & _)].
      - destruct (free_vars fuel f) as [lf|] eqn:E; [|discriminate]. apply bind_done in H; destruct H as (l' & s1 & H1 & H).
        unfold ret in H. injection H as <- <-. apply IH in H1. destruct H1 as [-> H1]. split; auto.
        intros i. rewrite map_app, in_app_iff, H1, <- (fv_exact _ _ E). split.
        + intros [?|(g & ? & ?)]; [exists f; cbn; auto|exists g; cbn; auto].
        + intros (g & [<-|?] & ?); eauto.
    Qed.
    Lemma unique_in : forall l seen i, In i (map vid (unique seen l)) \/ In i (map vid seen) <-> In i (map vid l) \/ In i (map vid seen).
    Proof.
      induction l as [|v l IH]; intros seen i; cbn; [tauto|]. destruct (in_dec var_eq_dec' v seen) as [Hi|Hi].
      - rewrite IH. split; [tauto|]. intros [[<-|?]|?]; auto. right. apply in_map. auto.
      - cbn. specialize (IH (v :: seen) i). cbn in IH. tauto.
    Qed.

    Lemma upds_other {M : structure} vs : forall (rho : Semantics_Spec.env M) ds i, ~ In i (map vid vs) -> upds rho vs ds i = rho i.
    Proof.
      induction vs as [|v vs IH]; intros rho [|d ds] i H; cbn in *; auto. rewrite IH by tauto.
      unfold upd. destruct (Nat.eqb i (vid v)) eqn:E; auto. apply Nat.eqb_eq in E. subst. tauto.
    Qed.
    Lemma upds_self {M : structure} (r0 : Semantics_Spec.env M) vs : forall rho : Semantics_Spec.env M, (forall i, rho i = r0 i) -> forall i, upds rho vs (map (fun v => r0 (vid v)) vs) i = r0 i.
    Proof.
      induction vs as [|v vs IH]; intros rho H i; cbn; auto. apply IH. intros j. unfold upd.
      destruct (Nat.eqb j (vid v)) eqn:E; auto. apply Nat.eqb_eq in E. subst. auto.
    Qed.
    Lemma upds_pointwise {M : structure} vs : forall (r1 r2 : Semantics_Spec.env M) ds, (forall i, r1 i = r2 i) -> forall i, upds r1 vs ds i = upds r2 vs ds i.
    Proof.
      induction vs as [|v vs IH]; intros r1 r2 [|d ds] H i; cbn; auto. apply IH. intros j. unfold upd. destruct (Nat.eqb j (vid v)); auto.
    Qed.

    Lemma new_quantifier_good k vars cs s f s' n : new_quantifier fuel k vars cs s = Done f s' ->
      length (p_bv s) = n -> (forall v, In v vars -> n <= vid v) ->
      (forall c i, In c cs -> occurs_free i c -> i < n \/ In i (map vid vars)) ->
      ext s s' /\ well_scoped n f /\
      forall (M : structure) qsem mval, unfolds env qsem mval -> extensional M qsem -> respects qsem (p_qs s') -> forall rho : Semantics_Spec.env M,
        eval f rho = qsem k (map vsort vars) (fun ds => map (fun c => eval c (upds rho vars ds)) cs).
    Proof.
      intros H Hn Hv Hc. unfold new_quantifier in H. apply bind_done in H; destruct H as (l & s1 & H1 & H).
      apply fv_all_spec in H1. destruct H1 as [-> Hl].
      apply bind_done in H; destruct H as (i & s2 & H2 & H). unfold newq in H2. injection H2 as <- <-. unfold ret in H. injection H as <- <-.
      set (fvs := filter _ _) in *. cbn [p_bv p_qs].
      assert (Hf : forall i, In i (map vid fvs) <-> In i (map vid l) /\ ~ In i (map vid vars)).
      { intros i. unfold fvs. split.
        - intros Hi. apply in_map_iff in Hi. destruct Hi as (v & <- & Hi). apply filter_In in Hi. destruct Hi as [Hi Hb]. split.
          + pose proof (proj1 (unique_in l [] (vid v)) (or_introl (in_map _ _ _ Hi))) as U. cbn in U. tauto.
          + intros Hw. apply in_map_iff in Hw. destruct Hw as (w & Ew & Hw).
            assert (B : existsb (fun b => var_eqb b v) vars = true) by (apply existsb_exists; exists w; split; auto; apply Nat.eqb_eq; auto).
            rewrite B in Hb. discriminate.
        - intros [Hi Hb]. pose proof (proj2 (unique_in l [] i) (or_introl Hi)) as U. cbn in U. destruct U as [U|[]].
          apply in_map_iff in U. destruct U as (v & <- & Hi'). apply in_map. apply filter_In. split; auto.
          destruct (existsb _ vars) eqn:B; auto. exfalso. apply existsb_exists in B. destruct B as (w & Hw & Ew).
          apply Nat.eqb_eq in Ew. apply Hb. rewrite <- Ew. apply in_map. auto. }
      assert (Hfn : forall i, In i (map vid fvs) -> i < n).
      { intros i Hi. apply Hf in Hi. destruct Hi as [Hi Hb]. apply Hl in Hi. destruct Hi as (c & Hi & Ho). destruct (Hc _ _ Hi Ho); tauto. }
      split; [|split].
      - split; auto. exists [mkTq k vars fvs cs]. split; auto. constructor; auto. exists n. split; [lia|].
        split; [|split]; cbn.
        + intros c i Hi Ho. destruct (in_dec Nat.eq_dec i (map vid vars)); auto. right. apply Hf. split; auto. apply Hl. eauto.
        + intros v Hv'. apply Hfn. apply in_map. auto.
        + exact Hv.
      - apply ws_fun. apply Forall_forall. intros a Ha. apply in_map_iff in Ha. destruct Ha as (v & <- & Ha). apply ws_var. apply Hfn, in_map, Ha.
      - intros M qsem mval U Q R rho. cbn [eval]. rewrite map_map. cbn [eval]. unfold app.
        rewrite (R (length (p_qs s)) (mkTq k vars fvs cs)) with (rho := rho); cbn [tk tb tf tc].
        + apply Q. intros ds Hds. apply map_ext. intros c. apply eval_agree. intros i _. apply upds_pointwise. apply upds_self. auto.
        + rewrite nth_error_app2, Nat.sub_diag; auto.
        + rewrite map_length. auto.
    Qed.

    (* ----- the cases ----- *)
    Lemma get_function_spec f r s fc s' : get_function_mow env f r s = Done fc s' -> s' = s /\ denotes env f r = Some fc.
    Proof.
      unfold get_function_mow, denotes. intros H.
      destruct (in_dec Nat.eq_dec f [n_true; n_True]) as [I1|I1].
      { destruct I1 as [<-|[<-|[]]]; cbn in H; unfold ret in H; injection H as <- <-; auto. }
      assert (E1 : Nat.eqb f n_true || Nat.eqb f n_True = false).
      { apply orb_false_iff. split; apply Nat.eqb_neq; intros ->; apply I1; cbn; auto. }
      rewrite E1 in H.
      destruct (in_dec Nat.eq_dec f [n_false; n_False]) as [I2|I2].
      { destruct I2 as [<-|[<-|[]]]; cbn in H; unfold ret in H; injection H as <- <-; auto. }
      assert (E2 : Nat.eqb f n_false || Nat.eqb f n_False = false).
      { apply orb_false_iff. split; apply Nat.eqb_neq; intros ->; apply I2; cbn; auto. }
      rewrite E2 in H.
      destruct (Nat.eq_dec f n_not) as [->|I3].
      { cbn in H. unfold ret in H. injection H as <- <-. auto. }
      apply Nat.eqb_neq in I3. rewrite I3 in H.
      destruct (e_functions env f); [|discriminate]. unfold ret in H. injection H as <- <-. auto.
    Qed.

    Lemma parse_app_good r es f args s g s' : gentle env calls (length (p_bv s)) (TApp f args) -> numbered (p_bv s) ->
      parse_app env rec r es f args s = Done g s' -> ext s s' /\ post (p_bv s') (p_qs s') (TApp f args) r g.
    Proof.
      intros Hp Hn H. unfold parse_app in H. apply bind_done in H; destruct H as (fc & s1 & H1 & H).
      apply get_function_spec in H1. destruct H1 as [-> Hd]. apply gentle_app in Hp.
      apply parse_application_good in H; auto. destruct H as (E & W & V). split; auto. split; auto.
      intros Hsh Hc Hnd M qsem mval U Q R rho. apply everywhere_app in Hc. destruct Hc as [Hc1 Hc2].
      cbn [value]. unfold fn_value. rewrite Hd. apply V; auto. intros n Ha. eapply Hc1; eauto.
    Qed.

    Lemma parse_const_var_good r es x s g s' : numbered (p_bv s) ->
      parse_const_var env rec r es x s = Done g s' -> ext s s' /\ post (p_bv s') (p_qs s') (TVar x) r g.
    Proof.
      intros Hn H. unfold parse_const_var in H. apply bind_done in H; destruct H as (b & s1 & H1 & H).
      unfold getbv in H1. injection H1 as <- <-. match type of H with context [find ?p (p_bv s)] => destruct (find p (p_bv s)) as [[y v]|] eqn:F end.
      - assert (Hs : same s s' /\ (exists t, g = FVar (mkVar (vid v) t) /\ forall M (d : D M), evald M r (vsort v) d = d) \/
                     same s s' /\ (g = FFun (Feval (vsort v)) [FVar v] /\ forall M (d : D M), evald M r (vsort v) d = app (Feval (vsort v)) [d])).
        { unfold parse_variable in H. destruct v as [i sv]. cbn [vsort vid] in *.
          destruct sv; cbn [maybe_evaluated_sort] in H; try discriminate; destruct r; cbn beta iota in H; try discriminate;
            match type of H with
            | context [Feval] => right; apply bind_done in H; destruct H as (u & s1 & H1 & H); unfold ret in H; injection H as <- <-;
                split; [eapply when_same; [|exact H1]; cbn; intros; eapply lift_same; eauto|split; auto]
            | _ => left; destruct es as [p|]; [apply bind_done in H; destruct H as (u & s1 & H1 & H)|]; unfold ret in H; injection H as <- <-;
                (split; [first [apply same_refl|eapply lift_same; eassumption]|eexists; split; reflexivity])
            end. }
        assert (Hin : In (y, v) (p_bv s)) by (apply find_some in F; tauto).
        assert (Hy : y = x) by (apply find_some in F; destruct F as [_ F]; apply Nat.eqb_eq in F; auto). subst y.
        assert (Hlt : vid v < length (p_bv s)) by (eapply numbered_in; eauto).
        assert (Hsc : NoDup (map fst (p_bv s)) -> forall (M : structure) (rho : Semantics_Spec.env M), scope_of (p_bv s) rho x = Some (vsort v, rho (vid v))).
        { intros Hd M rho. unfold scope_of. rewrite find_rev_nodup; auto. unfold name in *. rewrite F. reflexivity. }
        destruct Hs as [[S (t & -> & Hev)]|[S [-> Hev]]]; (split; [apply same_ext; auto|]); rewrite (proj1 S), (proj2 S); split.
        + apply ws_var. auto.
        + intros _ _ Hnd M qsem mval _ _ _ rho. cbn [value eval vid]. rewrite Hsc by auto. symmetry. apply Hev.
        + apply ws_fun. constructor; auto. apply ws_var. auto.
        + intros _ _ Hnd M qsem mval _ _ _ rho. cbn [value eval map]. rewrite Hsc by auto. symmetry. apply Hev.
      - apply bind_done in H; destruct H as (fc & s1 & H1 & H). apply get_function_spec in H1. destruct H1 as [-> Hd].
        apply parse_application_good in H; auto. destruct H as (E & W & V). split; auto. split; auto.
        intros Hsh Hc Hnd M qsem mval U Q R rho. cbn [value]. unfold fn_value. rewrite Hd.
        replace (scope_of (p_bv s') rho x) with (@None (sort * D M)).
        2:{ unfold scope_of. rewrite find_rev_nodup; auto. rewrite (proj1 E). unfold name in *. rewrite F. reflexivity. }
        rewrite (V Hsh (Forall_nil _) ltac:(cbn; intros; lia) Hnd M qsem mval U Q R rho). reflexivity.
    Qed.

    Lemma parse_if_good r es c l d s g s' : gentle env calls (length (p_bv s)) (TIf c l d) -> numbered (p_bv s) ->
      parse_if rec r es c l d s = Done g s' -> ext s s' /\ post (p_bv s') (p_qs s') (TIf c l d) r g.
    Proof.
      intros Hp Hn H. unfold parse_if in H.
      assert (gentle env calls (length (p_bv s)) c /\ gentle env calls (length (p_bv s)) l /\ gentle env calls (length (p_bv s)) d) as (Hp1 & Hp2 & Hp3) by (inversion Hp; auto).
      apply bind_done in H; destruct H as (c' & s1 & H1 & H). apply Hrec in H1; auto. destruct H1 as [E1 P1].
      apply bind_done in H; destruct H as (l' & s2 & H2 & H). apply Hrec in H2; auto; [|rewrite (proj1 E1); auto..]. destruct H2 as [E2 P2].
      apply bind_done in H; destruct H as (d' & s3 & H3 & H). apply Hrec in H3; auto; [|rewrite (proj1 E2), (proj1 E1); auto..]. destruct H3 as [E3 P3].
      unfold ret in H. injection H as <- <-.
      split; [eapply ext_trans; [eauto|eapply ext_trans; eauto]|].
      apply (post_ext _ s3) in P1; [|eapply ext_trans; eauto]. apply (post_ext _ s3) in P2; auto.
      destruct P1 as [W1 V1], P2 as [W2 V2], P3 as [W3 V3]. split; [apply ws_fun; auto|].
      intros Hsh (_ & C1 & C2 & C3) Hnd M qsem mval U Q R rho. cbn [value eval map].
      rewrite (V1 Hsh C1 Hnd M qsem mval U Q R rho), (V2 Hsh C2 Hnd M qsem mval U Q R rho), (V3 Hsh C3 Hnd M qsem mval U Q R rho). reflexivity.
    Qed.

    Lemma bound_new n vs vars : bound n vs vars ->
      (forall v, In v vars -> n <= vid v) /\ (forall i, n <= i < n + length vars -> In i (map vid vars)).
    Proof.
      intros H. apply bound_ids in H. destruct H as (H1 & _ & H3). split.
      - intros v Hv. assert (Hi : In (vid v) (seq n (length vs))) by (rewrite <- H1; apply in_map; auto). apply in_seq in Hi. lia.
      - intros i Hi. rewrite H1. apply in_seq. lia.
    Qed.

    Lemma parse_quant_good r es q vs b s g s' : gentle env calls (length (p_bv s)) (TQuant q vs b) -> numbered (p_bv s) ->
      parse_quant env fuel rec r es q vs b s = Done g s' -> ext s s' /\ post (p_bv s') (p_qs s') (TQuant q vs b) r g.
    Proof.
      intros Hp Hn H. unfold parse_quant in H.
      assert (Hb : gentle env calls (length (p_bv s) + length vs) b) by (inversion Hp; auto).
      apply bind_done in H; destruct H as (u & s1 & H1 & H). apply when_same in H1; [|intros; eapply lift_same; eauto].
      apply bind_done in H; destruct H as (bn & s2 & H2 & H). unfold getbv in H2. injection H2 as <- <-.
      apply bind_done in H; destruct H as (vars & s2 & H2 & H). apply bindings_good in H2. destruct H2 as (B2 & Q2 & Bd & Nd).
      rewrite (proj1 H1) in *. rewrite (proj2 H1) in Q2.
      apply bind_done in H; destruct H as (c & s3 & H3 & H).
      apply Hrec in H3; [|rewrite B2, (bound_length _ _ _ _ Bd), (proj2 (proj2 (bound_ids _ _ _ Bd))); auto|rewrite B2; apply bound_numbered; auto].
      destruct H3 as [[E3 (l & E3q & E3n)] [W3 V3]]. rewrite E3, B2 in *. rewrite Q2 in E3q. rewrite (bound_length _ _ _ _ Bd) in *.
      apply bind_done in H; destruct H as (u2 & s4 & H4 & H). unfold truncbv in H4. injection H4 as _ <-. rewrite E3 in H.
      rewrite firstn_app, firstn_all, Nat.sub_diag, firstn_O, app_nil_r in H.
      set (s4 := mkPst (p_heap s3) (p_bv s) (p_qs s3)) in *.
      assert (E4 : ext s s4).
      { split; auto. exists l. split; auto. eapply Forall_impl; [|exact E3n]. intros q0 (m & Hm & Hq). exists m. split; auto. intros Hc. specialize (Hm Hc). lia. }
      destruct (bound_new _ _ _ Bd) as [Hnew Hall].
      destruct r.
      - eapply new_quantifier_good with (n := length (p_bv s)) in H; auto.
        2:{ intros c0 i [<-|[]] Hi. apply W3 in Hi. destruct (Nat.lt_ge_cases i (length (p_bv s))); auto. }
        destruct H as (E5 & W5 & V5). split; [eapply ext_trans; eauto|]. rewrite (proj1 E5). split; auto.
        intros Hsh (_ & Hc) Hnd M qsem mval U Q R rho. rewrite (V5 M qsem mval U Q R rho). cbn [value].
        rewrite (proj1 (proj2 (bound_ids _ _ _ Bd))). apply Q. intros ds Hds. cbn [map].
        f_equal. rewrite (V3 Hsh Hc (Nd Hsh Hnd) M qsem mval U Q).
        + apply value_ext; auto. apply scope_binders; auto. rewrite Hds. unfold binders. rewrite !map_length. auto.
        + destruct E5 as [_ (l5 & E5q & _)]. rewrite E5q in R. eapply respects_app; eauto.
      - unfold ret in H. injection H as <- <-. split; auto. split; [apply ws_quant; auto|].
        intros Hsh (_ & Hc) Hnd M qsem mval U Q R rho. cbn [value eval]. f_equal.
        apply quantify_binders with (vs := vs); auto.
        + intros a a' Haa. f_equal. apply value_ext; auto.
        + intros rho'. f_equal. apply V3; auto.
    Qed.

    Lemma parse_find_good r es vs c l d s g s' : gentle env calls (length (p_bv s)) (TFind vs c l d) -> numbered (p_bv s) ->
      parse_find env fuel rec r es vs c l d s = Done g s' -> ext s s' /\ post (p_bv s') (p_qs s') (TFind vs c l d) r g.
    Proof.
      intros Hp Hn H. unfold parse_find in H.
      assert (gentle env calls (length (p_bv s) + length vs) c /\ gentle env calls (length (p_bv s) + length vs) l /\ gentle env calls (length (p_bv s)) d) as (Hp1 & Hp2 & Hp3) by (inversion Hp; auto).
      apply bind_done in H; destruct H as (u & s1 & H1 & H). apply when_same in H1; [|intros; eapply lift_same; eauto].
      apply bind_done in H; destruct H as (d' & s1' & Hd & H). apply Hrec in Hd; auto; [|rewrite (proj1 H1); auto..].
      destruct Hd as [Ed [Wd Vd]]. assert (Ed' : ext s s1') by (eapply ext_trans; [apply same_ext; exact H1|exact Ed]).
      rewrite (proj1 Ed') in *.
      apply bind_done in H; destruct H as (bn & s2 & H2 & H). unfold getbv in H2. injection H2 as <- <-.
      apply bind_done in H; destruct H as (vars & s2 & H2 & H). apply bindings_good in H2. destruct H2 as (B2 & Q2 & Bd & Nd).
      rewrite (proj1 Ed') in *.
      apply bind_done in H; destruct H as (c' & s3 & H3 & H). apply Hrec in H3; [|rewrite B2, (bound_length _ _ _ _ Bd), (proj2 (proj2 (bound_ids _ _ _ Bd))); auto|rewrite B2; apply bound_numbered; auto].
      destruct H3 as [E3 P3].
      apply bind_done in H; destruct H as (l' & s4 & H4 & H). apply Hrec in H4; [|rewrite (proj1 E3), B2, (bound_length _ _ _ _ Bd), (proj2 (proj2 (bound_ids _ _ _ Bd))); auto|rewrite (proj1 E3), B2; apply bound_numbered; auto].
      destruct H4 as [E4 P4]. apply (post_ext _ _ _ _ _ E4) in P3.
      assert (E34 : ext s2 s4) by (eapply ext_trans; eauto). clear E3 E4.
      destruct E34 as [E4 (ql & E4q & E4n)]. destruct P3 as [W3 V3], P4 as [W4 V4].
      rewrite E4, B2 in *. rewrite Q2 in E4q. rewrite (bound_length _ _ _ _ Bd) in *.
      apply bind_done in H; destruct H as (u2 & s5 & H5 & H). unfold truncbv in H5. injection H5 as _ <-. rewrite E4 in H.
      rewrite firstn_app, firstn_all, Nat.sub_diag, firstn_O, app_nil_r in H.
      set (s5 := mkPst (p_heap s4) (p_bv s) (p_qs s4)) in *.
      assert (E5 : ext s1' s5).
      { split; [symmetry; apply (proj1 Ed')|]. exists ql. split; auto. rewrite (proj1 Ed'). eapply Forall_impl; [|exact E4n]. intros q0 (m & Hm & Hq). exists m. split; auto. intros Hc. specialize (Hm Hc). lia. }
      destruct (bound_new _ _ _ Bd) as [Hnew Hall].
      apply bind_done in H; destruct H as (f & s6 & H6 & H). unfold ret in H. injection H as <- <-.
      eapply new_quantifier_good with (n := length (p_bv s)) in H6; auto.
      2:{ intros c0 i [<-|[<-|[<-|[]]]] Hi; [apply W3 in Hi|apply W4 in Hi|apply Wd in Hi; auto];
            (destruct (Nat.lt_ge_cases i (length (p_bv s))); auto). }
      destruct H6 as (E6 & W6 & V6). split; [eapply ext_trans; [exact Ed'|eapply ext_trans; eauto]|]. rewrite (proj1 E6).
      cbn [p_bv s5]. split.
      { destruct r; auto. apply ws_fun. constructor; auto. }
      intros Hsh (_ & C1 & C2 & C3) Hnd M qsem mval U Q R rho.
      assert (R5 : respects qsem (p_qs s5)) by (destruct E6 as [_ (l6 & E6q & _)]; rewrite E6q in R; eapply respects_app; eauto).
      assert (R4 : respects qsem (p_qs s1')) by (destruct E5 as [_ (l6 & E6q & _)]; rewrite E6q in R5; eapply respects_app; eauto).
      assert (Hf : eval f rho = qsem KFind (map snd (binders env vs))
             (fun ds => [value env qsem mval c RSymbolic (bind_names (scope_of (p_bv s) rho) (binders env vs) ds);
                         value env qsem mval l RSymbolic (bind_names (scope_of (p_bv s) rho) (binders env vs) ds);
                         value env qsem mval d RSymbolic (scope_of (p_bv s) rho)])).
      { rewrite (V6 M qsem mval U Q R rho). rewrite (proj1 (proj2 (bound_ids _ _ _ Bd))). apply Q. intros ds Hds. cbn [map].
        assert (Hl : length ds = length vs) by (rewrite Hds; unfold binders; rewrite !map_length; auto).
        rewrite (V3 Hsh C1 (Nd Hsh Hnd) M qsem mval U Q R5), (V4 Hsh C2 (Nd Hsh Hnd) M qsem mval U Q R5), (Vd Hsh C3 Hnd M qsem mval U Q R4).
        rewrite (value_ext M env qsem mval Q c _ _ _ (scope_binders vs _ _ rho ds Hn Bd Hl)), (value_ext M env qsem mval Q l _ _ _ (scope_binders vs _ _ rho ds Hn Bd Hl)).
        do 2 f_equal. f_equal. apply value_ext; auto. intros y. apply scope_agree; auto. intros i Hi. apply upds_other.
        intros Hin. apply in_map_iff in Hin. destruct Hin as (v & <- & Hv). apply Hnew in Hv. lia. }
      cbn [value]. rewrite <- Hf. destruct r; reflexivity.
    Qed.

    (* ----- infix ----- *)
    Lemma app_good r es fc args s g s' (t : term) : Forall (gentle env calls (length (p_bv s))) args -> numbered (p_bv s) ->
      parse_application rec r es fc args s = Done g s' ->
      (counted env t -> Forall (counted env) args /\ (forall n, arity (fc_kind fc) = Some n -> length args <= n)) ->
      (counted env t -> args_size_ok (fc_kind fc) (length args) = true -> forall (M : structure) qsem mval (sc : scope M), unfolds env qsem mval -> extensional M qsem ->
         apply_fn M r fc (fun r' => map (fun a => value env qsem mval a r' sc) args) = value env qsem mval t r sc) ->
      ext s s' /\ post (p_bv s') (p_qs s') t r g.
    Proof.
      intros Hp Hn H Hc Hv. pose proof H as H'. apply parse_application_good in H; auto. destruct H as (E & W & V).
      split; auto. split; auto. intros Hsh Hct Hnd M qsem mval U Q R rho. destruct (Hc Hct) as [Hc1 Hc2].
      rewrite (V Hsh Hc1 Hc2 Hnd M qsem mval U Q R rho). apply Hv; auto.
      (* the number of arguments was checked *)
      unfold parse_application in H'.
      apply bind_done in H'; destruct H' as (sg & s0 & H0 & H). apply newsig_same in H0. destruct H0 as (S0 & -> & Hh).
      apply bind_done in H; destruct H as (o & s1 & H1 & H). pose proof (readp_same _ _ _ _ H1); subst s1.
      apply bind_done in H; destruct H as (nargs & s2 & H2 & H).
      destruct (zip_args_snd args (sargs (snd (signature (p_heap s) (fc_kind fc)))) (srep (snd (signature (p_heap s) (fc_kind fc)))))
        as (n & Hz & _).
      apply mapMM_args in H2; [|rewrite Hz; apply Forall_firstn'; rewrite (proj1 S0); auto|rewrite (proj1 S0); auto].
      destruct H2 as [E2 P2].
      destruct (args_size_ok (fc_kind fc) (length nargs)) eqn:Hok; [|discriminate].
      assert (L : length nargs = length (zip_args (sargs (snd (signature (p_heap s) (fc_kind fc)))) (srep (snd (signature (p_heap s) (fc_kind fc)))) args)).
      { clear -P2. remember (map snd _) as l eqn:El. apply (f_equal (@length _)) in El. rewrite map_length in El.
        rewrite <- El. clear El. induction P2; cbn; auto. }
      rewrite L in Hok. pose proof (sig_zip _ _ _ Hok Hc2) as Hl. apply (f_equal (@length _)) in Hl. rewrite map_length in Hl.
      rewrite <- Hl. auto.
    Qed.

    Lemma pairs_length o ts : length (pairs o ts) = length ts - 1.
    Proof. induction ts as [|a [|b ts] IH]; cbn in *; auto. rewrite IH. lia. Qed.
    Lemma neighbours_length {A B} (P : A -> A -> B) l : length (neighbours P l) = length l - 1.
    Proof. induction l as [|a [|b l] IH]; cbn in *; auto. rewrite IH. lia. Qed.

    Lemma pairs_value M qsem mval r sc ts :
      map (fun a => value env qsem mval a r sc) (pairs OHardEq ts) =
      neighbours (fun a b => evald M r SCondition (app (Fta TEq) [a; b])) (map (fun a => value env qsem mval a RSymbolic sc) ts).
    Proof.
      induction ts as [|a [|b ts] IH]; cbn [pairs map neighbours]; auto. f_equal. apply IH.
    Qed.
    Lemma hardeq_value M qsem mval r (sc : scope M) ts : length ts <> 2 ->
      value env qsem mval (TInfix OAnd (pairs OHardEq ts)) r sc = value env qsem mval (TInfix OHardEq ts) r sc.
    Proof.
      intros H. cbn [value infix_value]. unfold chain_meq. rewrite <- (pairs_value M qsem mval r sc ts).
      pose proof (pairs_length OHardEq ts) as L. destruct (pairs OHardEq ts) as [|x [|y l]]; cbn [map]; auto.
      destruct ts as [|t1 [|t2 [|t3 ts]]]; cbn in *; lia.
    Qed.

    Hypothesis Hiff : forall ts es s f s', rec (TInfix OAnd (pairs OIff ts)) RSymbolic es s <> Done f s'.

    Lemma rec_as t t' r es s g s' : gentle env calls (length (p_bv s)) t -> numbered (p_bv s) -> rec t r es s = Done g s' ->
      (counted env t' -> counted env t) ->
      (counted env t' -> forall (M : structure) qsem mval (sc : scope M), unfolds env qsem mval -> value env qsem mval t r sc = value env qsem mval t' r sc) ->
      ext s s' /\ post (p_bv s') (p_qs s') t' r g.
    Proof.
      intros Hp Hn H Hc Hv. apply Hrec in H; auto. destruct H as [E [W V]]. split; auto. split; auto.
      intros Hsh Hct Hnd M qsem mval U Q R rho. rewrite (V Hsh (Hc Hct) Hnd M qsem mval U Q R rho). apply Hv; auto.
    Qed.

    Lemma fold_infix_good g es : forall ts acc s f s', Forall (gentle env calls (length (p_bv s))) ts -> numbered (p_bv s) ->
      fold_infix rec g RSymbolic es acc ts s = Done f s' ->
      ext s s' /\ (well_scoped (length (p_bv s)) acc -> well_scoped (length (p_bv s')) f) /\
      (e_shadowing env = false -> Forall (counted env) ts -> NoDup (map fst (p_bv s')) ->
       forall (M : structure) qsem mval, unfolds env qsem mval -> extensional M qsem -> respects qsem (p_qs s') -> forall rho : Semantics_Spec.env M,
         eval f rho = fold_left (fun x y => app g [x; y]) (map (fun a => value env qsem mval a RSymbolic (scope_of (p_bv s') rho)) ts) (eval acc rho)).
    Proof.
      induction ts as [|t ts IH]; intros acc s f s' Hp Hn H; cbn [fold_infix] in H.
      - unfold ret in H. injection H as <- <-. split; [apply ext_refl|]. auto.
      - apply bind_done in H; destruct H as (h & s1 & H1 & H). inversion Hp as [|? ? Hp1 Hp2]; subst.
        apply Hrec in H1; auto. destruct H1 as [E1 P1]. apply IH in H; auto; [|rewrite (proj1 E1); auto..].
        destruct H as (E2 & W2 & V2). apply (post_ext _ _ _ _ _ E2) in P1. destruct P1 as [W1 V1].
        split; [eapply ext_trans; eauto|]. split.
        + intros Wa. apply W2. rewrite (proj1 E1). apply ws_fun. constructor; auto. constructor; auto.
          rewrite (proj1 E2), (proj1 E1) in W1. auto.
        + intros Hsh Hc Hnd M qsem mval U Q R rho. inversion Hc as [|? ? Hc1 Hc2]; subst.
          rewrite (V2 Hsh Hc2 Hnd M qsem mval U Q R rho). cbn [map fold_left eval]. rewrite (V1 Hsh Hc1 Hnd M qsem mval U Q R rho). reflexivity.
    Qed.

    Lemma parse_andor_good r es b ts s g s' : Forall (gentle env calls (length (p_bv s))) ts -> numbered (p_bv s) ->
      parse_andor rec r es b ts s = Done g s' -> ext s s' /\ post (p_bv s') (p_qs s') (TInfix (if b then OAnd else OOr) ts) r g.
    Proof.
      intros Hp Hn H. destruct r; cbn [parse_andor] in H.
      - destruct ts as [|t ts]; [discriminate|]. inversion Hp as [|? ? Hp1 Hp2]; subst.
        apply bind_done in H; destruct H as (h & s1 & H1 & H). apply Hrec in H1; auto. destruct H1 as [E1 P1].
        apply fold_infix_good in H; auto; [|rewrite (proj1 E1); auto..]. destruct H as (E2 & W2 & V2).
        pose proof (proj1 P1) as W0. apply (post_ext _ _ _ _ _ E2) in P1. destruct P1 as [W1 V1].
        split; [eapply ext_trans; eauto|]. split; auto.
        intros Hsh Hc Hnd M qsem mval U Q R rho. apply everywhere_infix in Hc. destruct Hc as [_ Hc]. inversion Hc as [|? ? Hc1 Hc2]; subst.
        rewrite (V2 Hsh Hc2 Hnd M qsem mval U Q R rho), (V1 Hsh Hc1 Hnd M qsem mval U Q R rho).
        destruct b; reflexivity.
      - eapply app_good; [eassumption|assumption|eassumption| |].
        + intros Hc. apply everywhere_infix in Hc. split; [tauto|]. intros n. destruct b; discriminate.
        + intros _ _ M qsem mval sc U Q. destruct b; reflexivity.
    Qed.

    Lemma parse_infix_good r es o ts s g s' : gentle env calls (length (p_bv s)) (TInfix o ts) -> numbered (p_bv s) ->
      parse_infix rec r es o ts s = Done g s' -> ext s s' /\ post (p_bv s') (p_qs s') (TInfix o ts) r g.
    Proof.
      intros Hp Hn H. apply gentle_infix in Hp.
      destruct o; cbn [parse_infix] in H.
      - (* HardEq *) destruct (Nat.eqb (length ts) 2) eqn:L2.
        + apply Nat.eqb_eq in L2. destruct ts as [|a [|b [|c ts]]]; try discriminate.
          eapply app_good; [eassumption|assumption|eassumption| |].
          * intros Hc. apply everywhere_infix in Hc. split; [tauto|]. intros n [= <-]. cbn. lia.
          * intros _ _ M qsem mval sc U Q. reflexivity.
        + apply Nat.eqb_neq in L2. eapply rec_as; [|assumption|eassumption| |].
          * apply gentle_infix. apply pairs_all; auto. intros a b Ha Hb. apply gentle_infix. auto.
          * intros Hc. apply everywhere_infix in Hc. apply everywhere_infix. split; [exact I|]. apply pairs_all; [|tauto].
            intros a b Ha Hb. apply everywhere_infix. split; [exact I|auto].
          * intros _ M qsem mval sc U. apply hardeq_value; auto.
      - (* Eq *) destruct r.
        + eapply rec_as; [|assumption|eassumption| |].
          * apply gentle_infix. auto.
          * intros Hc. apply everywhere_infix in Hc. apply everywhere_infix. split; [exact I|tauto].
          * intros _ M qsem mval sc U. reflexivity.
        + eapply app_good; [eassumption|assumption|eassumption| |].
          * intros Hc. apply everywhere_infix in Hc. split; [tauto|]. intros n [= <-]. destruct Hc as [Hc _]. cbn in Hc. rewrite Hc. auto.
          * intros Hc _ M qsem mval sc U Q. apply everywhere_here in Hc. cbn in Hc. destruct ts as [|a [|b [|c ts]]]; try discriminate.
            cbn. unfold chain_eq. cbn. rewrite andb_true_r. reflexivity.
      - (* Neq *) eapply rec_as; [|assumption|eassumption| |].
        + apply gentle_app. constructor; auto. apply gentle_infix. auto.
        + intros Hc. apply everywhere_infix in Hc. destruct Hc as [Hc1 Hc2]. apply everywhere_app. split.
          * intros r' fc n Hd Ha. destruct r'; cbn in Hd; injection Hd as <-; injection Ha as <-; cbn; lia.
          * constructor; auto. apply everywhere_infix. split; auto.
        + intros _ M qsem mval sc U. destruct r; reflexivity.
      - exact (parse_andor_good r es false ts s g s' Hp Hn H).
      - exact (parse_andor_good r es true ts s g s' Hp Hn H).
      - (* Implies *) eapply app_good; [eassumption|assumption|eassumption| |].
        + intros Hc. apply everywhere_infix in Hc. split; [tauto|]. intros n Ha. destruct Hc as [Hc _]. cbn in Hc. rewrite Hc.
          destruct r; injection Ha as <-; auto.
        + intros Hc _ M qsem mval sc U Q. apply everywhere_here in Hc. cbn in Hc. destruct ts as [|a [|b [|c ts]]]; try discriminate.
          destruct r; reflexivity.
      - (* Iff *) destruct r; [exfalso; eapply Hiff; eauto|]. eapply app_good; [eassumption|assumption|eassumption| |].
        + intros Hc. apply everywhere_infix in Hc. split; [tauto|]. intros n [= <-]. destruct Hc as [Hc _]. cbn in Hc. rewrite Hc. auto.
        + intros Hc _ M qsem mval sc U Q. apply everywhere_here in Hc. cbn in Hc. destruct ts as [|a [|b [|c ts]]]; try discriminate.
          cbn. unfold chain_eq. cbn. rewrite andb_true_r. reflexivity.
    Qed.

    (* ----- calls ----- *)
    Lemma mapMM_gen {A} (tm : A -> term) (rl : A -> realm) (ex : A -> option proxy) :
      forall (l : list A) s fs s', Forall (fun a => gentle env calls (length (p_bv s)) (tm a)) l -> numbered (p_bv s) ->
      mapMM (fun a => rec (tm a) (rl a) (ex a)) l s = Done fs s' ->
      ext s s' /\ Forall2 (fun a f => post (p_bv s') (p_qs s') (tm a) (rl a) f) l fs.
    Proof.
      induction l as [|a l IH]; intros s fs s' Hp Hn H; cbn [mapMM] in H.
      - unfold ret in H. injection H as <- <-. split; [apply ext_refl|constructor].
      - apply bind_done in H; destruct H as (f & s1 & H1 & H). apply bind_done in H; destruct H as (fs' & s2 & H2 & H).
        unfold ret in H. injection H as <- <-. inversion Hp as [|? ? Ht Hl]; subst.
        apply Hrec in H1; auto. destruct H1 as [E1 P1]. apply IH in H2; auto; [|rewrite (proj1 E1); auto..]. destruct H2 as [E2 P2].
        split; [eapply ext_trans; eauto|]. constructor; auto. eapply post_ext; eauto.
    Qed.
    Lemma post_length b qs {A} (tm : A -> term) rl l fs : Forall2 (fun a f => post b qs (tm a) (rl a) f) l fs -> length l = length fs.
    Proof. induction 1; cbn; auto. Qed.
    Lemma post_scoped b qs {A} (tm : A -> term) rl l fs f : Forall2 (fun a f => post b qs (tm a) (rl a) f) l fs -> In f fs -> well_scoped (length b) f.
    Proof. induction 1 as [|a g l fs [W _] _ IH]; intros Hi; [destruct Hi|]. destruct Hi as [<-|Hi]; auto. Qed.
    Lemma post_values b qs {A} (tm : A -> term) rl l fs : e_shadowing env = false -> NoDup (map fst b) ->
      Forall (fun a => counted env (tm a)) l -> forall (M : structure) qsem mval, unfolds env qsem mval -> extensional M qsem -> respects qsem qs ->
      Forall2 (fun a f => post b qs (tm a) (rl a) f) l fs -> forall rho : Semantics_Spec.env M,
      map (fun f => eval f rho) fs = map (fun a => value env qsem mval (tm a) (rl a) (scope_of b rho)) l.
    Proof.
      intros Hs Hn Hc M qsem mval U Q R H rho. induction H as [|a g l fs [_ V] _ IH]; cbn; auto. inversion Hc; subst. rewrite IH; auto.
      f_equal. apply V; auto.
    Qed.
    (** Substituting arguments read under [n] binders in a body read under its [k] parameters. *)
    Lemma call_scoped n k t fs g : well_scoped k t -> (forall f, In f fs -> well_scoped n f) -> length fs = k -> n <= k \/ no_binder t ->
      sapply (multiple (combine (seq 0 k) fs)) t = Some g ->
      well_scoped n g /\ forall (M : structure) (rho : Semantics_Spec.env M), eval g rho = eval t (fun i => match nth_error fs i with Some f => eval f rho | None => rho i end).
    Proof.
      intros Wt Wf L Hcap H.
      assert (Hm : forall v t', multiple (combine (seq 0 k) fs) v = Some t' -> t' = match nth_error fs (vid v) with Some f => f | None => FVar v end).
      { intros v t' Hv. unfold multiple in Hv. rewrite maybe_get_seq in Hv by auto. cbn in Hv. rewrite Nat.sub_0_r in Hv.
        destruct (nth_error fs (vid v)); congruence. }
      split; [split|].
      - intros i Hi. destruct (sapply_free t (multiple (combine (seq 0 k) fs)) g i) as (v & t' & Hv & Ht & Ho); [|exact H|exact Hi|].
        + intros v Bv. apply Wt in Bv. unfold multiple. rewrite maybe_get_seq by auto. cbn. rewrite Nat.sub_0_r.
          rewrite (proj2 (nth_error_None fs (vid v))) by lia. reflexivity.
        + apply Hm in Ht. apply Wt in Hv. destruct (nth_error fs (vid v)) as [f|] eqn:E.
          * subst t'. apply (Wf f); auto. eapply nth_error_In; eauto.
          * apply nth_error_None in E. lia.
      - intros i Hi. destruct (sapply_binds _ _ _ _ H Hi) as [B|(v & t' & Hv & B)].
        + destruct Hcap as [Hcap|Hcap]; [apply Wt in B; lia|elim (Hcap i B)].
        + apply Hm in Hv. destruct (nth_error fs (vid v)) as [f|] eqn:E; subst t'; [|inversion B]. apply (Wf f); auto. eapply nth_error_In; eauto.
      - intros M rho. apply (body_meaning k); auto. intros f i Hf Ho B. destruct Hcap as [Hcap|Hcap]; [|destruct (Hcap i B)].
        apply Wt in B. apply (Wf f Hf) in Ho. lia.
    Qed.
    Lemma newqs_calls n n' l : calls = true -> newqs n l -> newqs n' l.
    Proof. intros C H. eapply Forall_impl; [|exact H]. intros q (m & _ & Hq). exists m. split; [congruence|auto]. Qed.
    Lemma chosen_map {M : structure} r (f g : term -> D M) : forall (params : list (name * sort)) args,
      chosen r params (map f args) (map g args) =
      map (fun pa => match match sort_realm (snd (fst pa)) with Some r' => r' | None => r end with RSymbolic => f (snd pa) | REvaluated => g (snd pa) end) (combine params args).
    Proof. induction params as [|[x st] params IH]; intros [|a args]; cbn; auto. rewrite IH. reflexivity. Qed.

    Lemma parse_macro_good r es m args s g s' : gentle env calls (length (p_bv s)) (TMac m args) -> numbered (p_bv s) ->
      parse_macro env rec r es m args s = Done g s' -> ext s s' /\ post (p_bv s') (p_qs s') (TMac m args) r g.
    Proof.
      intros Hp Hn H. unfold parse_macro in H. destruct (e_macros env m) as [mc|] eqn:Em; [|discriminate].
      inversion Hp as [| | | | | | | |? ? ? Hcalls Ha Hmac]; subst. destruct (Hmac mc Em) as (Hnp & Cb & Hb & Hcap). clear Hmac.
      destruct (Nat.eqb (length (mc_args mc)) (length args)) eqn:L; [|discriminate]. apply Nat.eqb_eq in L. cbn [negb] in H.
      apply bind_done in H; destruct H as (fs & s1 & H1 & H).
      set (rl := fun sa : (name * sort) * term => match sort_realm (snd (fst sa)) with Some r' => r' | None => r end).
      apply (mapMM_gen (fun sa : (name * sort) * term => snd sa) rl (fun sa => Some (PStatic (snd (fst sa))))) in H1; auto.
      2:{ apply Forall_forall. intros [p a] Hx. apply Ha. eapply in_combine_r; eauto. }
      destruct H1 as [E1 P1].
      apply bind_done in H; destruct H as (t & s2 & H2 & H). apply with_bv_done in H2. destruct H2 as (s3 & H2 & ->).
      pose proof H2 as H2b.
      apply Hrec in H2; [|cbn [p_bv]; rewrite named_vars_length; auto|exact (numbered_named (mc_args mc) [] numbered_nil)].
      destruct H2 as [[E3 (l3 & Q3 & N3)] [W3 V3]].
      cbn [p_bv p_qs] in *. rewrite E3 in *. rewrite named_vars_length in W3.
      apply lift_opt_done in H. destruct H as [Hg ->]. cbn [p_bv p_qs] in *.
      assert (Lf : length fs = length (mc_args mc)).
      { pose proof (post_length _ _ _ _ _ _ P1) as L1. rewrite combine_length in L1. lia. }
      apply apply_substitution_multiple in Hg; [|rewrite seq_length; auto].
      apply (call_scoped (length (p_bv s1))) in Hg; auto.
      2:{ intros f Hf. eapply post_scoped; eauto. }
      2:{ rewrite (proj1 E1). destruct Hcap as [Hcap|Hcap]; [auto|right]. apply Hnb in H2b; auto. }
      destruct Hg as [Wg Vg].
      split.
      { eapply ext_trans; [exact E1|]. split; auto. exists l3. split; auto. eapply newqs_calls; eauto. }
      split; auto.
      intros Hsh Hc Hnd M qsem mval U Q R rho. apply everywhere_mac in Hc. destruct Hc as [_ Ca].
      rewrite Vg, (V3 Hsh Cb) with (qsem := qsem) (mval := mval); auto; [|rewrite named_vars_names; auto].
      cbn [value]. rewrite U. cbn [call_value]. rewrite Em.
      apply value_ext; auto. intros y.
      pose proof (scope_named (mc_args mc) [] (fun i => match nth_error fs i with Some f => eval f rho | None => rho i end) numbered_nil y) as S.
      cbn [List.app length] in S. rewrite S. rewrite <- Lf at 1. rewrite seq_values.
      rewrite (post_values (p_bv s1) (p_qs s1) _ rl _ fs Hsh Hnd) with (qsem := qsem) (mval := mval) (5 := P1); auto.
      - rewrite chosen_map. f_equal. apply map_ext. intros [[x st] a]. unfold rl. cbn [fst snd]. destruct (sort_realm st) as [[]|]; auto. destruct r; auto.
      - apply Forall_forall. intros [p a] Hx. rewrite Forall_forall in Ca. apply Ca. eapply in_combine_r; eauto.
      - rewrite Q3 in R. eapply respects_app; eauto.
    Qed.

    Lemma app_step_inv r es g ss nm st args s f s' : nm = None -> Forall (gentle env calls (length (p_bv s))) args -> numbered (p_bv s) ->
      parse_application rec r es (mkFc g (SgFixed ss SStep) nm st) args s = Done f s' ->
      exists nargs args', f = FFun g nargs /\ ext s s' /\ Forall2 (fun t f => post (p_bv s') (p_qs s') t r f) args' nargs /\ (length args <= length ss -> args' = args).
    Proof.
      intros -> Hp Hn H. unfold parse_application in H.
      apply bind_done in H; destruct H as (sg & s0 & H0 & H). apply newsig_same in H0. destruct H0 as (S0 & -> & Hh).
      apply bind_done in H; destruct H as (o & s1 & H1 & H). pose proof (readp_same _ _ _ _ H1); subst s1.
      cbn [fc_kind] in *. unfold readp in H1. injection H1 as Ho.
      assert (o = Some SStep) by (rewrite <- Ho; apply (proj2 (sig_out (p_heap s) (SgFixed ss SStep)) (p_heap s0) SStep eq_refl)). subst o.
      cbn [sort_realm] in H.
      apply bind_done in H; destruct H as (nargs & s2 & H2 & H).
      pose proof H2 as H2'. 
      assert (Hz : exists n, map snd (zip_args (sargs (snd (signature (p_heap s) (SgFixed ss SStep)))) (srep (snd (signature (p_heap s) (SgFixed ss SStep)))) args) = firstn n args).
      { destruct (zip_args_snd args (sargs (snd (signature (p_heap s) (SgFixed ss SStep)))) (srep (snd (signature (p_heap s) (SgFixed ss SStep))))) as (n & Hz & _). eauto. }
      destruct Hz as (n & Hz). cbn [fc_kind] in *.
      apply mapMM_args in H2'; [|rewrite Hz; apply Forall_firstn'; rewrite (proj1 S0); auto|rewrite (proj1 S0); auto].
      destruct H2' as [E2 P2].
      match type of H with context [args_size_ok ?k (length nargs)] => destruct (args_size_ok k (length nargs)) eqn:Hok; [|discriminate] end. cbn [negb] in H.
      apply bind_done in H; destruct H as (o2 & s3 & H3 & H). pose proof (readp_same _ _ _ _ H3); subst s3.
      cbn [fc_name fc_sym] in H. unfold readp in H3. injection H3 as Ho2.
      assert (o2 = Some SStep) by (rewrite <- Ho2; apply (proj2 (sig_out (p_heap s) (SgFixed ss SStep)) (p_heap s2) SStep eq_refl)). subst o2.
      apply bind_done in H; destruct H as ([[f0 fr] hs] & s3 & H3 & H). unfold ret in H3. injection H3 as <- <- <- <-.
      apply bind_done in H; destruct H as (f1 & s4 & H4 & H).
      assert (Hf1 : f1 = FFun g nargs /\ s4 = s2) by (destruct r; unfold ret in H4; injection H4 as <- <-; auto). destruct Hf1 as [-> ->].
      apply bind_done in H; destruct H as (oo & s5 & H5 & H). apply readp_same in H5. subst s5.
      apply bind_done in H; destruct H as (u & s6 & H6 & H). apply when_same in H6.
      2:{ intros p s7 u' s8 Hw. apply bind_done in Hw. destruct Hw as (x & s9 & Hw & Hr). unfold ret in Hr. injection Hr as <- <-.
          eapply lift_same; eauto. }
      unfold ret in H. injection H as <- <-. eexists nargs, _. split; auto.
      split; [eapply ext_same; [|exact H6]; eapply ext_trans; [apply same_ext; exact S0|exact E2]|].
      destruct H6 as [-> ->]. split; [exact P2|]. intros L. apply sig_zip; [|intros m [= <-]; exact L].
      rewrite <- (map_length snd). replace (length (map snd (zip_args (sargs (snd (signature (p_heap s) (SgFixed ss SStep)))) (srep (snd (signature (p_heap s) (SgFixed ss SStep)))) args))) with (length nargs); [exact Hok|]. clear -P2. induction P2; cbn; auto.
    Qed.

    Lemma everywhere_step P b f l : everywhere P (TStepMac b f (Some l)) -> P (TStepMac b f (Some l)) /\ Forall (everywhere P) l.
    Proof. cbn. intros [H1 H2]. split; auto. apply all_Forall. exact H2. Qed.
    Lemma parse_step_mac_good r es b f args s g s' : gentle env calls (length (p_bv s)) (TStepMac b f args) -> numbered (p_bv s) ->
      parse_step_mac env rec r es b f args s = Done g s' -> ext s s' /\ post (p_bv s') (p_qs s') (TStepMac b f args) r g.
    Proof.
      intros Hp Hn H. unfold parse_step_mac in H. apply bind_done in H; destruct H as (h & s1 & H1 & H).
      destruct h as [v|gh fs|q vs c]; try discriminate.
      set (l := match args with Some l => l | None => [] end).
      assert (Hl : parse_app env rec r (Some (PStatic SStep)) f l s = Done (FFun gh fs) s1).
      { unfold l. destruct args; auto. apply const_step in H1. destruct H1 as [(v & [=])|H1]. exact H1. }
      clear H1. destruct (e_functions env f) as [[gs k nm [st|]]|] eqn:Ef; try discriminate.
      set (body := if b then st_msg st else st_cond st) in *.
      assert (calls = true /\ Forall (gentle env calls (length (p_bv s))) l /\ callable env f (mkFc gs k nm (Some st)) st /\
              counted env body /\ gentle env calls (S (length (st_args st))) body /\ (length (p_bv s) <= S (length (st_args st)) \/ flat env body))
        as (Hcalls & Ha & Hcl & Cb & Hb & Hcap).
      { unfold l, body. rewrite Forall_forall. inversion Hp as [| | | | | |? ? ? C Hs|? ? ? l' C Hl' Hs|]; subst; destruct (Hs _ st Ef eq_refl) as (? & ? & ? & ?);
          (split; [auto|split; [|auto]]); auto. intros a []. }
      destruct Hcl as ((ss & Ek) & Enm & Hd & Hnp). cbn [fc_kind fc_name] in Ek, Enm. subst k.
      unfold parse_app in Hl. apply bind_done in Hl; destruct Hl as (fc & s1' & Hg & Hl).
      apply get_function_spec in Hg. destruct Hg as [-> Hg]. rewrite Hd in Hg. injection Hg as <-.
      apply app_step_inv in Hl; auto. destruct Hl as (fs0 & l' & E0 & E1 & P1 & Hl'). injection E0 as <- <-.
      apply bind_done in H; destruct H as (t & s2 & H2 & H). apply with_bv_done in H2. destruct H2 as (s3 & H2 & ->).
      pose proof H2 as H2b.
      assert (Es : step_bvars st = named_vars 0 (st_args st ++ [(n_in, SMessage)])).
      { unfold step_bvars. rewrite named_vars_app. reflexivity. }
      rewrite Es in *.
      apply Hrec in H2; [|cbn [p_bv]; rewrite named_vars_length, app_length; cbn [length]; rewrite Nat.add_1_r; auto
                         |exact (numbered_named (st_args st ++ [(n_in, SMessage)]) [] numbered_nil)].
      destruct H2 as [[E3 (l3 & Q3 & N3)] [W3 V3]].
      cbn [p_bv p_qs] in *. rewrite E3 in *. rewrite named_vars_length, app_length in W3. cbn [length] in W3. rewrite Nat.add_1_r in W3.
      destruct (Nat.eqb (length fs) (length (st_args st))) eqn:Lf; [|discriminate]. apply Nat.eqb_eq in Lf. cbn [negb] in H.
      set (fs' := fs ++ [FFun (Fmacro MInput) [FFun gh fs]]) in *.
      assert (Lf' : length fs' = S (length (st_args st))) by (unfold fs'; rewrite app_length; cbn; lia).
      apply lift_opt_done in H. destruct H as [Hg ->]. cbn [p_bv p_qs] in *.
      destruct (c05 (seq 0 (S (length (st_args st)))) fs' t) as (_ & _ & _ & _ & _ & C). rewrite seq_length in C.
      rewrite (proj2 (C (eq_sym Lf'))) in Hg. clear C.
      assert (Wfs : Forall (well_scoped (length (p_bv s1))) fs).
      { apply Forall_forall. intros x Hx. exact (post_scoped (p_bv s1) (p_qs s1) (fun t => t) (fun _ => r) l' fs x P1 Hx). }
      apply (call_scoped (length (p_bv s1))) in Hg; auto.
      2:{ apply Forall_forall. unfold fs'. apply Forall_app. split; auto. constructor; [|constructor]. apply ws_fun. constructor; [|constructor]. apply ws_fun. auto. }
      2:{ rewrite (proj1 E1). destruct Hcap as [Hcap|Hcap]; [auto|right]. apply Hnb in H2b; auto. }
      destruct Hg as [Wg Vg].
      split.
      { eapply ext_trans; [exact E1|]. split; auto. exists l3. split; auto. eapply newqs_calls; eauto. }
      split; auto.
      intros Hsh Hc Hnd M qsem mval U Q R rho.
      assert (Hcl : Forall (counted env) l /\ length l <= length ss).
      { unfold l. destruct args as [l0|]; [|cbn; split; [constructor|lia]]. apply everywhere_step in Hc. destruct Hc as [Hc1 Hc2]. split; auto.
        cbn in Hc1. eapply Hc1; [eassumption|reflexivity]. }
      destruct Hcl as [Cl Ll]. rewrite (Hl' Ll) in P1.
      rewrite Vg, (V3 Hsh Cb) with (qsem := qsem) (mval := mval); auto; [|rewrite named_vars_names, map_app; auto].
      assert (R1 : respects qsem (p_qs s1)) by (rewrite Q3 in R; eapply respects_app; eauto).
      assert (Ev : map (fun f => eval f rho) fs = map (fun a => value env qsem mval a r (scope_of (p_bv s1) rho)) l).
      { apply (map_post (p_bv s1) (p_qs s1) r l fs M qsem mval rho); auto. }
      replace (value env qsem mval (TStepMac b f args) r (scope_of (p_bv s1) rho)) with
        (mval (CStep b f) r (map (fun a => value env qsem mval a RSymbolic (scope_of (p_bv s1) rho)) l) (map (fun a => value env qsem mval a REvaluated (scope_of (p_bv s1) rho)) l))
        by (unfold l; destruct args; reflexivity).
      rewrite U. cbn [call_value]. rewrite Ef. cbn [fc_step fc_sym].
      replace (match r with
               | RSymbolic => map (fun a => value env qsem mval a RSymbolic (scope_of (p_bv s1) rho)) l
               | REvaluated => map (fun a => value env qsem mval a REvaluated (scope_of (p_bv s1) rho)) l
               end) with (map (fun a => value env qsem mval a r (scope_of (p_bv s1) rho)) l) by (destruct r; reflexivity).
      apply value_ext; auto. intros y.
      pose proof (scope_named (st_args st ++ [(n_in, SMessage)]) [] (fun i => match nth_error fs' i with Some f => eval f rho | None => rho i end) numbered_nil y) as S.
      cbn [List.app length] in S. rewrite S. rewrite app_length. cbn [length]. rewrite Nat.add_1_r, <- Lf', seq_values. unfold fs'. rewrite map_app. cbn [map].
      rewrite Ev. cbn [eval map]. rewrite Ev. reflexivity.
    Qed.

    Lemma parse_step_good : good (parse_step env fuel rec).
    Proof.
      intros t r es s g s' Hp Hn H. destruct t; cbn [parse_step] in H.
      - exfalso. inversion Hp.
      - apply parse_if_good in H; auto.
      - apply parse_find_good in H; auto.
      - apply parse_quant_good in H; auto.
      - apply parse_const_var_good in H; auto.
      - apply parse_app_good in H; auto.
      - apply parse_infix_good in H; auto.
      - apply parse_step_mac_good in H; auto.
      - apply parse_macro_good in H; auto.
    Qed.
  End Good.

  (** A symbolic [<=>] is never elaborated. *)
  Lemma iff_never : forall fuel ts es s f s', parse env fuel (TInfix OIff ts) RSymbolic es s <> Done f s'.
  Proof.
    induction fuel as [fuel IH] using lt_wf_ind. intros ts es s f s' H.
    destruct fuel as [|[|k]]; try discriminate. cbn [parse parse_step parse_infix parse_andor] in H.
    destruct ts as [|a [|b ts]]; try discriminate.
    change (pairs OIff (a :: b :: ts)) with (TInfix OIff [a; b] :: pairs OIff (b :: ts)) in H. cbn iota in H.
    apply bind_done in H. destruct H as (g & s1 & H & _). eapply IH in H; eauto.
  Qed.
  Lemma iff_pairs_never : forall fuel ts es s f s', parse env fuel (TInfix OAnd (pairs OIff ts)) RSymbolic es s <> Done f s'.
  Proof.
    intros [|k] ts es s f s' H; [discriminate|]. apply (iff_never (S (S k)) ts es s f s'). exact H.
  Qed.

  Theorem parse_good : forall fuel, good (parse env fuel).
  Proof.
    induction fuel as [|k IH]; [intros t r es s f s' _ _ H; discriminate|].
    cbn [parse]. apply parse_step_good; auto using parse_nb. apply iff_pairs_never.
  Qed.
End Plain.
