(** Lemmas for C101: the terms of accepted files have no formula of the logic inside, their variables keep their sorts. *)
From Coq Require Import List Arith Bool Lia Permutation.
From Verif Require Import Syntax_Model Syntax_Proofs Traversal_Model Traversal_Spec Semantics_Spec Subst_Model Sort_Model Order_Model Macro_Model Parser_Model Parser_Spec Parser_Proofs Parser_More_Proofs
  Evaluate_Model File_Spec Sentence_Spec Source_Model Source_Spec Source_Closed_Spec Source_Proofs Source_More_Proofs.
From Verif Require Traversal_Proofs Expander_Spec File_Proofs Semantics_Proofs.
From Verif Require Import Subst_Spec Subst_Proofs.
Import ListNotations.

Local Notation pure := Expander_Spec.plain.
Lemma pure_var v : pure (FVar v).
Proof. intros p q vs b H. inversion H. Qed.
Lemma pure_fun s l : Forall pure l -> pure (FFun s l).
Proof. intros H p q vs b Hp. inversion Hp; subst. rewrite Forall_forall in H. eapply H; [eapply nth_error_In; eassumption|eassumption]. Qed.
Lemma at_path_then f p g q h : at_path f p g -> at_path g q h -> at_path f (p ++ q) h.
Proof. induction 1; intros; cbn; auto; econstructor; eauto. Qed.
Lemma pure_sorted f : pure f -> sorted_terms f.
Proof. intros H p s args Hp _ p' q vs b Hq. eapply H. eapply at_path_then; eassumption. Qed.

Definition user_headed (f : formula) : Prop := exists k l, f = FFun (Fuser k) l.
Lemma sorted_fun s l : ~ term_function s -> Forall sorted_terms l -> Forall (fun a => ~ user_headed a) l -> sorted_terms (FFun s l).
Proof.
  intros Hs Hl Hu p g args Hp Hg. inversion Hp; subst.
  - destruct Hg as [Hg|(-> & k & l' & Hin)]; [contradiction|]. rewrite Forall_forall in Hu. destruct (Hu _ Hin). exists k, l'. reflexivity.
  - rewrite Forall_forall in Hl. eapply (Hl a); [eapply nth_error_In; eassumption|eassumption|exact Hg].
Qed.
Lemma sorted_quant q vs b : sorted_terms b -> sorted_terms (FQ q vs b).
Proof. intros H p g args Hp Hg. inversion Hp; subst. eapply H; eassumption. Qed.

Definition vars_in (b : list (name * var)) (f : formula) : Prop := forall p v, at_path f p (FVar v) -> In v (map snd b) /\ evaluated (vsort v) = false.
Lemma vars_in_var b v : In v (map snd b) -> evaluated (vsort v) = false -> vars_in b (FVar v).
Proof. intros H E p w Hp. inversion Hp; subst. auto. Qed.
Lemma vars_in_fun b s l : Forall (vars_in b) l -> vars_in b (FFun s l).
Proof. intros H p v Hp. inversion Hp; subst. rewrite Forall_forall in H. eapply H; [eapply nth_error_In; eassumption|eassumption]. Qed.
Definition below (n : nat) (f : formula) : Prop := forall i, occurs_free i f -> i < n.
Lemma below_fun n s l : Forall (below n) l -> below n (FFun s l).
Proof. intros H i O. apply occurs_free_fun_inv in O as (a & Ha & O). rewrite Forall_forall in H. exact (H a Ha i O). Qed.
Lemma occurs_free_at i f : occurs_free i f -> exists p v, at_path f p (FVar v) /\ vid v = i.
Proof. intros (p & v & H & E & _). eauto. Qed.

(** Symbolic quantifiers: distinct variables, contents without quantifiers of the logic. *)
Definition calm (q : tquant) : Prop :=
  NoDup (map vid (tf q ++ tb q)) /\ (forall c, In c (tc q) -> pure c /\ forall i, occurs_free i c -> In i (map vid (tf q ++ tb q))) /\
  length (tc q) = match tk q with KFind => 3 | _ => 1 end.
Definition result (r : realm) (b : list (name * var)) (f : formula) : Prop :=
  match r with RSymbolic => pure f /\ vars_in b f | REvaluated => sorted_terms f /\ ~ user_headed f /\ below (length b) f end.
Lemma vars_below b f : numbered b -> vars_in b f -> below (length b) f.
Proof.
  intros Hn Hv i O. apply occurs_free_at in O as (p & v & Hp & <-). destruct (Hv _ _ Hp) as [Hi _]. apply in_map_iff in Hi as ((x & w) & <- & Hi). apply In_nth_error in Hi as (j & Hj).
  cbn [snd]. rewrite (Hn _ _ _ Hj). apply nth_error_Some. congruence.
Qed.
Lemma result_below r b f : numbered b -> result r b f -> below (length b) f.
Proof. intros Hn. destruct r; [intros [_ H]; apply vars_below; assumption|intros (_ & _ & H); exact H]. Qed.
Lemma result_sym b s l : Forall (result RSymbolic b) l -> result RSymbolic b (FFun s l).
Proof. intros H. split; [apply pure_fun|apply vars_in_fun]; (eapply Forall_impl; [|exact H]; intros ? []; assumption). Qed.
Lemma result_logic b s l : ~ term_function s -> Forall (result REvaluated b) l -> result REvaluated b (FFun s l).
Proof.
  intros Hs H. split; [apply sorted_fun; [exact Hs|eapply Forall_impl; [|exact H]; intros ? (? & ? & ?); assumption..]|]. split; [intros (j & l' & E); injection E as -> _; apply Hs; exact I|].
  apply below_fun. eapply Forall_impl; [|exact H]. intros ? (? & ? & ?); assumption.
Qed.
Lemma result_term b f : pure f -> ~ user_headed f -> below (length b) f -> result REvaluated b f.
Proof. intros H Hu Hb. split; [apply pure_sorted; exact H|]. auto. Qed.
Lemma result_eval b so f : numbered b -> result RSymbolic b f -> result REvaluated b (FFun (Feval so) [f]).
Proof.
  intros Hn H. apply result_term; [apply pure_fun; constructor; [apply H|constructor]|intros (j & l & E); discriminate|]. apply below_fun. constructor; [|constructor]. exact (result_below RSymbolic b f Hn H).
Qed.
Definition symbolic_es (es : option proxy) : Prop := exists so, es = Some (PStatic so) /\ evaluated so = false.

(** ** Substitution *)
Definition image (r : realm) (b : list (name * var)) (so : sort) (f : formula) : Prop :=
  (r = RSymbolic -> evaluated so = false -> pure f /\ vars_in b f) /\ (r = REvaluated -> pure f /\ ~ user_headed f /\ below (length b) f).
Lemma Forall2_len {A B} (P : A -> B -> Prop) l l' : Forall2 P l l' -> length l = length l'.
Proof. induction 1; cbn; auto. Qed.
Lemma Forall2_at {A B} (P : A -> B -> Prop) l l' : Forall2 P l l' -> forall i a b, nth_error l i = Some a -> nth_error l' i = Some b -> P a b.
Proof. induction 1; intros [|i] a b Ha Hb; cbn in *; try discriminate; [congruence|eauto]. Qed.
Lemma Forall2_back {A B} (P : A -> B -> Prop) l l' : Forall2 P l l' -> forall i b, nth_error l' i = Some b -> exists a, nth_error l i = Some a /\ P a b.
Proof. induction 1; intros [|i] b Hb; cbn in *; try discriminate; [exists x; split; congruence|eauto]. Qed.
Lemma named_vars_nth l : forall n i, nth_error (named_vars n l) i = match nth_error l i with Some (x, s) => Some (x, mkVar (n + i) s) | None => None end.
Proof. induction l as [|[x s] l IH]; intros n [|i]; cbn; auto; [rewrite Nat.add_0_r; reflexivity|]. rewrite IH. destruct (nth_error l i) as [[]|]; auto. rewrite Nat.add_succ_r. reflexivity. Qed.

Section Subst.
  Variable sub : Subst_Model.subst.
  Local Notation R := (fun v t => sub v = Some t).
  Lemma sub_sym b0 b : (forall v f, In v (map snd b0) -> evaluated (vsort v) = false -> sub v = Some f -> pure f /\ vars_in b f) ->
    forall t g, replaces R t g -> pure t -> vars_in b0 t -> pure g /\ vars_in b g.
  Proof.
    intros Hs. induction t as [v|s args IH|q vs c IH] using formula_ind'; intros g H Hp Hv.
    - inversion H; subst. destruct (Hv [] v ltac:(constructor)) as [Hi He]. eauto.
    - inversion H as [|? ? args' HF|]; subst. apply (result_sym b s args'). apply Forall_forall. intros a Ha. apply In_nth_error in Ha as (i & Hi).
      destruct (Forall2_back _ _ _ HF _ _ Hi) as (a0 & Ha0 & Hr). rewrite Forall_forall in IH. apply (IH a0); [eapply nth_error_In; exact Ha0|exact Hr| |].
      + intros p q vs c Hat. apply (Hp (i :: p) q vs c). econstructor; eauto.
      + intros p v Hat. apply (Hv (i :: p) v). econstructor; eauto.
    - elim (Hp [] q vs c). constructor.
  Qed.
  Hypothesis Hs : forall v f, sub v = Some f -> pure f /\ ~ user_headed f.
  Lemma sub_headed t g : replaces R t g -> user_headed g -> user_headed t.
  Proof. intros H (k & l & ->). inversion H; subst; [exfalso; apply (proj2 (Hs v _ ltac:(eassumption))); exists k, l; reflexivity|]. eexists. eexists. reflexivity. Qed.
  Lemma sub_pure : forall t g, replaces R t g -> pure t -> pure g.
  Proof.
    induction t as [v|s args IH|q vs c IH] using formula_ind'; intros g H Hp.
    - inversion H; subst. eapply Hs; eassumption.
    - inversion H as [|? ? args' HF|]; subst. apply pure_fun. apply Forall_forall. intros a Ha. apply In_nth_error in Ha as (i & Hi).
      destruct (Forall2_back _ _ _ HF _ _ Hi) as (a0 & Ha0 & Hr). rewrite Forall_forall in IH. apply (IH a0); [eapply nth_error_In; exact Ha0|exact Hr|].
      intros p q vs c Hat. apply (Hp (i :: p) q vs c). econstructor; eauto.
    - elim (Hp [] q vs c). constructor.
  Qed.
  Lemma sub_sorted : forall t g, replaces R t g -> sorted_terms t -> sorted_terms g.
  Proof.
    induction t as [v|s args IH|q vs c IH] using formula_ind'; intros g H Hp.
    - inversion H; subst. apply pure_sorted. eapply Hs; eassumption.
    - pose proof H as H'. inversion H as [|? ? args' HF|]; subst. intros p h l Hat Hh. inversion Hat; subst.
      + apply (sub_pure (FFun h args) _ H'). apply (Hp []); [constructor|]. destruct Hh as [Hh|(-> & k & l' & Hin)]; [left; exact Hh|right]. split; [reflexivity|].
        apply In_nth_error in Hin as (i & Hi). destruct (Forall2_back _ _ _ HF _ _ Hi) as (a0 & Ha0 & Hr). destruct (sub_headed _ _ Hr) as (k' & l0 & ->); [exists k, l'; reflexivity|]. exists k', l0. eapply nth_error_In. exact Ha0.
      + match goal with Hn : nth_error args' _ = Some _ |- _ => destruct (Forall2_back _ _ _ HF _ _ Hn) as (a0 & Ha0 & Hr) end. rewrite Forall_forall in IH.
        eapply (IH a0); [eapply nth_error_In; exact Ha0|exact Hr| |eassumption|exact Hh]. intros p' h' l' Hat' Hh'. apply (Hp (i :: p')); [econstructor; eauto|exact Hh'].
    - inversion H; subst. apply sorted_quant. apply IH; [assumption|]. intros p h l Hat Hh. apply (Hp (0 :: p)); [constructor; exact Hat|exact Hh].
  Qed.
  Lemma sub_free n k : (forall v f, sub v = Some f -> vid v < k /\ below n f \/ k <= vid v /\ f = FVar v) ->
    forall t g, replaces R t g -> forall i, occurs_free i g -> i < n \/ k <= i /\ occurs_free i t.
  Proof.
    intros Hk. induction t as [v|s args IH|q vs c IH] using formula_ind'; intros g H i O.
    - inversion H as [? ? Hv| |]; subst. destruct (Hk _ _ Hv) as [[_ L]|[L ->]]; [left; exact (L i O)|right]. split; [apply occurs_free_var_inv in O; subst i; exact L|exact O].
    - inversion H as [|? ? args' HF|]; subst. apply occurs_free_fun_inv in O as (a & Ha & O). apply In_nth_error in Ha as (j & Hj). destruct (Forall2_back _ _ _ HF _ _ Hj) as (a0 & Ha0 & Hr).
      rewrite Forall_forall in IH. destruct (IH a0 (nth_error_In _ _ Ha0) _ Hr _ O) as [L|[L O']]; [auto|right]. split; [exact L|]. eapply Semantics_Proofs.occurs_free_fun; [eapply nth_error_In; exact Ha0|exact O'].
    - inversion H; subst. apply occurs_free_quant_inv in O as [O No]. destruct (IH _ ltac:(eassumption) _ O) as [L|[L O']]; [auto|right]. split; [exact L|]. apply Semantics_Proofs.occurs_free_quant; assumption.
  Qed.
End Subst.

Lemma subst_result r b b0 fs t g : length fs = length b0 -> (forall i x v f, nth_error b0 i = Some (x, v) -> nth_error fs i = Some f -> image r b (vsort v) f) -> numbered b0 -> result r b0 t ->
  sapply (multiple (combine (seq 0 (length fs)) fs)) t = Some g -> result r b g.
Proof.
  intros Lf Hi Hn Hr H. apply sapply_replaces in H.
  assert (Get : forall v f, multiple (combine (seq 0 (length fs)) fs) v = Some f -> (exists x w, nth_error b0 (vid v) = Some (x, w) /\ image r b (vsort w) f) \/ length b0 <= vid v /\ f = FVar v).
  { intros v f E. unfold multiple in E. rewrite maybe_get_seq in E by reflexivity. cbn in E. rewrite Nat.sub_0_r in E. destruct (nth_error fs (vid v)) as [f'|] eqn:Ef.
    - injection E as <-. left. destruct (nth_error b0 (vid v)) as [[x w]|] eqn:Eb; [exists x, w; split; [reflexivity|]; eapply Hi; eauto|].
      apply nth_error_None in Eb. assert (L : nth_error fs (vid v) <> None) by congruence. apply nth_error_Some in L. lia.
    - injection E as <-. right. apply nth_error_None in Ef. split; [lia|reflexivity]. }
  destruct r.
  - destruct Hr as [P V]. refine (sub_sym _ b0 b _ t g H P V). intros v f Hv Ev Ef. apply in_map_iff in Hv as ((x & v') & E & Hv). cbn [snd] in E. subst v'. apply In_nth_error in Hv as (i & Hv). pose proof (Hn _ _ _ Hv) as E.
    destruct (Get _ _ Ef) as [(y & w & Hw & Im)|[L _]].
    + rewrite E, Hv in Hw. injection Hw as <- <-. apply Im; auto.
    + assert (L' : nth_error b0 i <> None) by congruence. apply nth_error_Some in L'. lia.
  - destruct Hr as (S & U & L).
    assert (Hs : forall v f, multiple (combine (seq 0 (length fs)) fs) v = Some f -> pure f /\ ~ user_headed f).
    { intros v f Ef. destruct (Get _ _ Ef) as [(y & w & _ & _ & Im)|[_ ->]]; [destruct (Im eq_refl) as (A & B & _); auto|]. split; [apply pure_var|intros (j & l & E); discriminate]. }
    split; [exact (sub_sorted _ Hs _ _ H S)|]. split; [intros Hu; apply U; exact (sub_headed _ Hs _ _ H Hu)|].
    intros i O. destruct (fun X => sub_free (multiple (combine (seq 0 (length fs)) fs)) (length b) (length b0) X t g H i O) as [Li|[Li O']]; [|exact Li|apply L in O'; lia].
    intros v f Ef. destruct (Get _ _ Ef) as [(y & w & Hw & _ & Im)|[Hl ->]]; [left|right; auto]. split; [apply nth_error_Some; congruence|]. destruct (Im eq_refl) as (_ & _ & B). exact B.
Qed.

Section Calm.
  Variable env : penv.
  Definition tame (t : term) : Prop := everywhere (tame_node env) t.
  Definition strict (rec : term -> realm -> option proxy -> M formula) : Prop :=
    forall t r es s f s', tame t -> numbered (p_bv s) -> Forall calm (p_qs s) -> (r = RSymbolic -> symbolic_es es) -> rec t r es s = Done f s' ->
      p_bv s' = p_bv s /\ Forall calm (p_qs s') /\ result r (p_bv s) f /\ (simple t -> pure f) /\ (foreign env t -> ~ user_headed f).

  Variable fuel : nat.
  Variable rec : term -> realm -> option proxy -> M formula.
  Hypothesis Hrec : strict rec.
  Hypothesis Hiff : forall ts es s f s', rec (TInfix OAnd (pairs OIff ts)) RSymbolic es s <> Done f s'.

  Lemma mapMM_strict : forall (l : list (proxy * term)) r s fs s', Forall tame (map snd l) -> numbered (p_bv s) -> Forall calm (p_qs s) ->
    (r = RSymbolic -> Forall (fun p => symbolic_es (Some (fst p))) l) ->
    mapMM (fun pt => rec (snd pt) r (Some (fst pt))) l s = Done fs s' ->
    p_bv s' = p_bv s /\ Forall calm (p_qs s') /\ Forall (result r (p_bv s)) fs /\ (Forall simple (map snd l) -> Forall pure fs).
  Proof.
    induction l as [|[p t] l IH]; intros r s fs s' Ht Hn Hq He H; cbn [mapMM map fst snd] in *.
    - inv_bind. auto.
    - apply bind_done in H; destruct H as (f & s1 & H1 & H). apply bind_done in H; destruct H as (fs' & s2 & H2 & H). unfold ret in H.
      assert (fs = f :: fs' /\ s' = s2) as [-> ->] by (split; congruence). clear H. inversion Ht as [|? ? Ht1 Ht2]; subst.
      apply Hrec in H1; auto; [|intros E; specialize (He E); inversion He; subst; assumption]. destruct H1 as (B1 & Q1 & R1 & V1 & _).
      apply IH in H2; auto; [|rewrite B1; exact Hn|intros E; specialize (He E); inversion He; subst; assumption]. destruct H2 as (B2 & Q2 & R2 & V2).
      rewrite B1 in *. split; [congruence|]. split; [exact Q2|]. split; [constructor; assumption|]. intros Hv. inversion Hv; subst. constructor; auto.
  Qed.

  Lemma in_zip_fst {A} (l : list A) : forall ps rep x, In x (zip_args ps rep l) -> In (fst x) ps \/ rep = Some (fst x).
  Proof.
    induction l as [|a l IH]; intros [|p ps] rep x H; cbn in H; try tauto.
    - destruct rep as [p|]; [|destruct H]. destruct H as [<-|H]; [auto|]. apply IH in H. tauto.
    - destruct H as [<-|H]; [cbn; auto|]. apply IH in H. cbn. tauto.
  Qed.

  Lemma app_strict r es fc args s f s' : tame_function fc -> (fc_name fc <> None -> Forall simple args) -> Forall tame args -> numbered (p_bv s) -> Forall calm (p_qs s) ->
    (r = RSymbolic -> symbolic_es es) -> parse_application rec r es fc args s = Done f s' ->
    p_bv s' = p_bv s /\ Forall calm (p_qs s') /\ result r (p_bv s) f /\ (Forall simple args -> pure f) /\ (~ user_function fc -> ~ user_headed f) /\
    (es = Some (PStatic SStep) -> out_sort (fc_kind fc) = Some SStep /\ exists nargs, f = FFun (fc_sym fc) nargs /\ Forall (result r (p_bv s)) nargs /\ (Forall simple args -> Forall pure nargs)).
  Proof.
    intros Ht Hv Ha Hn Hq He H. unfold parse_application in H.
    apply bind_done in H; destruct H as (sg & s0 & H0 & H). apply newsig_same in H0. destruct H0 as (S0 & -> & Hh).
    apply bind_done in H; destruct H as (o & s1 & H1 & H). pose proof (readp_same _ _ _ _ H1); subst s1.
    unfold readp in H1. injection H1 as <-. rewrite Hh in H. rewrite (proj1 (sig_out _ _)) in H.
    apply bind_done in H; destruct H as (nargs & s2 & H2 & H).
    set (k := fc_kind fc) in *. set (sg := snd (signature (p_heap s) k)) in *.
    set (ar := match match out_sort k with Some s => sort_realm s | None => None end with Some r' => r' | None => r end) in *.
    assert (Hsym : ar = RSymbolic -> Forall (fun p => symbolic_es (Some (fst p))) (zip_args (sargs sg) (srep sg) args)).
    { intros E. apply Forall_forall. intros x Hx. apply in_zip_fst in Hx. unfold tame_function in Ht. fold k in Ht. unfold sg, ar in *. destruct k as [ss o| | | |own]; cbn in *; try discriminate; [|destruct Ht].
      destruct Hx as [Hx|Hx]; [|discriminate]. apply in_map_iff in Hx as (so & Eso & Hso). exists so. rewrite Eso. split; [reflexivity|].
      destruct (evaluated o) eqn:Eo; [destruct o; cbn in *; discriminate|]. destruct Ht as [Ht _]. rewrite Forall_forall in Ht. exact (Ht _ Hso). }
    destruct (zip_args_snd args (sargs sg) (srep sg)) as (n & Hz & _).
    pose proof (mapMM_length _ _ _ _ _ H2) as Hlen.
    apply mapMM_strict in H2; [|rewrite Hz; apply Forall_firstn'; exact Ha|rewrite (proj1 S0); exact Hn|rewrite (proj2 S0); exact Hq|exact Hsym].
    destruct H2 as (B2 & Q2 & R2 & V2). rewrite (proj1 S0) in *.
    destruct (args_size_ok k (length nargs)) eqn:Hok; [|discriminate]. cbn [negb] in H.
    apply bind_done in H; destruct H as (o2 & s3 & H3 & H). pose proof (readp_same _ _ _ _ H3); subst s3.
    unfold readp in H3. injection H3 as Ho2.
    apply bind_done in H; destruct H as ([[f0 fr] hs] & s3 & H3 & H).
    assert (s3 = s2) by (destruct (fc_name fc) as [[]|]; unfold ret, panic in H3; congruence). subst s3.
    apply bind_done in H; destruct H as (f1 & s4 & H4 & H).
    assert (s4 = s2) by (destruct r, (sym_realm fr), hs; unfold ret, panic in H4; congruence). subst s4.
    apply bind_done in H; destruct H as (oo & s5 & H5 & H). pose proof (readp_same _ _ _ _ H5); subst s5.
    apply bind_done in H; destruct H as (u & s6 & H6 & H). unfold ret in H. injection H as <- <-.
    pose proof H6 as H6'. apply when_same in H6'.
    2:{ intros p a v b Hb. apply bind_done in Hb. destruct Hb as (? & ? & Hb & Hr). apply lift_same in Hb.
        unfold ret in Hr. injection Hr as _ <-. exact Hb. }
    split; [rewrite (proj1 H6'); exact B2|]. split; [rewrite (proj2 H6'); exact Q2|].
    assert (Hf1 : match fc_name fc, out_sort k with
                  | Some _, _ => f1 = match r with REvaluated => FFun (Feval SMessage) [FFun (Fcast SMessage) [FFun (fc_sym fc) nargs]]
                                              | RSymbolic => FFun (Fcast SMessage) [FFun (fc_sym fc) nargs] end
                  | None, Some o => f1 = match r with REvaluated => try_eval o (FFun (fc_sym fc) nargs) | RSymbolic => FFun (fc_sym fc) nargs end
                  | None, None => f1 = FFun (fc_sym fc) nargs
                  end).
    { destruct (fc_name fc) as [[]|]; unfold ret, panic in H3; try discriminate.
      - injection H3 as <- <- <-. destruct r; cbn in H4; injection H4 as <-; reflexivity.
      - injection H3 as <- <- <-. destruct (out_sort k) as [o|] eqn:Eo.
        + unfold sg in Ho2. rewrite (proj2 (sig_out _ _) _ _ Eo) in Ho2. subst o2. destruct r, o; cbn in H4; injection H4 as <-; reflexivity.
        + destruct r; cbn in H4; injection H4 as <-; reflexivity. }
    assert (Hsimple : Forall simple args -> Forall pure nargs) by (intros Hsi; apply V2; rewrite Hz; apply Forall_firstn'; exact Hsi).
    assert (Hpure : Forall simple args -> pure f1).
    { intros Hsi. apply Hsimple in Hsi.
      destruct (fc_name fc); [|destruct (out_sort k) as [[]|]]; subst f1; destruct r; cbn [try_eval]; repeat first [apply pure_fun; exact Hsi|apply pure_fun|apply Forall_nil|apply Forall_cons]. }
    assert (Huser : ~ user_function fc -> ~ user_headed f1).
    { intros Hu (j & l & E). destruct (fc_name fc) eqn:Enm; [subst f1; destruct r; discriminate E|]. apply Hu. split; [exact Enm|].
      destruct (out_sort k) as [[]|]; subst f1; destruct r; cbn [try_eval] in E; try discriminate E; injection E as E _; eauto. }
    assert (Hstep : es = Some (PStatic SStep) -> fc_name fc = None /\ out_sort k = Some SStep).
    { intros ->. assert (Eo : exists o, out_sort k = Some o) by (unfold tame_function in Ht; fold k in Ht; destruct k; cbn; eauto; destruct Ht). destruct Eo as (o & Eo).
      assert (Eout : forall h, as_option h (sout sg) = Some o) by (intros h; unfold sg; apply (proj2 (sig_out _ _)); exact Eo).
      rewrite Eo in *. assert (o2 = Some o) as -> by (rewrite <- Ho2; apply Eout). unfold readp in H5. injection H5 as Hoo. cbn [when] in H6. apply bind_done in H6 as (a & s7 & H7 & _). unfold lift, unify_rev, unify in H7. cbn [as_option] in H7.
      assert (o = SStep) as ->.
      { destruct (fc_name fc) as [[]|]; unfold ret, panic in H3; try discriminate; injection H3 as <- <- <-; destruct o; try reflexivity; exfalso; cbn in Hoo; rewrite ?Eout in Hoo; subst oo; destruct r; cbn in H7; rewrite ?Eout in H7; cbn in H7; discriminate H7. }
      split; [|reflexivity]. unfold tame_function in Ht. fold k in Ht. destruct k; cbn in Eo; try discriminate. injection Eo as ->. cbn in Ht. apply Ht. }
    split; [|split; [exact Hpure|split; [exact Huser|]]].
    2:{ intros Es. destruct (Hstep Es) as [Enm Eo]. split; [exact Eo|]. exists nargs. rewrite Enm, Eo in Hf1. split; [destruct r; exact Hf1|]. split; [|exact Hsimple]. unfold ar in R2. rewrite Eo in R2. exact R2. }
    clear Huser Hstep Hpure.
    assert (Hrej : forall o, out_sort k = Some o -> evaluated o = true -> r = RSymbolic -> fc_name fc = None -> False).
    { intros o Eo Ev -> Enm. destruct (He eq_refl) as (so & -> & Es). assert (o2 = Some o) as -> by (rewrite <- Ho2; unfold sg; apply (proj2 (sig_out _ _)); exact Eo).
      cbn [when] in H6. apply bind_done in H6 as (a & s7 & H7 & _). unfold lift, unify_rev, unify in H7. cbn [as_option] in H7.
      assert (Eout : forall h, as_option h (sout sg) = Some o) by (intros h; unfold sg; apply (proj2 (sig_out _ _)); exact Eo).
      assert (Hne : eq_realm RSymbolic so o = false).
      { unfold eq_realm. rewrite orb_false_r. destruct (sort_eqb so o) eqn:E; [|reflexivity]. apply sort_eqb_eq in E. congruence. }
      destruct o; cbn [evaluated] in Ev; try discriminate; cbn [sym_realm] in H7; rewrite Eout, Hne in H7; discriminate. }
    unfold tame_function in Ht. fold k in Ht. unfold ar in R2.
    assert (Hbool : out_sort k = Some SBool -> sort_realm SBool = Some REvaluated -> fc_name fc = None -> ~ term_function (fc_sym fc) -> Forall (result REvaluated (p_bv s)) nargs -> result r (p_bv s) f1).
    { intros Eo _ Enm Hnt F. rewrite Enm, Eo in Hf1. destruct r; [exfalso; eapply Hrej; eauto|]. cbn in Hf1. subst f1. apply result_logic; assumption. }
    destruct k as [ss o| | | |own] eqn:Ek; cbn [out_sort] in *; try (destruct Ht as [Enm Hnt]; apply Hbool; auto; fail); [|destruct Ht].
    destruct (evaluated o) eqn:Ev.
    - destruct Ht as [Enm Hnt]. rewrite Enm in Hf1. destruct r; [exfalso; eapply Hrej; eauto|]. assert (f1 = FFun (fc_sym fc) nargs) as -> by (destruct o; cbn in Ev; try discriminate; exact Hf1).
      apply result_logic; [exact Hnt|]. destruct o; cbn in Ev, R2; try discriminate; exact R2.
    - destruct Ht as [Hss Ho].
      assert (Hev : sort_realm o = Some RSymbolic -> fc_name fc = None -> (o = SMessage \/ o = SCondition) -> result r (p_bv s) f1).
      { intros Er Enm Eo. rewrite Er in R2. rewrite Enm in Hf1. destruct r; [subst f1; apply result_sym; exact R2|]. destruct Eo as [-> | ->]; subst f1; apply result_eval; auto; apply result_sym; exact R2. }
      assert (Hno : sort_realm o = None -> fc_name fc = None -> ~ term_function (fc_sym fc) -> result r (p_bv s) f1).
      { intros Er Enm Hnt. rewrite Er in R2. rewrite Enm in Hf1. destruct r; [subst f1; apply result_sym; exact R2|].
        assert (f1 = FFun (fc_sym fc) nargs) as -> by (destruct o; cbn in Er; try discriminate; exact Hf1). apply result_logic; assumption. }
      destruct o; cbn [evaluated realmless] in *; try discriminate; try (apply Hev; tauto); try (apply Hno; tauto); try (destruct Ho as (_ & Ho & _); discriminate).
      (* names *)
      cbn [sort_realm] in R2. rewrite Ho in Hf1. assert (P : Forall pure nargs) by (apply Hsimple, Hv; congruence).
      destruct r; subst f1; [apply result_sym; constructor; [apply result_sym; exact R2|constructor]|].
      apply result_term; [repeat first [apply pure_fun; exact P|apply pure_fun|apply Forall_nil|apply Forall_cons]|intros (j & l & E); discriminate|].
      apply below_fun. constructor; [|constructor]. apply below_fun. constructor; [|constructor]. apply below_fun. eapply Forall_impl; [|exact R2]. intros a Hra. exact (result_below REvaluated _ _ Hn Hra).
  Qed.

  Lemma free_var_in f l v : free_vars fuel f = Some l -> In v l -> exists p, at_path f p (FVar v).
  Proof.
    intros H Hin. destruct (Traversal_Proofs.free_vars_exact f) as (n & out & Hn & ps & _ & Hlen & Hs & Hc).
    assert (E : out = l).
    { specialize (Hn (Nat.max n fuel) ltac:(lia)). apply (Traversal_Proofs.pile_collect_mono _ _ (Nat.max n fuel)) in H; [|lia]. unfold free_vars, iter_with in Hn. congruence. }
    subst l. apply In_nth_error in Hin as (k & Hk). destruct (nth_error ps k) as [p|] eqn:E.
    - destruct (Hs _ _ _ E Hk) as (g & Hp & -> & Hb). exists p. exact Hp.
    - apply nth_error_None in E. assert (L : nth_error out k <> None) by congruence. apply nth_error_Some in L. lia.
  Qed.
  Lemma fv_all_in b : forall fs s l s', fv_all fuel fs s = Done l s' -> Forall (vars_in b) fs -> forall v, In v l -> In v (map snd b) /\ evaluated (vsort v) = false.
  Proof.
    induction fs as [|f fs IH]; intros s l s' H Hf v Hv; cbn in H.
    - inv_bind. destruct Hv.
    - destruct (free_vars fuel f) as [lf|] eqn:E; [|discriminate]. apply bind_done in H; destruct H as (l' & s1 & H1 & H).
      unfold ret in H. injection H as <- <-. inversion Hf; subst. apply in_app_iff in Hv as [Hv|Hv]; [|eapply IH; eauto].
      destruct (free_var_in _ _ _ E Hv) as (p & Hp). eauto.
  Qed.
  Lemma unique_nodup : forall l seen, NoDup (unique seen l) /\ forall v, In v (unique seen l) -> In v l /\ ~ In v seen.
  Proof.
    induction l as [|v l IH]; intros seen; cbn [unique]; [split; [constructor|intros ? []]|]. destruct (in_dec var_eq_dec' v seen) as [Hi|Hi].
    - destruct (IH seen) as [N U]. split; [exact N|]. intros w Hw. apply U in Hw. cbn. tauto.
    - destruct (IH (v :: seen)) as [N U]. split.
      + constructor; [|exact N]. intros Hv. apply U in Hv as [_ Hv]. apply Hv. left. reflexivity.
      + intros w [<-|Hw]; [cbn; tauto|]. apply U in Hw. cbn in *. tauto.
  Qed.
  Lemma numbered_same b v w : numbered b -> In v (map snd b) -> In w (map snd b) -> vid v = vid w -> v = w.
  Proof.
    intros Hn Hv Hw E. apply in_map_iff in Hv as ((x & v') & <- & Hv). apply in_map_iff in Hw as ((y & w') & <- & Hw). cbn [snd] in *.
    apply In_nth_error in Hv as (i & Hi). apply In_nth_error in Hw as (j & Hj). pose proof (Hn _ _ _ Hi). pose proof (Hn _ _ _ Hj). assert (i = j) by congruence. subst j. congruence.
  Qed.
  Lemma new_quantifier_strict k vars cs s b f s' : new_quantifier fuel k vars cs s = Done f s' -> numbered b -> (forall v, In v vars -> In v (map snd b)) -> NoDup (map vid vars) ->
    Forall (fun c => pure c /\ vars_in b c) cs -> length cs = match k with KFind => 3 | _ => 1 end -> Forall calm (p_qs s) ->
    (forall v, In v (map snd b) -> In v vars \/ In v (map snd (p_bv s))) ->
    p_bv s' = p_bv s /\ Forall calm (p_qs s') /\ pure f /\ vars_in (p_bv s) f.
  Proof.
    intros H Hn Hv Hd Hc Hl Hq Hb. unfold new_quantifier in H. apply bind_done in H; destruct H as (l & s1 & H1 & H).
    assert (Hin : forall v, In v l -> In v (map snd b) /\ evaluated (vsort v) = false) by (eapply fv_all_in; [exact H1|eapply Forall_impl; [|exact Hc]; intros ? []; assumption]).
    apply fv_all_spec in H1. destruct H1 as [-> Hfv].
    apply bind_done in H; destruct H as (i & s2 & H2 & H). unfold newq in H2. injection H2 as <- <-. unfold ret in H. injection H as <- <-.
    set (fvs := filter _ _) in *. cbn [p_bv p_qs].
    assert (Hf : forall v, In v fvs -> In v l /\ ~ In (vid v) (map vid vars)).
    { intros v Hfv'. apply filter_In in Hfv' as [Hfv' Hnb]. apply unique_nodup in Hfv' as [Hfv' _]. split; [exact Hfv'|]. intros Hw. apply in_map_iff in Hw as (w & Ew & Hw).
      rewrite negb_true_iff in Hnb. assert (existsb (fun b0 => var_eqb b0 v) vars = true) by (apply existsb_exists; exists w; split; [exact Hw|apply Nat.eqb_eq; exact Ew]). congruence. }
    assert (Hvf : forall v, In v l -> ~ In (vid v) (map vid vars) -> In (vid v) (map vid fvs)).
    { intros v Hv' Hnv. pose proof (proj2 (unique_in l [] (vid v)) (or_introl (in_map vid _ _ Hv'))) as [U|[]]. apply in_map_iff in U as (w & Ew & Hw). rewrite <- Ew in *. apply in_map. apply filter_In. split; [exact Hw|].
      apply negb_true_iff. destruct (existsb _ vars) eqn:E; [|reflexivity]. apply existsb_exists in E as (u & Hu & E). apply Nat.eqb_eq in E. exfalso. apply Hnv. rewrite <- E. apply in_map. exact Hu. }
    split; [reflexivity|]. split; [|split].
    - apply Forall_app. split; [exact Hq|]. constructor; [|constructor]. split; [|split]; cbn [tf tb tc tk].
      + rewrite map_app. apply File_Proofs.NoDup_app_intro.
        * assert (Nf : NoDup fvs) by (apply NoDup_filter, unique_nodup). assert (If : forall v, In v fvs -> In v (map snd b)) by (intros v Hv'; apply Hf in Hv' as [Hv' _]; apply Hin; exact Hv'). clear -Nf If Hn. clearbody fvs.
          induction Nf as [|v m Hv N IH]; cbn [map]; [constructor|]. constructor; [|apply IH; intros w Hw; apply If; right; exact Hw].
          intros H. apply in_map_iff in H as (w & E & Hw). apply Hv. replace v with w; [exact Hw|]. apply (numbered_same b); auto; apply If; [right; exact Hw|left; reflexivity].
        * exact Hd.
        * intros j Hj Hj'. apply in_map_iff in Hj as (v & <- & Hj). apply Hf in Hj as [_ Hj]. contradiction.
      + intros c Hcin. rewrite Forall_forall in Hc. destruct (Hc c Hcin) as [Pc _]. split; [exact Pc|]. intros j Hj. rewrite map_app. apply in_app_iff.
        destruct (in_dec Nat.eq_dec j (map vid vars)); [right; assumption|]. left. assert (Hjl : In j (map vid l)) by (apply Hfv; eauto). apply in_map_iff in Hjl as (v & <- & Hvl). apply Hvf; assumption.
      + exact Hl.
    - apply pure_fun. apply Forall_forall. intros a Ha. apply in_map_iff in Ha as (v & <- & _). apply pure_var.
    - apply vars_in_fun. apply Forall_forall. intros a Ha. apply in_map_iff in Ha as (v & <- & Ha). apply Hf in Ha as [Ha1 Ha2]. apply vars_in_var; [|apply Hin; exact Ha1]. destruct (Hb v (proj1 (Hin v Ha1))) as [Hv'|Hv']; [|exact Hv'].
      destruct Ha2. apply in_map. exact Hv'.
  Qed.

  Lemma variable_strict r es v s f s' : In v (map snd (p_bv s)) -> (r = RSymbolic -> symbolic_es es) -> parse_variable r es v s = Done f s' ->
    numbered (p_bv s) -> p_bv s' = p_bv s /\ p_qs s' = p_qs s /\ result r (p_bv s) f /\ pure f /\ ~ user_headed f /\ (es = Some (PStatic SStep) -> exists v', f = FVar v').
  Proof.
    intros Hin He H Hnum. unfold parse_variable in H. destruct v as [i sv]. cbn [vsort vid] in *.
    assert (Hs : same s s' /\ ((exists t, f = FVar (mkVar i t) /\ (r = RSymbolic -> t = sv /\ evaluated sv = false)) \/ (f = FFun (Feval sv) [FVar (mkVar i sv)] /\ r = REvaluated /\ es <> Some (PStatic SStep)))).
    { assert (C : (match es with Some p => t <- lift (fun h => unify_rev h p (PStatic sv) r) ;; ret (FVar (mkVar i t)) | None => ret (FVar (mkVar i sv)) end) s = Done f s' \/
                  (r = REvaluated /\ exists e, e <> SStep /\ evaluated e = true /\ (_ <- when es (fun p => lift (fun h => matches h p e REvaluated)) ;; ret (FFun (Feval sv) [FVar (mkVar i sv)])) s = Done f s')).
      { destruct sv, r; try discriminate; first [left; exact H|right; split; [reflexivity|eexists; split; [|split; [|exact H]]; [discriminate|reflexivity]]]. }
      destruct C as [C|(-> & e & Ne & Ee & C)].
      - destruct es as [p|]; [|unfold ret in C; injection C as <- <-; split; [apply same_refl|left; eexists; split; [reflexivity|]; intros E; destruct (He E) as (? & ? & _); discriminate]].
        apply bind_done in C; destruct C as (t & s1 & H1 & C). unfold ret in C. injection C as <- <-. split; [eapply lift_same; eassumption|]. left. exists t. split; [reflexivity|].
        intros ->. destruct (He eq_refl) as (so & E & Es). injection E as ->. unfold lift, unify_rev, unify in H1. cbn [as_option] in H1.
        destruct (eq_realm RSymbolic so sv) eqn:E; [|discriminate]. unfold eq_realm in E. rewrite orb_false_r in E. apply sort_eqb_eq in E. split; congruence.
      - apply bind_done in C; destruct C as (u & s1 & H1 & C). unfold ret in C. injection C as <- <-. split; [|right; split; [reflexivity|split; [reflexivity|]]].
        + eapply when_same; [|exact H1]. cbn. intros. eapply lift_same; eauto.
        + intros ->. cbn [when] in H1. unfold lift, matches, expects in H1. cbn in H1. destruct e; cbn in *; discriminate. }
    destruct Hs as [[Hb Hq] Hf]. split; [exact Hb|]. split; [exact Hq|].
    assert (Hlt : forall t, below (length (p_bv s)) (FVar (mkVar i t))).
    { intros t j O. apply occurs_free_var_inv in O. subst j. cbn [vid]. apply in_map_iff in Hin as ((x & w) & E & Hin). cbn [snd] in E. subst w. apply In_nth_error in Hin as (j & Hj). pose proof (Hnum _ _ _ Hj) as E. cbn in E. subst j. apply nth_error_Some. congruence. }
    destruct Hf as [(t & -> & Ht)|(-> & -> & Hes)].
    - split; [|split; [apply pure_var|split; [intros (j & l & E); discriminate|eauto]]]. destruct r; [destruct (Ht eq_refl) as [-> Es]; split; [apply pure_var|apply vars_in_var; assumption]|].
      apply result_term; [apply pure_var|intros (j & l & E); discriminate|apply Hlt].
    - assert (P : pure (FFun (Feval sv) [FVar (mkVar i sv)])) by (apply pure_fun; constructor; [apply pure_var|constructor]).
      assert (U : ~ user_headed (FFun (Feval sv) [FVar (mkVar i sv)])) by (intros (j & l & E); discriminate).
      split; [|split; [exact P|split; [exact U|intros E; contradiction]]]. apply result_term; [exact P|exact U|]. apply below_fun. constructor; [apply Hlt|constructor].
  Qed.

  Lemma tame_app f l : tame (TApp f l) <-> tame_node env (TApp f l) /\ Forall tame l.
  Proof. apply everywhere_app. Qed.
  Lemma tame_infix o l : tame (TInfix o l) <-> Forall tame l.
  Proof. unfold tame. rewrite everywhere_infix. cbn [tame_node]. tauto. Qed.
  Lemma simple_app f l : simple (TApp f l) -> Forall simple l.
  Proof. cbn. intros H. induction l as [|a l IH]; [constructor|]. destruct H as [H1 H2]. constructor; auto. Qed.

  Lemma literal_tame f r fc : In f literals -> denotes env f r = Some fc -> tame_function fc /\ fc_name fc = None /\ ~ user_function fc /\ out_sort (fc_kind fc) <> Some SStep.
  Proof.
    intros Hf Hd. unfold denotes in Hd. repeat destruct Hf as [<-|Hf]; try destruct Hf; cbn in Hd; injection Hd as <-; destruct r; cbn; repeat split; auto; try discriminate; intros (_ & k & E); discriminate.
  Qed.
  Lemma denotes_other f r : ~ In f literals -> denotes env f r = e_functions env f.
  Proof.
    intros Hf. unfold denotes. destruct (in_dec Nat.eq_dec f [n_true; n_True]) as [H|_]; [exfalso; apply Hf; cbn in *; tauto|].
    destruct (in_dec Nat.eq_dec f [n_false; n_False]) as [H|_]; [exfalso; apply Hf; cbn in *; tauto|].
    destruct (Nat.eq_dec f n_not) as [H|_]; [exfalso; apply Hf; subst; cbn; tauto|reflexivity].
  Qed.

  (** What the application of a function gives in place of a step. *)
  Definition stepped (r : realm) (b : list (name * var)) (f : name) (args : list term) (g : formula) : Prop :=
    match g with
    | FFun _ nargs => ~ In f literals /\ exists fc, e_functions env f = Some fc /\ Forall (result r b) nargs /\ (Forall simple args -> Forall pure nargs)
    | _ => True
    end.
  Lemma const_strict r es x s f s' : tame_node env (TVar x) -> numbered (p_bv s) -> Forall calm (p_qs s) -> (r = RSymbolic -> symbolic_es es) -> parse_const_var env rec r es x s = Done f s' ->
    p_bv s' = p_bv s /\ Forall calm (p_qs s') /\ result r (p_bv s) f /\ (simple (TVar x) -> pure f) /\ (foreign env (TVar x) -> ~ user_headed f) /\ (es = Some (PStatic SStep) -> stepped r (p_bv s) x [] f).
  Proof.
    intros Ht Hn Hq He H. unfold parse_const_var in H. apply bind_done in H; destruct H as (b & s1 & H1 & H).
    unfold getbv in H1. injection H1 as <- <-. match type of H with context [find ?p (p_bv s)] => destruct (find p (p_bv s)) as [[y v]|] eqn:F end.
    - apply variable_strict in H; [|apply find_some in F as [F _]; apply in_map_iff; exists (y, v); auto|exact He|exact Hn]. destruct H as (B & Q & R & P & U & E). rewrite Q. repeat split; auto.
      intros Es. destruct (E Es) as (v' & ->). exact I.
    - apply bind_done in H; destruct H as (fc & s1 & H1 & H). apply get_function_spec in H1. destruct H1 as [-> Hd].
      assert (Hfc : fc_kind fc = SgIte \/ tame_function fc).
      { destruct (in_dec Nat.eq_dec x literals) as [Hl|Hl]; [right; eapply literal_tame; eauto|]. rewrite denotes_other in Hd by exact Hl. destruct Ht as [Ht|Ht]; [contradiction|]. exact (Ht _ Hd). }
      destruct Hfc as [Hk|Hfc].
      + exfalso. unfold parse_application in H. rewrite Hk in H. apply bind_done in H; destruct H as (sg & s0 & H0 & H). apply bind_done in H; destruct H as (o & s1 & H1 & H).
        replace (zip_args (sargs sg) (srep sg) (@nil term)) with (@nil (proxy * term)) in H by (destruct (sargs sg), (srep sg); reflexivity). apply bind_done in H; destruct H as (nargs & s2 & H2 & H). cbn in H2. injection H2 as <- <-. discriminate.
      + apply app_strict in H; auto. destruct H as (B & Q & R & P & U & E). split; [exact B|]. split; [exact Q|]. split; [exact R|]. split; [intros _; apply P; constructor|].
        destruct (in_dec Nat.eq_dec x literals) as [Hl|Hl].
        * destruct (literal_tame _ _ _ Hl Hd) as (_ & _ & Nu & No). split; [auto|]. intros Es. destruct (E Es) as [Eo _]. contradiction.
        * rewrite denotes_other in Hd by exact Hl. split; [intros [Hf|Hf]; [contradiction|apply U, Hf; exact Hd]|]. intros Es. destruct (E Es) as (_ & nargs & -> & R' & P'). split; [exact Hl|]. eauto.
  Qed.

  Lemma app_name_strict r es f args s g s' : tame_node env (TApp f args) -> Forall tame args -> numbered (p_bv s) -> Forall calm (p_qs s) -> (r = RSymbolic -> symbolic_es es) -> parse_app env rec r es f args s = Done g s' ->
    p_bv s' = p_bv s /\ Forall calm (p_qs s') /\ result r (p_bv s) g /\ (simple (TApp f args) -> pure g) /\ (foreign env (TApp f args) -> ~ user_headed g) /\ (es = Some (PStatic SStep) -> stepped r (p_bv s) f args g).
  Proof.
    intros Ht Ha Hn Hq He H. unfold parse_app in H. apply bind_done in H; destruct H as (fc & s1 & H1 & H). apply get_function_spec in H1. destruct H1 as [-> Hd].
    assert (Hfc : tame_function fc /\ (fc_name fc <> None -> Forall simple args)).
    { destruct (in_dec Nat.eq_dec f literals) as [Hl|Hl]; [destruct (literal_tame _ _ _ Hl Hd) as (T & N & _); split; [exact T|congruence]|]. rewrite denotes_other in Hd by exact Hl. destruct Ht as [Ht|Ht]; [contradiction|]. exact (Ht _ Hd). }
    destruct Hfc as [Hfc Hv]. apply app_strict in H; auto. destruct H as (B & Q & R & P & U & E). split; [exact B|]. split; [exact Q|]. split; [exact R|]. split; [intros Hs; apply P; apply simple_app in Hs; exact Hs|].
    destruct (in_dec Nat.eq_dec f literals) as [Hl|Hl].
    - destruct (literal_tame _ _ _ Hl Hd) as (_ & _ & Nu & No). split; [auto|]. intros Es. destruct (E Es) as [Eo _]. contradiction.
    - rewrite denotes_other in Hd by exact Hl. split; [intros [Hf|Hf]; [contradiction|apply U, Hf; exact Hd]|]. intros Es. destruct (E Es) as (_ & nargs & -> & R' & P'). split; [exact Hl|]. eauto.
  Qed.

  Lemma truncated {A} (b : list A) l : firstn (length b) (b ++ l) = b.
  Proof. rewrite firstn_app, firstn_all, Nat.sub_diag, firstn_O. apply app_nil_r. Qed.
  Lemma bound_strict b vs vars : numbered b -> bound env (length b) vs vars ->
    NoDup (map vid vars) /\ (forall v, In v vars -> In v (map snd (b ++ combine (map fst vs) vars))) /\
    (forall v, In v (map snd (b ++ combine (map fst vs) vars)) -> In v vars \/ In v (map snd b)).
  Proof.
    intros Hn H. destruct (bound_ids _ _ _ _ H) as (H1 & _ & H3). rewrite H1. split; [apply seq_NoDup|].
    assert (E : map snd (combine (map fst vs) vars) = vars).
    { clear -H3. revert vars H3. induction vs as [|x vs IH]; intros [|v vars] H; cbn in *; try discriminate; [reflexivity|]. rewrite IH by congruence. reflexivity. }
    rewrite map_app, E. split; intros v Hv; [|apply in_app_iff in Hv; tauto]. apply in_app_iff. auto.
  Qed.
  Lemma vars_in_more b b' f : vars_in b f -> vars_in (b ++ b') f.
  Proof. intros H p v Hp. destruct (H p v Hp) as [Hi He]. split; [|exact He]. rewrite map_app. apply in_app_iff. left. exact Hi. Qed.

  Lemma quant_strict r es q vs b s g s' : tame (TQuant q vs b) -> numbered (p_bv s) -> Forall calm (p_qs s) ->
    parse_quant env fuel rec r es q vs b s = Done g s' -> p_bv s' = p_bv s /\ Forall calm (p_qs s') /\ result r (p_bv s) g.
  Proof.
    intros Ht Hn Hq H. assert (Hb : tame b) by (destruct Ht as [_ Ht]; exact Ht). unfold parse_quant in H.
    apply bind_done in H; destruct H as (u & s1 & H1 & H). apply when_same in H1; [|intros; eapply lift_same; eauto].
    apply bind_done in H; destruct H as (bn & s2 & H2 & H). unfold getbv in H2. injection H2 as <- <-.
    apply bind_done in H; destruct H as (vars & s2 & H2 & H). apply bindings_good in H2. destruct H2 as (B2 & Q2 & Bd & Nd).
    rewrite (proj1 H1) in *. rewrite (proj2 H1) in Q2.
    apply bind_done in H; destruct H as (c & s3 & H3 & H). apply Hrec in H3; auto; [|rewrite B2; apply (bound_numbered env); auto|rewrite Q2; exact Hq|intros ->; eexists; split; reflexivity].
    destruct H3 as (E3 & Q3 & R3 & _). rewrite B2 in *.
    apply bind_done in H; destruct H as (u2 & s4 & H4 & H). unfold truncbv in H4. injection H4 as _ <-. rewrite E3, truncated in H.
    destruct (bound_strict _ _ _ Hn Bd) as (N & I1 & I2).
    destruct r.
    - apply new_quantifier_strict with (b := p_bv s ++ combine (map fst vs) vars) in H; auto.
      + apply (bound_numbered env); assumption.
      + destruct q; reflexivity.
    - unfold ret in H. injection H as <- <-. cbn [p_bv p_qs]. split; [reflexivity|]. split; [exact Q3|]. destruct R3 as (R3 & _ & L3). split; [apply sorted_quant; exact R3|]. split; [intros (j & l & E); discriminate|].
      intros i O. apply occurs_free_quant_inv in O as [O No]. apply L3 in O. destruct (Nat.lt_ge_cases i (length (p_bv s))) as [L|L]; [exact L|]. elim No. apply (proj2 (bound_new _ _ _ _ Bd)).
      rewrite app_length, combine_length, map_length in O. lia.
  Qed.

  Lemma find_strict r es vs c l d s g s' : tame (TFind vs c l d) -> numbered (p_bv s) -> Forall calm (p_qs s) ->
    parse_find env fuel rec r es vs c l d s = Done g s' -> p_bv s' = p_bv s /\ Forall calm (p_qs s') /\ result r (p_bv s) g.
  Proof.
    intros Ht Hn Hq H. assert (Hb : tame c /\ tame l /\ tame d) by (destruct Ht as (_ & A1 & A2 & A3); repeat split; assumption).
    destruct Hb as (Tc & Tl & Td). unfold parse_find in H.
    apply bind_done in H; destruct H as (u & s1 & H1 & H). apply when_same in H1; [|intros; eapply lift_same; eauto].
    apply bind_done in H; destruct H as (d' & s1' & Hd & H). apply Hrec in Hd; auto; [|rewrite (proj1 H1); auto|rewrite (proj2 H1); auto|intros _; eexists; split; reflexivity].
    destruct Hd as (Ed & Qd & Rd & _). rewrite (proj1 H1) in *.
    apply bind_done in H; destruct H as (bn & s2 & H2 & H). unfold getbv in H2. injection H2 as <- <-.
    apply bind_done in H; destruct H as (vars & s2 & H2 & H). apply bindings_good in H2. destruct H2 as (B2 & Q2 & Bd & Nd). rewrite Ed in *.
    apply bind_done in H; destruct H as (c' & s3 & H3 & H). apply Hrec in H3; auto; [|rewrite B2; apply (bound_numbered env); auto|rewrite Q2; exact Qd|intros _; eexists; split; reflexivity].
    destruct H3 as (E3 & Q3 & R3 & _). rewrite B2 in *.
    apply bind_done in H; destruct H as (l' & s4 & H4 & H). apply Hrec in H4; auto; [|rewrite E3; apply (bound_numbered env); auto|intros _; eexists; split; reflexivity].
    destruct H4 as (E4 & Q4 & R4 & _). rewrite E3 in *.
    apply bind_done in H; destruct H as (u2 & s5 & H5 & H). unfold truncbv in H5. injection H5 as _ <-. rewrite E4, truncated in H.
    destruct (bound_strict _ _ _ Hn Bd) as (N & I1 & I2).
    apply bind_done in H; destruct H as (f & s6 & H6 & H). unfold ret in H. injection H as <- <-.
    apply new_quantifier_strict with (b := p_bv s ++ combine (map fst vs) vars) in H6; auto.
    - cbn [p_bv p_qs] in H6. destruct H6 as (B6 & Q6 & P6 & V6). split; [exact B6|]. split; [exact Q6|]. destruct r; [split; assumption|]. cbn [try_eval]. apply result_eval; [exact Hn|split; assumption].
    - apply (bound_numbered env); assumption.
    - apply Forall_cons; [exact R3|]. apply Forall_cons; [exact R4|]. apply Forall_cons; [|apply Forall_nil]. destruct Rd. split; [assumption|apply vars_in_more; assumption].
  Qed.

  Lemma if_strict r es c l d s g s' : tame (TIf c l d) -> numbered (p_bv s) -> Forall calm (p_qs s) ->
    parse_if rec r es c l d s = Done g s' -> p_bv s' = p_bv s /\ Forall calm (p_qs s') /\ result r (p_bv s) g.
  Proof.
    intros Ht Hn Hq H. assert (Hb : tame c /\ tame l /\ tame d) by (destruct Ht as (_ & A1 & A2 & A3); repeat split; assumption).
    destruct Hb as (Tc & Tl & Td). unfold parse_if in H.
    apply bind_done in H; destruct H as (c' & s1 & H1 & H). apply Hrec in H1; auto; [|intros ->; eexists; split; reflexivity]. destruct H1 as (B1 & Q1 & R1 & _).
    apply bind_done in H; destruct H as (l' & s2 & H2 & H). apply Hrec in H2; auto; [|rewrite B1; auto|intros ->; eexists; split; reflexivity]. destruct H2 as (B2 & Q2 & R2 & _).
    apply bind_done in H; destruct H as (d' & s3 & H3 & H). apply Hrec in H3; auto; [|rewrite B2, B1; auto|intros ->; eexists; split; reflexivity]. destruct H3 as (B3 & Q3 & R3 & _).
    unfold ret in H. injection H as <- <-. rewrite B2, B1 in *. split; [congruence|]. split; [exact Q3|].
    assert (F : Forall (result r (p_bv s)) [c'; l'; d']) by (repeat constructor; assumption).
    destruct r; [apply result_sym; exact F|apply result_logic; [intros []|exact F]].
  Qed.

  Lemma fold_strict g es : symbolic_es es -> forall ts acc s f s', Forall tame ts -> numbered (p_bv s) -> Forall calm (p_qs s) -> pure acc /\ vars_in (p_bv s) acc ->
    fold_infix rec g RSymbolic es acc ts s = Done f s' -> p_bv s' = p_bv s /\ Forall calm (p_qs s') /\ pure f /\ vars_in (p_bv s) f.
  Proof.
    intros He. induction ts as [|t ts IH]; intros acc s f s' Ht Hn Hq Ha H; cbn [fold_infix] in H.
    - unfold ret in H. injection H as <- <-. tauto.
    - apply bind_done in H; destruct H as (h & s1 & H1 & H). inversion Ht; subst. apply Hrec in H1; auto. destruct H1 as (B1 & Q1 & R1 & _).
      apply IH in H; auto; [rewrite B1 in H; exact H|rewrite B1; exact Hn|]. rewrite B1. apply (result_sym (p_bv s) g [acc; h]). apply Forall_cons; [exact Ha|]. apply Forall_cons; [exact R1|apply Forall_nil].
  Qed.

  Lemma andor_strict r es b ts s g s' : Forall tame ts -> numbered (p_bv s) -> Forall calm (p_qs s) -> (r = RSymbolic -> symbolic_es es) ->
    parse_andor rec r es b ts s = Done g s' -> p_bv s' = p_bv s /\ Forall calm (p_qs s') /\ result r (p_bv s) g.
  Proof.
    intros Ht Hn Hq He H. destruct r; cbn [parse_andor] in H.
    - destruct ts as [|t ts]; [discriminate|]. inversion Ht; subst. apply bind_done in H; destruct H as (h & s1 & H1 & H). apply Hrec in H1; auto. destruct H1 as (B1 & Q1 & R1 & _).
      apply fold_strict in H; auto; [rewrite B1 in H; exact H|rewrite B1; exact Hn|rewrite B1; exact R1].
    - apply app_strict in H; auto; [tauto|destruct b; (split; [reflexivity|intros []])|destruct b; intros E; destruct E; reflexivity].
  Qed.

  Lemma infix_strict r es o ts s g s' : tame (TInfix o ts) -> numbered (p_bv s) -> Forall calm (p_qs s) -> (r = RSymbolic -> symbolic_es es) ->
    parse_infix rec r es o ts s = Done g s' -> p_bv s' = p_bv s /\ Forall calm (p_qs s') /\ result r (p_bv s) g.
  Proof.
    intros Ht Hn Hq He H. apply tame_infix in Ht.
    assert (Happ : forall fc, tame_function fc -> fc_name fc = None -> parse_application rec r es fc ts s = Done g s' -> p_bv s' = p_bv s /\ Forall calm (p_qs s') /\ result r (p_bv s) g).
    { intros fc T N A. apply app_strict in A; auto; [tauto|congruence]. }
    assert (Hr : forall t, tame t -> rec t r es s = Done g s' -> p_bv s' = p_bv s /\ Forall calm (p_qs s') /\ result r (p_bv s) g).
    { intros t T A. apply Hrec in A; auto. tauto. }
    assert (Hp : forall o, tame (TInfix OAnd (pairs o ts))).
    { intros o'. apply tame_infix. apply pairs_all; auto. intros a b Ha Hb. apply tame_infix. auto. }
    destruct o; cbn [parse_infix] in H.
    - destruct (Nat.eqb (length ts) 2); [|eapply Hr; [|exact H]; apply Hp]. eapply Happ; [| |exact H]; cbn; repeat constructor.
    - destruct r; [eapply Hr; [|exact H]; apply tame_infix; exact Ht|]. eapply Happ; [| |exact H]; cbn; repeat split; auto.
    - eapply Hr; [|exact H]. apply tame_app. split; [left; unfold literals, n_not; cbn [In]; tauto|]. constructor; [|constructor]. apply tame_infix. exact Ht.
    - eapply andor_strict; eauto.
    - eapply andor_strict; eauto.
    - eapply Happ; [| |exact H]; destruct r; cbn; repeat split; auto; repeat constructor.
    - destruct r; [exfalso; eapply Hiff; eauto|]. eapply Happ; [| |exact H]; cbn; repeat split; auto.
  Qed.

  (** ** Macros *)
  Hypothesis Hmacros : forall m mc, e_macros env m = Some mc -> tame (mc_body mc).
  Hypothesis Hsteps : forall f fc sc, e_functions env f = Some fc -> fc_step fc = Some sc -> tame_function fc /\ fc_name fc = None /\ (let_free (st_msg sc) -> tame (st_msg sc)) /\ (let_free (st_cond sc) -> tame (st_cond sc)).

  Lemma macro_args_strict r : forall (l : list ((name * sort) * term)) s fs s', Forall tame (map snd l) ->
    Forall (fun xt => if evaluated (snd (fst xt)) || realmless (snd (fst xt)) then simple (snd xt) else foreign env (snd xt)) l -> numbered (p_bv s) -> Forall calm (p_qs s) ->
    mapMM (fun sa => let s := snd (fst sa) in rec (snd sa) (match sort_realm s with Some r' => r' | None => r end) (Some (PStatic s))) l s = Done fs s' ->
    p_bv s' = p_bv s /\ Forall calm (p_qs s') /\ Forall2 (fun xt f => image r (p_bv s) (snd (fst xt)) f) l fs.
  Proof.
    induction l as [|[[x so] t] l IH]; intros s fs s' Ht Hc Hn Hq H; cbn [mapMM map fst snd] in *.
    - unfold ret in H. injection H as <- <-. auto.
    - cbv zeta in H. apply bind_done in H; destruct H as (f & s1 & H1 & H). apply bind_done in H; destruct H as (fs' & s2 & H2 & H). unfold ret in H.
      assert (fs = f :: fs' /\ s' = s2) as [-> ->] by (split; congruence). clear H. inversion Ht as [|? ? Ht1 Ht2]; subst. inversion Hc as [|? ? Hc1 Hc2]; subst. cbn [fst snd] in Hc1.
      apply Hrec in H1; auto.
      2:{ intros E. exists so. split; [reflexivity|]. destruct so; cbn in E |- *; try reflexivity; discriminate. }
      destruct H1 as (B1 & Q1 & R1 & P1 & U1). apply IH in H2; auto; [|rewrite B1; exact Hn]. destruct H2 as (B2 & Q2 & R2). rewrite B1 in *. split; [congruence|]. split; [exact Q2|]. constructor; [|exact R2]. cbn [fst snd].
      pose proof (result_below _ _ _ Hn R1) as L1.
      split.
      + intros -> Es. destruct so; cbn in Es, R1; try discriminate; exact R1.
      + intros ->. split; [destruct so; cbn in *; try (apply P1; exact Hc1); apply R1|]. split; [|exact L1]. destruct so; cbn in *; try (apply R1); apply U1; exact Hc1.
  Qed.

  Lemma macro_strict r es m args s g s' : tame (TMac m args) -> numbered (p_bv s) -> Forall calm (p_qs s) -> (r = RSymbolic -> symbolic_es es) ->
    parse_macro env rec r es m args s = Done g s' -> p_bv s' = p_bv s /\ Forall calm (p_qs s') /\ result r (p_bv s) g.
  Proof.
    intros Ht Hn Hq He H. apply everywhere_mac in Ht as [Hm Ha]. unfold parse_macro in H. destruct (e_macros env m) as [mc|] eqn:Em; [|discriminate]. cbn [tame_node] in Hm.
    destruct (Nat.eqb (length (mc_args mc)) (length args)) eqn:El; [|discriminate]. apply Nat.eqb_eq in El. cbn [negb] in H.
    apply bind_done in H; destruct H as (fs & s1 & H1 & H). apply macro_args_strict in H1; auto.
    2:{ clear -Ha El. revert args Ha El. induction (mc_args mc) as [|x l IH]; intros [|a args] Ha El; try discriminate; [constructor|]. inversion Ha; subst. constructor; auto. }
    2:{ apply Forall_forall. intros [x t] Hin. apply In_nth_error in Hin as (i & Hi). cbn [fst snd].
        assert (E : nth_error (mc_args mc) i = Some x /\ nth_error args i = Some t).
        { clear -Hi. revert args i Hi. induction (mc_args mc) as [|y l IH]; intros [|a args] [|i] Hi; cbn in *; try discriminate; auto. injection Hi as <- <-. auto. }
        exact (Hm mc i x t Em (proj1 E) (proj2 E)). }
    destruct H1 as (B1 & Q1 & R1). apply bind_done in H; destruct H as (t & s2 & H2 & H). apply with_bv_done in H2. destruct H2 as (s3 & H2 & ->).
    assert (Nb : numbered (named_vars 0 (mc_args mc))) by exact (numbered_named (mc_args mc) [] numbered_nil).
    apply Hrec in H2; [|eapply Hmacros; eauto|exact Nb|exact Q1|exact He]. destruct H2 as (_ & Q2 & R2 & _). cbn [p_bv] in R2.
    unfold lift_opt in H. destruct (apply_substitution _ fs t) as [g0|] eqn:Ea; [|discriminate]. unfold ret in H. injection H as -> <-. cbn [p_bv p_qs]. split; [exact B1|]. split; [exact Q2|].
    assert (Lf : length fs = length (mc_args mc)).
    { apply Forall2_len in R1. rewrite combine_length in R1. lia. }
    apply apply_substitution_multiple in Ea; [|rewrite seq_length; auto]. rewrite <- Lf in Ea.
    eapply (subst_result r (p_bv s) (named_vars 0 (mc_args mc))); [rewrite named_vars_length; exact Lf| |exact Nb|exact R2|exact Ea].
    intros i x v f Hx Hf.
    assert (E : exists t0, nth_error (combine (mc_args mc) args) i = Some ((x, vsort v), t0)).
    { rewrite named_vars_nth in Hx. destruct (nth_error (mc_args mc) i) as [[y so]|] eqn:E; [|discriminate]. injection Hx as <- <-. cbn [vsort].
      destruct (nth_error args i) as [t0|] eqn:Et.
      - exists t0. clear -E Et. revert args i E Et. induction (mc_args mc) as [|z l IH]; intros [|a args] [|i] E Et; cbn in *; try discriminate; [congruence|auto].
      - apply nth_error_None in Et. assert (L : nth_error (mc_args mc) i <> None) by congruence. apply nth_error_Some in L. lia. }
    destruct E as (t0 & E). exact (Forall2_at _ _ _ R1 _ _ _ E Hf).
  Qed.

  Lemma step_mac_strict r es m f args s g s' : tame (TStepMac m f args) -> numbered (p_bv s) -> Forall calm (p_qs s) -> (r = RSymbolic -> symbolic_es es) ->
    parse_step_mac env rec r es m f args s = Done g s' -> p_bv s' = p_bv s /\ Forall calm (p_qs s') /\ result r (p_bv s) g.
  Proof.
    intros Ht Hn Hq He H. unfold parse_step_mac in H. apply bind_done in H; destruct H as (st & s1 & H1 & H).
    destruct st as [|h sargs|]; try discriminate. destruct (e_functions env f) as [[sy kd nm [sc|]]|] eqn:Ef; try discriminate.
    destruct (Hsteps _ _ _ Ef eq_refl) as (Tf & Nf & Tm & Tc). cbn [fc_name] in Nf.
    assert (Lf : let_free (st_msg sc) /\ let_free (st_cond sc)) by (destruct args; destruct Ht as [[_ Hl] _]; exact (Hl _ _ Ef eq_refl)). destruct Lf as [Lm Lc]. specialize (Tm Lm). specialize (Tc Lc).
    assert (G : p_bv s1 = p_bv s /\ Forall calm (p_qs s1) /\ Forall (result r (p_bv s)) sargs /\ Forall pure sargs).
    { assert (Hs : r = RSymbolic -> symbolic_es (Some (PStatic SStep))) by (intros _; exists SStep; auto). destruct args as [args|].
      - destruct Ht as [[Hs' _] Ht]. apply all_Forall in Ht. apply app_name_strict in H1; auto.
        + destruct H1 as (B & Q & _ & _ & _ & S). destruct (S eq_refl) as (_ & fc & _ & R & P). auto.
        + right. intros fc Hfc. rewrite Ef in Hfc. injection Hfc as <-. split; [exact Tf|]. intros _. exact Hs'.
      - apply const_strict in H1; auto.
        + destruct H1 as (B & Q & _ & _ & _ & S). destruct (S eq_refl) as (_ & fc & _ & R & P). auto.
        + right. intros fc Hfc. rewrite Ef in Hfc. injection Hfc as <-. auto. }
    destruct G as (B1 & Q1 & R1 & P1).
    apply bind_done in H; destruct H as (t & s2 & H2 & H). apply with_bv_done in H2. destruct H2 as (s3 & H2 & ->).
    assert (Es : step_bvars sc = named_vars 0 (st_args sc ++ [(n_in, SMessage)])) by (unfold step_bvars; rewrite named_vars_app; reflexivity).
    assert (Nb : numbered (step_bvars sc)) by (rewrite Es; exact (numbered_named _ [] numbered_nil)).
    apply Hrec in H2; [|destruct m; assumption|exact Nb|exact Q1|exact He]. destruct H2 as (_ & Q2 & R2 & _). cbn [p_bv] in R2.
    destruct (Nat.eqb (length sargs) (length (st_args sc))) eqn:El; [|discriminate]. apply Nat.eqb_eq in El. cbn [negb] in H.
    set (fs := sargs ++ [FFun (Fmacro MInput) [FFun sy sargs]]) in *.
    assert (Lf : length fs = S (length (st_args sc))) by (unfold fs; rewrite app_length; cbn; lia).
    unfold lift_opt in H. destruct (sapply _ t) as [g0|] eqn:Ea; [|discriminate]. unfold ret in H. injection H as -> <-. cbn [p_bv p_qs]. split; [exact B1|]. split; [exact Q2|].
    destruct (c05 (seq 0 (S (length (st_args sc)))) fs t) as (_ & _ & _ & _ & _ & C). rewrite (proj2 (C ltac:(rewrite seq_length; auto))) in Ea. rewrite <- Lf in Ea.
    eapply (subst_result r (p_bv s) (step_bvars sc)); [rewrite Lf; unfold step_bvars; rewrite app_length, named_vars_length; symmetry; apply Nat.add_1_r| |exact Nb|exact R2|exact Ea].
    intros i x v h' Hx Hf. unfold fs in Hf. assert (Hcase : In h' sargs \/ h' = FFun (Fmacro MInput) [FFun sy sargs]) by (apply nth_error_In in Hf; apply in_app_iff in Hf as [Hf|[Hf|[]]]; auto).
    rewrite Forall_forall in P1. destruct Hcase as [Hin| ->].
    - rewrite Forall_forall in R1. specialize (P1 _ Hin). specialize (R1 _ Hin). split; [intros -> _; exact R1|intros ->]. destruct R1 as (_ & U & L). auto.
    - assert (Rs : result RSymbolic (p_bv s) (FFun (Fmacro MInput) [FFun sy sargs]) \/ r = REvaluated).
      { destruct r; [left|right; reflexivity]. apply result_sym. constructor; [apply result_sym; exact R1|constructor]. }
      split; [intros -> _; destruct Rs as [Rs|Rs]; [exact Rs|discriminate]|]. intros ->. split; [apply pure_fun; constructor; [apply pure_fun, Forall_forall; exact P1|constructor]|]. split; [intros (j & l & E); discriminate|].
      apply below_fun. constructor; [|constructor]. apply below_fun. eapply Forall_impl; [|exact R1]. intros a (_ & _ & L). exact L.
  Qed.

  Lemma step_strict : strict (parse_step env fuel rec).
  Proof.
    intros t r es s g s' Ht Hn Hq He H.
    assert (Cut : (p_bv s' = p_bv s /\ Forall calm (p_qs s') /\ result r (p_bv s) g) -> (simple t -> False) -> (foreign env t -> False) ->
      p_bv s' = p_bv s /\ Forall calm (p_qs s') /\ result r (p_bv s) g /\ (simple t -> pure g) /\ (foreign env t -> ~ user_headed g)) by (intros (A1 & A2 & A3) X Y; split; [exact A1|]; split; [exact A2|]; split; [exact A3|]; split; intros Z; [elim (X Z)|elim (Y Z)]).
    destruct t; cbn [parse_step] in H.
    - destruct Ht as [[] _].
    - apply Cut; [eapply if_strict; eauto|intros []..].
    - apply Cut; [eapply find_strict; eauto|intros []..].
    - apply Cut; [eapply quant_strict; eauto|intros []..].
    - apply const_strict in H; auto; [|apply Ht]. destruct H as (? & ? & ? & ? & ? & _). auto.
    - apply tame_app in Ht as [Ht Ha]. apply app_name_strict in H; auto. destruct H as (? & ? & ? & ? & ? & _). auto.
    - apply Cut; [eapply infix_strict; eauto|intros []..].
    - apply Cut; [eapply step_mac_strict; eauto|intros []..].
    - apply Cut; [eapply macro_strict; eauto|intros []..].
  Qed.
End Calm.

(** Macros are tame; what can be called like a step is one. *)
Definition tame_macros (env : penv) : Prop :=
  (forall m mc, e_macros env m = Some mc -> tame env (mc_body mc)) /\
  (forall f fc sc, e_functions env f = Some fc -> fc_step fc = Some sc -> tame_function fc /\ fc_name fc = None /\ (let_free (st_msg sc) -> tame env (st_msg sc)) /\ (let_free (st_cond sc) -> tame env (st_cond sc))).
Theorem parse_strict env : tame_macros env -> forall fuel, strict env (parse env fuel).
Proof.
  intros [Hm Hs]. induction fuel as [|k IH]; [intros t r es s f s' _ _ _ _ H; discriminate|]. cbn [parse]. apply step_strict; [exact IH|apply iff_pairs_never|exact Hm|exact Hs].
Qed.

(** ** Lets around a term *)
Lemma simple_applicative : forall t, simple t -> applicative t.
Proof.
  induction t as [x ty t1 t2 IH1 IH2|c l d IHc IHl IHd|vs c l d IHc IHl IHd|q vs b IHb|x|f args IH|o ts IH|m f|m f l IH|m l IH] using term_ind'; intros H; try contradiction; [apply apl_var|].
  apply simple_app in H. apply apl_app. intros a Ha. rewrite Forall_forall in IH, H. auto.
Qed.
Lemma pure_occurs f p v : pure f -> at_path f p (FVar v) -> occurs_free (vid v) f.
Proof.
  revert p. induction f as [w|h args IH|q vs b IH] using formula_ind'; intros p P H.
  - inversion H; subst. exists [], v. split; [constructor|]. split; [reflexivity|]. intros O. inversion O.
  - inversion H as [|? ? i p' a ? Hi Ha|]; subst. rewrite Forall_forall in IH. eapply Semantics_Proofs.occurs_free_fun; [eapply nth_error_In; exact Hi|].
    eapply IH; [eapply nth_error_In; exact Hi| |exact Ha]. intros p2 q vs b Hat. apply (P (i :: p2) q vs b). econstructor; eauto.
  - elim (P [] q vs b). constructor.
Qed.
Lemma lets_free P T t : lets_around P T t -> let_free t -> P t.
Proof. intros [t' H|x ty t1 t2 _ _ _ _ _] F; [exact H|destruct F as [[] _]]. Qed.
Lemma lets_strict env : tame_macros env -> forall t, lets_around (tame env) (fun ty => forall so, e_sorts env ty = Some so -> evaluated so = false) t ->
  forall fuel es s f s', numbered (p_bv s) -> Forall calm (p_qs s) -> symbolic_es es -> parse env fuel t RSymbolic es s = Done f s' ->
  (exists b, p_bv s' = p_bv s ++ b) /\ numbered (p_bv s') /\ Forall calm (p_qs s') /\ result RSymbolic (p_bv s) f.
Proof.
  intros Hm. induction 1 as [t Ht|x ty t1 t2 Ha Hu Ht Hr Hc IH]; intros fuel es s f s' Hn Hq He H.
  - apply parse_strict in H; auto. destruct H as (B & Q & R & _). rewrite B. split; [exists []; rewrite app_nil_r; reflexivity|]. auto.
  - destruct fuel as [|k]; [discriminate|]. cbn [parse parse_step] in H. unfold parse_let in H.
    apply bind_done in H; destruct H as (v & s1 & H1 & H).
    assert (Hr' : evaluated (sort_named env ty) = false).
    { unfold parse_binding in H1. apply bind_done in H1 as (b & s0 & _ & H1). destruct (_ && _); [discriminate|]. cbn [snd] in H1. unfold sort_named. destruct (e_sorts env ty) as [so|]; [auto|discriminate]. }
    apply binding_good in H1. destruct H1 as (-> & B1 & Q1 & _).
    apply bind_done in H; destruct H as (f1 & s2 & H2 & H). cbn [vsort vid] in *.
    assert (Hn1 : numbered (p_bv s1)) by (rewrite B1; apply numbered_snoc; auto).
    pose proof (applicative_free _ _ _ _ _ _ _ _ (simple_applicative _ Ha) Hn1 H2) as F1.
    apply parse_strict in H2; auto; [|rewrite Q1; exact Hq|intros _; eexists; split; [reflexivity|exact Hr']]. destruct H2 as (B2 & Q2 & (P2 & V2) & _).
    apply bind_done in H; destruct H as (f2 & s3 & H3 & H).
    assert (Hs : sapply (one_var (length (p_bv s)) f1) f2 = Some f /\ s' = s3).
    { unfold lift_opt in H. destruct (sapply _ f2); [|discriminate]. unfold ret in H. injection H as <- <-. auto. } destruct Hs as [Hs ->].
    apply IH in H3; [|rewrite B2; exact Hn1|exact Q2|exact He]. destruct H3 as ((b & B3) & N3 & Q3 & P3 & V3). rewrite B2, B1 in *.
    split; [exists ([(x, mkVar (length (p_bv s)) (sort_named env ty))] ++ b); rewrite B3, app_assoc; reflexivity|]. split; [exact N3|]. split; [exact Q3|].
    apply sapply_replaces in Hs.
    refine (sub_sym _ (p_bv s ++ [(x, mkVar (length (p_bv s)) (sort_named env ty))]) (p_bv s) _ f2 f Hs P3 V3).
    intros v g Hv Ev Eg. unfold one_var in Eg. destruct (Nat.eqb (vid v) (length (p_bv s))) eqn:E; injection Eg as <-.
    + split; [exact P2|]. intros p w Hp. destruct (V2 p w Hp) as [Hi Hw]. split; [|exact Hw]. rewrite map_app, in_app_iff in Hi. destruct Hi as [Hi|[Hi|[]]]; [exact Hi|]. exfalso. cbn in Hi. subst w.
      destruct (F1 (length (p_bv s))) as (y & w & Hy & Ew & Uy).
      { exact (pure_occurs _ _ _ P2 Hp). }
      apply in_app_iff in Hy as [Hy|[Hy|[]]]; [apply numbered_in in Hy; [lia|exact Hn]|]. injection Hy as <- _. contradiction.
    + split; [apply pure_var|]. apply vars_in_var; [|exact Ev]. rewrite map_app, in_app_iff in Hv. destruct Hv as [Hv|[Hv|[]]]; [exact Hv|]. cbn in Hv. subst v. cbn in E. rewrite Nat.eqb_refl in E. discriminate.
Qed.
