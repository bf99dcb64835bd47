(** Proofs about steps and assignments (C99). *)
From Coq Require Import List Arith Bool Lia.
From Verif Require Import Syntax_Model Syntax_Proofs Traversal_Spec Subst_Model Subst_Proofs Semantics_Spec Semantics_Proofs Sort_Model Sort_Proofs Order_Model Macro_Model Parser_Model Parser_Spec Parser_Proofs Parser_More_Proofs
  Source_Model Source_Spec Source_Proofs.
Import ListNotations.

Lemma one_var_free k inp : forall f g i, sapply (one_var k inp) f = Some g -> occurs_free i g -> (occurs_free i f /\ i <> k) \/ occurs_free i inp.
Proof.
  induction f as [v|h args IH|q vs b IH] using formula_ind'; intros g i H O.
  - cbn in H. unfold one_var in H. destruct (Nat.eqb (vid v) k) eqn:E; injection H as <-; [auto|]. left. split; [exact O|]. apply occurs_free_var_inv in O. apply Nat.eqb_neq in E. congruence.
  - rewrite sapply_fun in H. destruct (mapM (sapply (one_var k inp)) args) as [l|] eqn:E; [|discriminate]. injection H as <-.
    apply occurs_free_fun_inv in O as (a & Ha & O). apply mapM_Forall2 in E.
    assert (H : exists a0, In a0 args /\ sapply (one_var k inp) a0 = Some a).
    { clear -E Ha. induction E as [|x y l1 l2 Hxy _ IHl]; [destruct Ha|]. destruct Ha as [<-|Ha]; [exists x; cbn; auto|].
      destruct (IHl Ha) as (a0 & ? & ?). exists a0. cbn. auto. }
    destruct H as (a0 & Ha0 & Hs). rewrite Forall_forall in IH. destruct (IH a0 Ha0 a i Hs O) as [[H1 H2]|H1]; [|auto]. left. split; [|exact H2]. eapply occurs_free_fun; eauto.
  - cbn in H. destruct (sapply (one_var k inp) b) as [b'|] eqn:E; [|discriminate]. injection H as <-. apply occurs_free_quant_inv in O as [O N]. destruct (IH b' i eq_refl O) as [[H1 H2]|H1]; [|auto]. left. split; [|exact H2]. apply occurs_free_quant; assumption.
Qed.
Lemma one_var_binds k inp f g i : (forall i, ~ binds i inp) -> sapply (one_var k inp) f = Some g -> binds i g -> binds i f.
Proof.
  intros Hi H B. destruct (sapply_binds f _ g i H B) as [?|(v & t & Ht & Bt)]; [assumption|]. unfold one_var in Ht. destruct (Nat.eqb (vid v) k); injection Ht as <-; [elim (Hi _ Bt)|inversion Bt].
Qed.

Lemma named_vars_ids l : forall n, map vid (map snd (named_vars n l)) = seq n (length l).
Proof. induction l as [|[x s] l IH]; intros n; cbn; [reflexivity|]. rewrite IH. reflexivity. Qed.
Lemma named_vars_sorts l : forall n, map vsort (map snd (named_vars n l)) = map snd l.
Proof. induction l as [|[x s] l IH]; intros n; cbn; [reflexivity|]. rewrite IH. reflexivity. Qed.

(** ** Lets of steps *)
Lemma applicative_gentle env n : forall t, applicative t -> gentle env true n t.
Proof.
  induction t as [x ty t1 t2 IH1 IH2|c l d IHc IHl IHd|vs c l d IHc IHl IHd|q vs b IHb|x|f args IH|o ts IH|m f|m f l IH|m l IH] using term_ind'; intros H; inversion H; subst; [apply ge_var|].
  apply ge_app. intros a Ha. rewrite Forall_forall in IH. auto.
Qed.
(** What occurs free in an application is a variable that it uses. *)
Lemma applicative_free env : forall fuel t r es s f s', applicative t -> numbered (p_bv s) -> parse env fuel t r es s = Done f s' ->
  forall i, occurs_free i f -> exists x v, In (x, v) (p_bv s) /\ vid v = i /\ ~ not_used x t.
Proof.
  induction fuel as [|fuel IH]; intros t r es s f s' Ha Hn H i O; [discriminate|].
  assert (AP : forall fc args s g s', (forall a, In a args -> applicative a) -> numbered (p_bv s) -> parse_application (parse env fuel) r es fc args s = Done g s' -> occurs_free i g ->
     exists x v a, In (x, v) (p_bv s) /\ vid v = i /\ In a args /\ ~ not_used x a).
  { clear t f Ha Hn H O s s'. intros fc args s f s' Ha Hn H O. unfold parse_application in H.
    apply bind_done in H; destruct H as (sg & s0 & H0 & H). apply newsig_same in H0. destruct H0 as (S0 & Esg & Hh).
    apply bind_done in H; destruct H as (o & s1 & H1 & H). pose proof (readp_same _ _ _ _ H1); subst s1.
    apply bind_done in H; destruct H as (nargs & s2 & H2 & H).
    destruct (zip_args_snd args (sargs sg) (srep sg)) as (n & Hz & _).
    destruct (negb (args_size_ok (fc_kind fc) (length nargs))) eqn:Hok; [discriminate|].
    apply bind_done in H; destruct H as (o2 & s3 & H3 & H). pose proof (readp_same _ _ _ _ H3); subst s3.
    apply bind_done in H; destruct H as ([[f0 fr] hs] & s3 & H4 & H).
    apply bind_done in H; destruct H as (f1 & s4 & H5 & H).
    apply bind_done in H; destruct H as (oo & s5 & H6 & H). apply bind_done in H; destruct H as (u & s6 & H7 & H). unfold ret in H. injection H as <- _.
    assert (O0 : occurs_free i f0).
    { destruct r, (sym_realm fr), hs as [[]|]; unfold ret, panic in H5; try discriminate; injection H5 as <- _; cbn [try_eval] in O; try exact O;
        apply occurs_free_fun_inv in O as (a & [<-|[]] & O); exact O. }
    assert (O1 : occurs_free i (FFun (fc_sym fc) nargs)).
    { destruct (fc_name fc) as [[]|]; unfold ret, panic in H4; try discriminate; injection H4 as <- _ _ _; try exact O0.
      apply occurs_free_fun_inv in O0 as (a & [<-|[]] & O0). exact O0. }
    apply occurs_free_fun_inv in O1 as (a & Hin & O1).
    set (l := zip_args (sargs sg) (srep sg) args) in *. assert (Hl : forall b, In b (map snd l) -> In b args) by (intros b Hb; rewrite Hz in Hb; rewrite <- (firstn_skipn n args); apply in_app_iff; left; exact Hb).
    clear Hz Hok H3 H4 H5 H6 H7. rewrite <- (proj1 S0) in Hn |- *. clearbody l. clear S0 H1 Hh. revert s0 nargs s2 H2 Hin Hn.
    induction l as [|[p t] l IHl]; intros s0 nargs s2 H2 Hin Hn; cbn [mapMM] in H2.
    - unfold ret in H2. injection H2 as <- _. destruct Hin.
    - apply bind_done in H2 as (g & s1 & H1 & H2). apply bind_done in H2 as (gs & s9 & H3 & H2). unfold ret in H2. injection H2 as <- _. cbn [fst snd] in *.
      assert (At : applicative t) by (apply Ha, Hl; cbn; auto).
      destruct Hin as [<-|Hin].
      + destruct (IH _ _ _ _ _ _ At Hn H1 i O1) as (x & v & Hx & Hv & U). exists x, v, t. split; [exact Hx|]. split; [exact Hv|]. split; [apply Hl; cbn; auto|exact U].
      + assert (B1 : p_bv s1 = p_bv s0) by (apply (parse_good env true) in H1; [destruct H1 as [[E _] _]; exact E|apply applicative_gentle; exact At|exact Hn]).
        rewrite <- B1 in Hn |- *. eapply IHl; eauto. intros b Hb. apply Hl. cbn. auto. }
  destruct Ha as [x|h args Ha]; cbn [parse parse_step] in H.
  - unfold parse_const_var in H. apply bind_done in H; destruct H as (b & s1 & H1 & H). unfold getbv in H1. injection H1 as <- <-.
    match type of H with context [find ?p (p_bv s)] => destruct (find p (p_bv s)) as [[y v]|] eqn:F end.
    + apply find_some in F as [Hin Hy]. cbn in Hy. apply Nat.eqb_eq in Hy. subst y. exists x, v. split; [exact Hin|].
      assert (Ei : vid v = i).
      { unfold parse_variable in H. destruct v as [j sv]. cbn [vsort vid] in *.
        destruct sv; cbn [maybe_evaluated_sort] in H; try discriminate; destruct r; cbn beta iota in H; try discriminate;
          destruct es as [p|]; try (apply bind_done in H; destruct H as (u & s1 & H1 & H)); unfold ret in H; injection H as <- _;
          repeat (match goal with O : occurs_free _ (FFun _ _) |- _ => apply occurs_free_fun_inv in O as (? & [<-|[]] & O) end);
          apply occurs_free_var_inv in O; symmetry; exact O. }
      split; [exact Ei|]. intros U. destruct U as [U _]. apply U. reflexivity.
    + apply bind_done in H; destruct H as (fc & s1 & H1 & H). apply get_function_spec in H1. destruct H1 as [-> _].
      destruct (AP _ _ _ _ _ (fun a (i : In a []) => match i with end) Hn H O) as (y & v & a & _ & _ & [] & _).
  - unfold parse_app in H. apply bind_done in H; destruct H as (fc & s1 & H1 & H). apply get_function_spec in H1. destruct H1 as [-> _].
    destruct (AP _ _ _ _ _ Ha Hn H O) as (y & v & a & Hy & Hv & Hin & U). exists y, v. split; [exact Hy|]. split; [exact Hv|].
    intros N. apply U. apply everywhere_app in N as [_ N]. rewrite Forall_forall in N. apply N. exact Hin.
Qed.
Lemma let_body_chain env n t : let_body env n t -> let_chain env RSymbolic n t.
Proof. induction 1; [apply lc_gentle; assumption|]. apply lc_let; auto. apply applicative_gentle. assumption. Qed.
Lemma let_body_scoped env n t : let_body env n t -> forall fuel es s f s', n = length (p_bv s) -> numbered (p_bv s) -> parse env fuel t RSymbolic es s = Done f s' ->
  (exists b, p_bv s' = p_bv s ++ b) /\ forall i, occurs_free i f -> i < n.
Proof.
  induction 1 as [n t Hp|n x ty t1 t2 Ha Hu Hr Hc IH]; intros fuel es s f s' -> Hn H.
  - apply (parse_good env true) in H; auto. destruct H as [[E1 _] [[W _] _]]. rewrite E1 in *. split; [exists []; rewrite app_nil_r; reflexivity|exact W].
  - destruct fuel as [|k]; [discriminate|]. cbn [parse parse_step] in H. unfold parse_let in H.
    apply bind_done in H; destruct H as (v & s1 & H1 & H). apply binding_good in H1. destruct H1 as (-> & B1 & Q1 & _).
    apply bind_done in H; destruct H as (f1 & s2 & H2 & H). cbn [vsort vid] in *.
    assert (Hn1 : numbered (p_bv s1)) by (rewrite B1; apply numbered_snoc; auto).
    pose proof (applicative_free _ _ _ _ _ _ _ _ Ha Hn1 H2) as F1.
    assert (B2 : p_bv s2 = p_bv s1) by (apply (parse_good env true) in H2; auto using applicative_gentle; apply H2).
    apply bind_done in H; destruct H as (f2 & s3 & H3 & H). assert (Hn2 : numbered (p_bv s2)) by (rewrite B2; exact Hn1).
    assert (Hs : sapply (one_var (length (p_bv s)) f1) f2 = Some f /\ s' = s3).
    { unfold lift_opt in H. destruct (sapply _ f2); [|discriminate]. unfold ret in H. injection H as <- <-. auto. } destruct Hs as [Hs ->].
    apply IH in H3; [|rewrite B2, B1, app_length; cbn; rewrite Nat.add_1_r; reflexivity|exact Hn2]. destruct H3 as ((b & B3) & F2). split.
    + exists ([(x, mkVar (length (p_bv s)) (sort_named env ty))] ++ b). rewrite B3, B2, B1, app_assoc. reflexivity.
    + intros i O. destruct (one_var_free _ _ _ _ _ Hs O) as [[O1 N]|O1]; [apply F2 in O1; lia|].
      apply F1 in O1 as (y & v & Hy & Hv & U). rewrite B1 in Hy. apply in_app_iff in Hy as [Hy|[Hy|[]]].
      * rewrite <- Hv. eapply numbered_in; eauto.
      * injection Hy as <- _. contradiction.
Qed.

Section Steps.
  Variable d : denv.
  Variable fuel : nat.
  Notation env := (penv_of d).

  Section One.
    Variables (j : nat) (st : step_cache).
    Let k := length (st_args st).
    Let vars := map snd (named_vars 0 (st_args st)).
    Let input := FFun (Fmacro MInput) [FFun (Fstep j) (map FVar vars)].
    Lemma input_free i : occurs_free i input -> i < k.
    Proof.
      intros O. apply occurs_free_fun_inv in O as (a & [<-|[]] & O). apply occurs_free_fun_inv in O as (a & Ha & O). apply in_map_iff in Ha as (v & <- & Hv). apply occurs_free_var_inv in O. subst i.
      assert (H : In (vid v) (map vid vars)) by (apply in_map; exact Hv). unfold vars in H. rewrite named_vars_ids in H. apply in_seq in H. unfold k. lia.
    Qed.
    Lemma input_binds i : ~ binds i input.
    Proof. intros B. inversion B as [| |? ? a Ha B1]; subst. destruct Ha as [<-|[]]. inversion B1 as [| |? ? a Ha B2]; subst. apply in_map_iff in Ha as (v & <- & _). inversion B2. Qed.
    Lemma bvars_named fr : step_bvars st ++ named_vars (S k) fr = named_vars 0 (st_args st ++ [(5, SMessage)] ++ fr).
    Proof. unfold step_bvars. rewrite !named_vars_app. cbn [named_vars length Nat.add]. rewrite <- app_assoc. cbn [List.app]. fold k. rewrite Nat.add_1_r. reflexivity. Qed.

    (** A term of the step, with the fresh variables [fr] of an assignment. *)
    Lemma read_means fr t s f0 f s' : numbered (p_bv s) -> p_bv s = step_bvars st ++ named_vars (S k) fr ->
      (NoDup (map fst (st_args st) ++ [5]) -> NoDup (map fst (p_bv s))) ->
      well_scoped (S k + length fr) f0 -> means env (p_bv s) (p_qs s') t RSymbolic f0 -> sapply (one_var k input) f0 = Some f ->
      read_in env (p_qs s') j st fr vars (map snd (named_vars (S k) fr)) t f.
    Proof.
      intros Hn Hb Hnd W1 V1 E.
      assert (Hids : map vid (vars ++ map snd (named_vars (S k) fr)) = seq 0 k ++ seq (S k) (length fr)) by (unfold vars; rewrite map_app, !named_vars_ids; reflexivity).
      split.
      - intros i O. rewrite Hids. apply in_app_iff. rewrite !in_seq. destruct (one_var_free _ _ _ _ _ E O) as [[O1 N]|O1]; [apply W1 in O1; lia|apply input_free in O1; lia].
      - intros i B. rewrite Hids, in_app_iff, !in_seq. pose proof (one_var_binds _ _ _ _ i input_binds E B) as B1. apply W1 in B1. lia.
      - intros Hsh Hc Hd M qsem mval U Q R rho. rewrite (one_var_meaning k input f0 f rho); [|intros i O; apply input_free in O; lia|intros i B; apply W1 in B; lia|exact E].
        rewrite (V1 Hsh Hc (Hnd Hd) M qsem mval U Q R). apply value_ext; auto. intros y. rewrite Hb, bvars_named. set (rho' := upd rho k (eval input rho)).
        pose proof (scope_named (st_args st ++ [(5, SMessage)] ++ fr) [] rho' numbered_nil y) as S. cbn [List.app length] in S. etransitivity; [exact S|]. unfold in_step.
        assert (Ev : map (fun v => rho (vid v)) vars = map rho (seq 0 k)) by (unfold vars, k; rewrite <- (named_vars_ids (st_args st) 0), !map_map; reflexivity).
        assert (Ef : map (fun v => rho (vid v)) (map snd (named_vars (Datatypes.S k) fr)) = map rho (seq (Datatypes.S k) (length fr))) by (rewrite <- (named_vars_ids fr (Datatypes.S k)), !map_map; reflexivity).
        assert (Ei : eval input rho = app (Fmacro MInput) [app (Fstep j) (map (fun v => rho (vid v)) vars)]) by (cbn; rewrite map_map; reflexivity).
        assert (El : map rho' (seq 0 (length (st_args st ++ (5, SMessage) :: fr))) = map (fun v => rho (vid v)) vars ++ app (Fmacro MInput) [app (Fstep j) (map (fun v => rho (vid v)) vars)] :: map (fun v => rho (vid v)) (map snd (named_vars (Datatypes.S k) fr))).
        { rewrite app_length. cbn [length]. fold k. rewrite seq_app, map_app. cbn [seq map Nat.add]. rewrite Ev, Ef, <- Ev, <- Ei, Ev. f_equal; [|f_equal].
          - apply map_ext_in. intros i Hi. apply in_seq in Hi. unfold rho', upd. destruct (Nat.eqb i k) eqn:Ek; [apply Nat.eqb_eq in Ek; lia|reflexivity].
          - unfold rho', upd. rewrite Nat.eqb_refl. reflexivity.
          - apply map_ext_in. intros i Hi. apply in_seq in Hi. unfold rho', upd. destruct (Nat.eqb i k) eqn:Ek; [apply Nat.eqb_eq in Ek; lia|reflexivity]. }
        cbn [List.app] in El |- *. rewrite El. reflexivity.
    Qed.
    Lemma read_one fr t sort s f s' : gentle env true (S k + length fr) t -> p_bv s = step_bvars st ++ named_vars (S k) fr ->
      (NoDup (map fst (st_args st) ++ [5]) -> NoDup (map fst (p_bv s))) ->
      remove_in k input (parse env fuel t RSymbolic (Some (PStatic sort))) s = Done f s' ->
      ext true s s' /\ read_in env (p_qs s') j st fr vars (map snd (named_vars (S k) fr)) t f.
    Proof.
      intros Hp Hb Hnd H. unfold remove_in in H. apply bind_done in H as (f0 & s1 & H1 & H).
      assert (E : sapply (one_var k input) f0 = Some f /\ s' = s1) by (unfold lift_opt in H; destruct (sapply _ f0); [|discriminate]; unfold ret in H; injection H as <- <-; auto). destruct E as [E ->].
      assert (Hn : numbered (p_bv s)) by (rewrite Hb, bvars_named; exact (numbered_named _ [] numbered_nil)).
      assert (L : length (p_bv s) = S k + length fr) by (rewrite Hb, bvars_named, named_vars_length, !app_length; cbn [length Nat.add]; rewrite Nat.add_succ_r; reflexivity). apply (parse_good env true) in H1; auto; [|rewrite L; exact Hp]. destruct H1 as [X1 [W1 V1]]. split; [exact X1|]. rewrite (proj1 X1) in W1, V1. rewrite L in W1.
      eapply read_means; eauto.
    Qed.
    (** The message or the condition. *)
    Lemma read_body t sort s f s' : let_body env (S k) t -> p_bv s = step_bvars st ->
      (NoDup (map fst (st_args st) ++ [5]) -> NoDup (map fst (p_bv s))) ->
      remove_in k input (parse env fuel t RSymbolic (Some (PStatic sort))) s = Done f s' ->
      (exists b, p_bv s' = p_bv s ++ b) /\ (exists q, p_qs s' = p_qs s ++ q) /\ read_in env (p_qs s') j st [] vars [] t f.
    Proof.
      intros Hp Hb Hnd H. unfold remove_in in H. apply bind_done in H as (f0 & s1 & H1 & H).
      assert (E : sapply (one_var k input) f0 = Some f /\ s' = s1) by (unfold lift_opt in H; destruct (sapply _ f0); [|discriminate]; unfold ret in H; injection H as <- <-; auto). destruct E as [E ->].
      assert (Hb' : p_bv s = step_bvars st ++ named_vars (S k) []) by (rewrite app_nil_r; exact Hb).
      assert (Hn : numbered (p_bv s)) by (rewrite Hb', bvars_named; exact (numbered_named _ [] numbered_nil)).
      assert (L : S k = length (p_bv s)) by (rewrite Hb', bvars_named, named_vars_length, !app_length; cbn [length Nat.add]; rewrite Nat.add_1_r; reflexivity).
      destruct (let_body_scoped _ _ _ Hp _ _ _ _ _ L Hn H1) as (B & F). destruct (let_chain_good _ _ _ _ (let_body_chain _ _ _ Hp) _ _ _ _ _ L Hn H1) as (Q & Bd & V).
      split; [exact B|]. split; [exact Q|]. apply (read_means [] t s f0 f s1 Hn Hb' Hnd); [|exact V|exact E]. cbn [length]. rewrite Nat.add_0_r. split; [exact F|]. rewrite L. exact Bd.
    Qed.
  End One.

  Lemma fresh_good : forall vs n i s l s', parse_fresh d n i vs s = Done l s' -> length (p_bv s) = n + i ->
    l = map snd (named_vars (n + i) (binders env vs)) /\ p_bv s' = p_bv s ++ named_vars (n + i) (binders env vs) /\ p_qs s' = p_qs s /\
    (forall b, In b vs -> e_sorts env (snd b) <> None /\ e_functions env (fst b) = None) /\
    (NoDup (map fst (p_bv s)) -> NoDup (map fst (p_bv s'))).
  Proof.
    induction vs as [|[x ty] vs IH]; intros n i s l s' H L; cbn [parse_fresh] in H.
    - unfold ret in H. injection H as <- <-. cbn. rewrite app_nil_r. repeat split; auto; contradiction.
    - cbn [fst snd] in H. destruct (lookup ty (d_sorts d)) as [so|] eqn:Es; [|discriminate].
      apply bind_done in H as (b & s0 & H0 & H). unfold getbv in H0. injection H0 as <- <-.
      destruct (contains_name d x || existsb (fun e => Nat.eqb (fst e) x) (p_bv s)) eqn:Ec; [discriminate|]. apply orb_false_iff in Ec as [Ec Eb].
      apply bind_done in H as (u & s1 & H1 & H). unfold pushbv in H1. injection H1 as _ <-.
      apply bind_done in H as (l' & s2 & H2 & H). unfold ret in H. injection H as <- <-.
      apply IH in H2; [|cbn [p_bv]; rewrite app_length; cbn; lia]. cbn [p_bv p_qs] in H2. destruct H2 as (-> & E2 & E3 & E4 & E5).
      assert (En : sort_named env ty = so) by (unfold sort_named; cbn; rewrite Es; reflexivity).
      cbn [binders map fst snd]. rewrite En. cbn [named_vars map snd]. rewrite <- plus_n_Sm in *. repeat split; auto.
      + rewrite E2, <- app_assoc. reflexivity.
      + destruct H as [<-|H]; [cbn; congruence|]. apply E4; assumption.
      + destruct H as [<-|H]; [|apply E4; assumption]. cbn [fst]. unfold contains_name in Ec. apply orb_false_iff in Ec as [Ec _]. apply is_some_false in Ec. cbn. rewrite Ec. reflexivity.
      + intros N. apply E5. rewrite map_app. apply NoDup_app_iff. split; [exact N|split; [repeat constructor; intros []|]]. intros y Hy [<-|[]].
        apply in_map_iff in Hy as (e & Ey & He). apply Bool.not_true_iff_false in Eb. apply Eb. apply existsb_exists. exists e. split; [exact He|]. apply Nat.eqb_eq. exact Ey.
  Qed.

  Section Step.
    Variables (j : nat) (st : step_cache).
    Let k := length (st_args st).
    Let vars := map snd (named_vars 0 (st_args st)).
    Let input := FFun (Fmacro MInput) [FFun (Fstep j) (map FVar vars)].
    Lemma bvars_length : length (step_bvars st) = S k.
    Proof. unfold step_bvars. rewrite app_length, named_vars_length. cbn. rewrite Nat.add_1_r. reflexivity. Qed.
    Lemma bvars_names : map fst (step_bvars st) = map fst (st_args st) ++ [5].
    Proof. unfold step_bvars. rewrite map_app, named_vars_names. reflexivity. Qed.
    Lemma bvars_firstn fr : firstn (S k) (step_bvars st ++ named_vars (S k) fr) = step_bvars st.
    Proof. rewrite <- bvars_length at 1. rewrite firstn_app, Nat.sub_diag, firstn_all. cbn. apply app_nil_r. Qed.
    Definition fits (s : pst) (fr : list (name * sort)) : Prop :=
      p_bv s = step_bvars st ++ named_vars (S k) fr /\ (NoDup (map fst (st_args st) ++ [5]) -> NoDup (map fst (p_bv s))).
    Lemma fits_trunc s fr s' u : fits s fr -> truncbv (S k + length fr) s = Done u s' -> fits s' fr /\ p_qs s' = p_qs s.
    Proof.
      intros [E N] H. assert (Es : s' = mkPst (p_heap s) (firstn (S k + length fr) (p_bv s)) (p_qs s)) by (unfold truncbv in H; congruence). subst s'. unfold fits. cbn [p_bv p_qs]. rewrite E in *.
      assert (L : length (step_bvars st ++ named_vars (S k) fr) = S k + length fr) by (rewrite app_length, bvars_length, named_vars_length; reflexivity). rewrite <- L, firstn_all. auto.
    Qed.
    Lemma fits_ext s s' fr : fits s fr -> ext true s s' -> fits s' fr.
    Proof. unfold fits. intros [E N] [-> _]. auto. Qed.
    Lemma read_mono fr vs fs t f qs l : read_in env qs j st fr vs fs t f -> read_in env (qs ++ l) j st fr vs fs t f.
    Proof. intros [H1 H2 H3]. split; auto. intros Hs Hc Hn M qsem mval U Q R. apply H3; auto. eapply respects_app; eauto. Qed.

    Lemma args_good fr : forall ts s l s', Forall (fun x => gentle env true (S k + length fr) (fst x)) ts -> fits s fr ->
      mapMM (fun x => _ <- truncbv (S k + length fr) ;; remove_in k input (parse env fuel (fst x) RSymbolic (Some (PStatic (snd x))))) ts s = Done l s' ->
      fits s' fr /\ (exists q, p_qs s' = p_qs s ++ q) /\
      Forall2 (fun x f => read_in env (p_qs s') j st fr vars (map snd (named_vars (S k) fr)) (fst x) f) ts l.
    Proof.
      induction ts as [|x ts IH]; intros s l s' Hp Hf H; cbn [mapMM] in H.
      - unfold ret in H. injection H as <- <-. split; [exact Hf|]. split; [exists []; rewrite app_nil_r; reflexivity|constructor].
      - apply bind_done in H as (f & s1 & H1 & H). apply bind_done in H1 as (u & s0 & H0 & H1). apply fits_trunc in H0 as [Hf0 E0]; [|exact Hf]. inversion Hp as [|? ? Hx Hts]; subst.
        apply (read_one j st fr) in H1; [|exact Hx|apply Hf0|apply Hf0]. destruct H1 as [X1 R1].
        apply bind_done in H as (l1 & s2 & H2 & H). unfold ret in H. injection H as <- <-. apply IH in H2; [|exact Hts|eapply fits_ext; eauto]. destruct H2 as (F2 & (q2 & Q2) & A2).
        destruct X1 as [_ (q1 & Q1 & _)]. rewrite E0 in Q1. split; [exact F2|]. split; [exists (q1 ++ q2); rewrite Q2, Q1, app_assoc; reflexivity|]. constructor; [|exact A2]. rewrite Q2. apply read_mono. exact R1.
    Qed.

    Lemma assignment_good p a s c x s' : ps_vars p = vars -> gentle_asg env k a -> (exists fr, fits s fr) ->
      parse_assignment d fuel (S k) k input p a s = Done (c, x) s' ->
      (exists fr, fits s' fr) /\ (exists q, p_qs s' = p_qs s ++ q) /\ c = aa_cell a /\
      exists fc n sorts, lookup c (d_funs d) = Some (EnCell fc n sorts) /\ asg_read env (p_qs s') j st p sorts a x.
    Proof.
      intros Hv Hg (fr0 & Hf) H. unfold parse_assignment in H. apply bind_done in H as (fresh & s1 & H1 & H).
      set (vs := match aa_fresh a with Some vs => vs | None => [] end). destruct Hg as [Pa Pt]. fold vs in Pa, Pt. assert (Lb : length (binders env vs) = length vs) by (unfold binders; apply map_length).
      assert (F : exists s1', (forall u, truncbv (S k + length fresh) s1 = Done u s1' -> True) /\ fresh = map snd (named_vars (S k) (binders env vs)) /\ truncbv (S k + length fresh) s1 = Done tt s1' /\ fits s1' (binders env vs) /\ p_qs s1' = p_qs s /\ p_qs s1 = p_qs s /\
        (forall b, In b vs -> e_sorts env (snd b) <> None /\ e_functions env (fst b) = None)).
      { unfold vs. destruct (aa_fresh a) as [l|].
        - apply bind_done in H1 as (u & s0 & H0 & H1). assert (Es0 : s0 = mkPst (p_heap s) (firstn (S k) (p_bv s)) (p_qs s)) by (unfold truncbv in H0; congruence). subst s0. destruct Hf as [Eb Nb].
          assert (Eb' : firstn (S k) (p_bv s) = step_bvars st) by (rewrite Eb; apply bvars_firstn).
          apply fresh_good in H1; [|cbn [p_bv]; rewrite Eb'; rewrite bvars_length, Nat.add_0_r; reflexivity]. cbn [p_bv p_qs] in H1. rewrite Eb', Nat.add_0_r in H1. destruct H1 as (-> & E2 & E3 & E4 & E5).
          eexists. split; [trivial|]. split; [reflexivity|]. split; [reflexivity|]. unfold fits. cbn [p_bv p_qs]. rewrite map_length, named_vars_length. rewrite bvars_names in E5. split; [|repeat split; auto; apply E4; assumption].
          assert (L : length (p_bv s1) = S k + length (binders env l)) by (rewrite E2, app_length, bvars_length, named_vars_length; reflexivity). rewrite <- L, firstn_all. auto.
        - unfold ret in H1. injection H1 as <- <-. eexists. split; [trivial|]. split; [reflexivity|]. split; [reflexivity|]. cbn [length binders map]. rewrite Nat.add_0_r. unfold fits. cbn [p_bv p_qs]. destruct Hf as [Eb _]. rewrite Eb, bvars_firstn. cbn [named_vars]. rewrite app_nil_r, bvars_names. repeat split; auto; contradiction. }
      destruct F as (s1' & _ & Ef & Et & Hf1 & Q1 & Q1' & Hb). destruct (lookup (aa_cell a) (d_funs d)) as [[fc|fc st' a'|fc n sorts]|] eqn:El; try discriminate.
      apply bind_done in H as (args & s2 & H2 & H). apply bind_done in H as (u & s3 & H3 & H). apply bind_done in H as (content & s4 & H4 & H). unfold ret in H. injection H as <- <- <-.
      assert (Lf : length fresh = length (binders env vs)) by (rewrite Ef, map_length, named_vars_length; reflexivity). rewrite Lf in *.
      assert (A : firstn (S k + length (binders env vs)) (p_bv s2) = step_bvars st ++ named_vars (S k) (binders env vs) /\ (NoDup (map fst (st_args st) ++ [5]) -> NoDup (map fst (step_bvars st ++ named_vars (S k) (binders env vs)))) /\ (exists q, p_qs s2 = p_qs s ++ q) /\
        Forall2 (fun y f => read_in env (p_qs s2) j st (binders env vs) vars (map snd (named_vars (S k) (binders env vs))) (fst y) f) (combine (aa_args a) sorts) args).
      { destruct (combine (aa_args a) sorts) as [|x ts] eqn:Ec.
        - cbn [mapMM] in H2. unfold ret in H2. injection H2 as <- <-. split; [|split; [|split; [exists []; rewrite app_nil_r; exact Q1'|constructor]]].
          + assert (Es1 : s1' = mkPst (p_heap s1) (firstn (S k + length (binders env vs)) (p_bv s1)) (p_qs s1)) by (unfold truncbv in Et; congruence). subst s1'. destruct Hf1 as [E _]. exact E.
          + destruct Hf1 as [E N]. rewrite <- E. exact N.
        - assert (Pts : Forall (fun y => gentle env true (S k + length (binders env vs)) (fst y)) (x :: ts)).
          { rewrite <- Ec. apply Forall_forall. intros [t so] Hin. apply in_combine_l in Hin. cbn [fst]. rewrite Lb. auto. }
          cbn [mapMM] in H2. apply bind_done in H2 as (f & s5 & H5 & H2). apply bind_done in H5 as (u' & s6 & H6 & H5). assert (s6 = s1') by congruence. subst s6.
          assert (Hall : mapMM (fun y => _ <- truncbv (S k + length (binders env vs)) ;; remove_in k input (parse env fuel (fst y) RSymbolic (Some (PStatic (snd y))))) (x :: ts) s1' = Done args s2).
          { cbn [mapMM]. unfold bind at 1. unfold bind at 1.
            assert (Et' : truncbv (S k + length (binders env vs)) s1' = Done tt s1').
            { destruct Hf1 as [E _]. unfold truncbv. rewrite E. assert (L : length (step_bvars st ++ named_vars (S k) (binders env vs)) = S k + length (binders env vs)) by (rewrite app_length, bvars_length, named_vars_length; reflexivity). rewrite <- L, firstn_all, <- E. destruct s1'; reflexivity. }
            rewrite Et'. cbv beta. rewrite H5. exact H2. }
          apply args_good in Hall; [|exact Pts|exact Hf1]. destruct Hall as (F2 & (q2 & Q2) & A2). rewrite Q1 in Q2. split; [|split; [|split; [eauto|exact A2]]].
          + destruct F2 as [E _]. rewrite E. assert (L : length (step_bvars st ++ named_vars (S k) (binders env vs)) = S k + length (binders env vs)) by (rewrite app_length, bvars_length, named_vars_length; reflexivity). rewrite <- L, firstn_all. reflexivity.
          + destruct F2 as [E N]. rewrite <- E. exact N. }
      destruct A as (E2 & N2 & (q2 & Q2) & A2). assert (Es3 : s3 = mkPst (p_heap s2) (firstn (S k + length (binders env vs)) (p_bv s2)) (p_qs s2)) by (unfold truncbv in H3; congruence). subst s3. rewrite E2 in H4.
      assert (F3 : fits (mkPst (p_heap s2) (step_bvars st ++ named_vars (S k) (binders env vs)) (p_qs s2)) (binders env vs)) by (split; [reflexivity|exact N2]).
      apply (read_one j st (binders env vs)) in H4; [|rewrite Lb; exact Pt|apply F3|apply F3]. destruct H4 as [X4 R4].
      split; [eexists; eapply fits_ext; eauto|]. destruct X4 as [_ (q4 & Q4 & _)]. cbn [p_qs] in Q4. split; [exists (q2 ++ q4); rewrite Q4, Q2, app_assoc; reflexivity|]. split; [reflexivity|].
      exists fc, n, sorts. split; [exact El|]. subst fresh.
      assert (Hids : map vid (vars ++ map snd (named_vars (S k) (binders env vs))) = seq 0 k ++ seq (S k) (length (binders env vs))) by (unfold vars; rewrite map_app, !named_vars_ids; reflexivity).
      split; cbn [as_step as_fresh as_args as_content].
      - reflexivity.
      - rewrite named_vars_sorts. unfold binders. rewrite map_map. reflexivity.
      - exact Hb.
      - rewrite Hv, Hids. apply NoDup_app_iff. split; [apply seq_NoDup|split; [apply seq_NoDup|]]. intros i. rewrite !in_seq. lia.
      - intros N. apply N2 in N. rewrite map_app, bvars_names, named_vars_names, <- app_assoc in N. unfold binders in N. rewrite map_map in N. exact N.
      - split.
        + rewrite <- combine_length. symmetry. clear -A2. induction A2; cbn; auto.
        + intros m t f Ht Hf'. rewrite Hv, Q4. apply read_mono. clear -A2 Ht Hf'. revert m args A2 Ht Hf'. generalize sorts. induction (aa_args a) as [|t0 ts IH]; intros so m args A Ht Hf'; [destruct m; discriminate|].
          destruct so as [|so0 so]; cbn in A; inversion A as [|? ? ? ? R0 A0]; subst; [destruct m; discriminate|]. destruct m as [|m]; cbn in Ht, Hf'; [injection Ht as <-; injection Hf' as <-; exact R0|]. eapply IH; eauto.
      - rewrite Hv. exact R4.
    Qed.

    Lemma assignments_good p : forall asgs s l s', ps_vars p = vars -> Forall (gentle_asg env k) asgs -> (exists fr, fits s fr) ->
      mapMM (parse_assignment d fuel (S k) k input p) asgs s = Done l s' ->
      (exists q, p_qs s' = p_qs s ++ q) /\
      Forall2 (fun a x => fst x = aa_cell a /\ exists fc n sorts, lookup (fst x) (d_funs d) = Some (EnCell fc n sorts) /\ asg_read env (p_qs s') j st p sorts a (snd x)) asgs l.
    Proof.
      induction asgs as [|a asgs IH]; intros s l s' Hv Hp Hf H; cbn [mapMM] in H.
      - unfold ret in H. injection H as <- <-. split; [exists []; rewrite app_nil_r; reflexivity|constructor].
      - apply bind_done in H as ([c x] & s1 & H1 & H). inversion Hp as [|? ? Ha Has]; subst. apply assignment_good in H1; [|exact Hv|exact Ha|exact Hf]. destruct H1 as (F1 & (q1 & Q1) & Ec & fc & n & sorts & El & R1).
        apply bind_done in H as (l1 & s2 & H2 & H). unfold ret in H. injection H as <- <-. apply IH in H2; [|exact Hv|exact Has|exact F1]. destruct H2 as ((q2 & Q2) & A2).
        split; [exists (q1 ++ q2); rewrite Q2, Q1, app_assoc; reflexivity|]. constructor; [|exact A2]. split; [exact Ec|]. exists fc, n, sorts. split; [exact El|].
        destruct R1 as [r1 r2 r3 r4 r4' [r5 r5'] r6]. rewrite Q2. split; auto using read_mono. split; [exact r5|]. intros. apply read_mono. eapply r5'; eauto.
    Qed.

    Lemma fits_cut s s1 s' u : fits s [] -> (exists b, p_bv s1 = p_bv s ++ b) -> truncbv (S k) s1 = Done u s' -> fits s' [] /\ p_qs s' = p_qs s1.
    Proof.
      intros [E N] (b & B) H. assert (Es : s' = mkPst (p_heap s1) (firstn (S k) (p_bv s1)) (p_qs s1)) by (unfold truncbv in H; congruence). subst s'. unfold fits. cbn [p_bv p_qs named_vars].
      rewrite B, E. cbn [named_vars]. rewrite app_nil_r. rewrite <- bvars_length, firstn_app, Nat.sub_diag, firstn_all. cbn [firstn]. rewrite app_nil_r. split; [|reflexivity]. split; [reflexivity|].
      rewrite bvars_names. auto.
    Qed.

    Lemma step_decl_good asgs s p l s' : let_body env (S k) (st_msg st) -> let_body env (S k) (st_cond st) -> Forall (gentle_asg env k) asgs ->
      parse_step_decl d fuel j st asgs s = Done (p, l) s' ->
      (exists q, p_qs s' = p_qs s ++ q) /\ step_read env (p_qs s') j st p /\
      Forall2 (fun a x => fst x = aa_cell a /\ exists fc n sorts, lookup (fst x) (d_funs d) = Some (EnCell fc n sorts) /\ asg_read env (p_qs s') j st p sorts a (snd x)) asgs l.
    Proof.
      intros Pm Pc Pa H. unfold parse_step_decl in H. cbv zeta in H. fold k vars in H. fold input in H.
      apply bind_done in H as (u & s0 & H0 & H). unfold setbv in H0. injection H0 as _ <-. set (s0 := mkPst (p_heap s) (step_bvars st) (p_qs s)) in *.
      assert (F0 : fits s0 []) by (split; cbn; [rewrite app_nil_r; reflexivity|rewrite bvars_names; auto]).
      apply bind_done in H as (m0 & s1 & H1 & H). apply bind_done in H as (u1 & s2 & H2 & H). apply bind_done in H as (c0 & s3 & H3 & H). apply bind_done in H as (u3 & s4 & H4 & H).
      apply bind_done in H as (m & s5 & H5 & H). apply bind_done in H as (c & s6 & H6 & H). apply bind_done in H as (l' & s7 & H7 & H). unfold ret in H. injection H as <- <- <-.
      assert (Hm : remove_in k input (parse env fuel (st_msg st) RSymbolic (Some (PStatic SMessage))) s0 = Done m s1).
      { unfold remove_in, bind. rewrite H1. unfold lift_opt in H5 |- *. destruct (sapply _ m0); [|discriminate]. unfold ret in H5 |- *. congruence. }
      apply (read_body j st) in Hm; [|exact Pm|reflexivity|apply F0]. destruct Hm as [B1 [X1 R1]].
      apply (fits_cut s0) in H2 as [F2 Q2]; [|exact F0|exact B1].
      assert (E5 : s5 = s4) by (unfold lift_opt in H5; destruct (sapply _ m0); [|discriminate]; unfold ret in H5; congruence). subst s5.
      assert (E6 : s6 = s4) by (unfold lift_opt in H6; destruct (sapply _ c0); [|discriminate]; unfold ret in H6; congruence). subst s6.
      assert (Hc : remove_in k input (parse env fuel (st_cond st) RSymbolic (Some (PStatic SCondition))) s2 = Done c s3).
      { unfold remove_in, bind. rewrite H3. unfold lift_opt in H6 |- *. destruct (sapply _ c0); [|discriminate]. unfold ret in H6 |- *. congruence. }
      apply (read_body j st) in Hc; [|exact Pc|rewrite (proj1 F2); apply app_nil_r|apply F2]. destruct Hc as [B3 [X3 R3]].
      apply (fits_cut s2) in H4 as [F4 Q4]; [|exact F2|exact B3].
      apply assignments_good in H7; [|reflexivity|exact Pa|eauto]. destruct H7 as ((q7 & Q7) & A7).
      destruct X1 as (q1 & Q1), X3 as (q3 & Q3). cbn [s0 p_qs] in Q1.
      assert (Qm : p_qs s7 = p_qs s1 ++ (q3 ++ q7)) by (rewrite Q7, Q4, Q3, Q2, app_assoc; reflexivity).
      assert (Qc : p_qs s7 = p_qs s3 ++ q7) by (rewrite Q7, Q4; reflexivity).
      split; [exists (q1 ++ q3 ++ q7); rewrite Qm, Q1, <- app_assoc; reflexivity|]. split; [|exact A7].
      split; cbn [ps_fun ps_vars ps_msg ps_cond].
      - reflexivity.
      - apply named_vars_sorts.
      - unfold vars. rewrite named_vars_ids. apply seq_NoDup.
      - rewrite Qm. apply read_mono. exact R1.
      - rewrite Qc. apply read_mono. exact R3.
    Qed.
  End Step.
End Steps.

(** ** C100: cryptographic assumptions *)
Lemma given_mem o os : mem o os = given o os.
Proof. unfold given. destruct (in_dec Nat.eq_dec o os) as [H|H]; [apply mem_in; exact H|]. destruct (mem o os) eqn:E; [|reflexivity]. apply mem_in in E. contradiction. Qed.
Lemma sig_fixed_exact fuel h ss o ss' o' : length ss' < fuel ->
  exists x, sig_unify fuel h RSymbolic (mkSig (PStatic o) (map PStatic ss) None) (mkSig (PStatic o') (map PStatic ss') None) = Some (Some (h, x)) /\
    (x = Ok tt <-> ss' = ss /\ o' = o).
Proof.
  intros Hf. unfold sig_unify, unify. cbn [sout sargs srep as_option]. destruct (eq_realm RSymbolic o o') eqn:E.
  - apply eq_realm_spec in E. assert (Eo : o' = o) by (destruct E as [->|[E _]]; congruence). subst o'.
    destruct (unify_args_static RSymbolic fuel ss ss' h 0 Hf) as (x & -> & X). rewrite Forall2_eq_same in X. destruct x as [[n|]|e]; eexists; (split; [reflexivity|]).
    + split; [discriminate|]. intros [-> _]. destruct X as [_ X]. specialize (X eq_refl). discriminate.
    + split; [|auto]. intros _. split; [|reflexivity]. symmetry. apply X. reflexivity.
    + split; [discriminate|]. intros [-> _]. destruct X as [_ X]. specialize (X eq_refl). discriminate.
  - eexists. split; [reflexivity|]. split; [discriminate|]. intros [_ ->]. exfalso. assert (Eo : eq_realm RSymbolic o o = true) by (apply eq_realm_spec; left; reflexivity). congruence.
Qed.
Section CryptoProofs.
  Variable d : denv.
  Variable fuel : nat.
  Hypothesis Ha : arities_below d fuel.
  Hypothesis Hf : 4 <= fuel.
  Lemma sign_exact x ss o : Forall (fun s => s = SMessage) ss -> length ss <= 3 -> In o [SMessage; SCondition] ->
    (exists f, verify_sign d fuel x (SgFixed ss o) = Done f (mkPst [] [] []) /\ takes d x ss o f) \/
    verify_sign d fuel x (SgFixed ss o) = Error /\ forall f, ~ takes d x ss o f.
  Proof.
    intros Hss Hl Ho. unfold verify_sign, takes. destruct (lookup x (d_funs d)) as [[fc| |]|] eqn:El; try (right; split; [reflexivity|]; intros f (fc' & E & _); discriminate).
    cbn [signature]. destruct (fc_kind fc) as [ss' o'| | | |own] eqn:Ek.
    - cbn [signature]. destruct (sig_fixed_exact fuel [] ss o ss' o') as (r & -> & X); [eapply Ha; eauto|]. destruct r as [[]|e].
      + left. exists (fc_sym fc). split; [reflexivity|]. exists fc. repeat split; auto. rewrite Ek. destruct (proj1 X eq_refl) as [-> ->]. reflexivity.
      + right. split; [reflexivity|]. intros f (fc' & [= <-] & Ek' & _). assert (ss' = ss /\ o' = o) by (split; congruence). apply X in H. discriminate.
    - right. split; [|intros f (fc' & [= <-] & Ek' & _); congruence]. destruct Ho as [<-|[<-|[]]]; reflexivity.
    - right. split; [|intros f (fc' & [= <-] & Ek' & _); congruence]. destruct Ho as [<-|[<-|[]]]; reflexivity.
    - right. split; [|intros f (fc' & [= <-] & Ek' & _); congruence]. destruct fuel as [|[|[|[|k]]]]; try lia. inversion Hss as [|s0 ss0 -> _]; subst; destruct Ho as [<-|[<-|[]]]; reflexivity.
    - right. split; [|intros f (fc' & [= <-] & Ek' & _); congruence]. destruct Ho as [<-|[<-|[]]]; reflexivity.
  Qed.
  Lemma takes_unique x ss o f f' : takes d x ss o f -> takes d x ss o f' -> f = f'.
  Proof. intros (fc & E & _ & <-) (fc' & E' & _ & <-). congruence. Qed.
  (** The outcome is determined by what the line asks for. *)
  Definition decided (c : crypto_ast) (r : outcome passumption) : Prop :=
    (exists a, r = Done a (mkPst [] [] []) /\ asks d c a) \/ r = Error /\ forall a, ~ asks d c a.
  Ltac sign x ss o :=
    let f := fresh "f" in let E := fresh "E" in let T := fresh "T" in
    destruct (sign_exact x ss o) as [(f & E & T)|(E & T)]; [repeat constructor|cbn; lia|cbn; auto|cbn [MAC_SIG VERIFY_SIG SIGN_SIG PK_SIG ENC_SIG DEC_SIG FAIL_SIG]; rewrite E; cbn [also]|
      right; cbn [MAC_SIG VERIFY_SIG SIGN_SIG PK_SIG ENC_SIG DEC_SIG FAIL_SIG]; rewrite E; split; [reflexivity|intros a A; inversion A; subst; try (cbn in *; intuition congruence); eapply T; eauto]].
  Lemma crypto_decided c : decided c (parse_assert_crypto d fuel c).
  Proof.
    destruct c as [n fs os]. unfold parse_assert_crypto. cbn [ca_name ca_funs ca_options].
    destruct (Nat.eqb n n_nonce) eqn:E1; [apply Nat.eqb_eq in E1; subst n; left; eexists; split; [reflexivity|constructor]|]. apply Nat.eqb_neq in E1.
    destruct (Nat.eqb n n_memory_cell) eqn:E2; [apply Nat.eqb_eq in E2; subst n; left; eexists; split; [reflexivity|constructor]|]. apply Nat.eqb_neq in E2.
    assert (Uf : In n [102; 103; 104; 105] -> (length fs = 3 -> ~ In n [102; 103]) -> decided (mkCryptoAst n fs os) (parse_uf_cma d fuel fs os)).
    { intros Hn H3. unfold parse_uf_cma. destruct fs as [|x [|y [|z fs]]]; try (right; split; [reflexivity|]; intros a A; inversion A; subst; cbn in *; intuition (try congruence; try lia)).
      unfold decided, MAC_SIG, VERIFY_SIG. sign x [SMessage; SMessage] SMessage. sign y [SMessage; SMessage; SMessage] SCondition.
      left. rewrite given_mem. eexists. split; [reflexivity|]. apply as_uf; assumption. }
    destruct (Nat.eqb n n_euf_cma || Nat.eqb n n_euf_cma') eqn:E3.
    { assert (Hn : In n [102; 103]) by (apply orb_true_iff in E3 as [E3|E3]; apply Nat.eqb_eq in E3; subst; cbn; auto). clear E3. unfold parse_euf_cma.
      destruct fs as [|x [|y [|z [|w fs]]]]; try (right; split; [reflexivity|]; intros a A; inversion A; subst; cbn in *; intuition (try congruence; try lia)).
      - apply Uf; [cbn in Hn |- *; tauto|discriminate].
      - clear Uf. unfold decided, SIGN_SIG, VERIFY_SIG, PK_SIG. sign x [SMessage; SMessage] SMessage. sign y [SMessage; SMessage; SMessage] SCondition. sign z [SMessage] SMessage.
        left. eexists. split; [reflexivity|]. apply as_euf; assumption. }
    apply orb_false_iff in E3 as [E3 E3']. apply Nat.eqb_neq in E3. apply Nat.eqb_neq in E3'.
    destruct (Nat.eqb n n_uf_cma || Nat.eqb n n_uf_cma') eqn:E4.
    { apply Uf; [apply orb_true_iff in E4 as [E4|E4]; apply Nat.eqb_eq in E4; subst; cbn; auto|]. intros _. cbn. unfold n_euf_cma, n_euf_cma' in *. intuition congruence. }
    apply orb_false_iff in E4 as [E4 E4']. apply Nat.eqb_neq in E4. apply Nat.eqb_neq in E4'. clear Uf.
    destruct (Nat.eqb n n_int_ctxt || Nat.eqb n n_int_ctxt') eqn:E5.
    { assert (Hn : In n [106; 107]) by (apply orb_true_iff in E5 as [E5|E5]; apply Nat.eqb_eq in E5; subst; cbn; auto). clear E5. unfold parse_int_ctxt.
      assert (Body : forall x y z more, length more <= 1 -> fs = x :: y :: z :: more -> decided (mkCryptoAst n fs os)
        (also (verify_sign d fuel x ENC_SIG) (fun enc => also (verify_sign d fuel y DEC_SIG) (fun dec => also (verify_sign d fuel z FAIL_SIG) (fun fail => done (PCtxt enc dec fail)))))).
      { intros x y z more Hm ->. unfold decided, ENC_SIG, DEC_SIG, FAIL_SIG. sign x [SMessage; SMessage; SMessage] SMessage. sign y [SMessage; SMessage] SMessage. sign z (@nil sort) SMessage.
        left. eexists. split; [reflexivity|]. apply as_ctxt; assumption. }
      destruct fs as [|x [|y [|z [|w [|w' fs]]]]]; try (right; split; [reflexivity|]; intros a A; inversion A; subst; cbn in *; intuition (try congruence; try lia)).
      - eapply Body; [|reflexivity]. cbn. lia.
      - eapply Body; [|reflexivity]. cbn. lia. }
    apply orb_false_iff in E5 as [E5 E5']. apply Nat.eqb_neq in E5. apply Nat.eqb_neq in E5'.
    destruct (Nat.eqb n n_unfolding) eqn:E6.
    { apply Nat.eqb_eq in E6. subst n. unfold parse_unfolding. destruct fs as [|x fs].
      - left. rewrite !given_mem. eexists. split; [reflexivity|]. constructor.
      - right. split; [reflexivity|]. unfold n_unfolding. intros a A. inversion A; subst; cbn in *; try lia; intuition lia. }
    apply Nat.eqb_neq in E6. right. split; [reflexivity|]. unfold n_nonce, n_memory_cell, n_euf_cma, n_euf_cma', n_uf_cma, n_uf_cma', n_int_ctxt, n_int_ctxt', n_unfolding in *.
    intros a A. inversion A; subst; cbn in *; intuition congruence.
  Qed.
  Lemma asks_unique c a a' : asks d c a -> asks d c a' -> a = a'.
  Proof.
    intros A A'. inversion A; subst; inversion A'; subst; try reflexivity; try (cbn in *; intuition congruence); f_equal; eapply takes_unique; eauto.
  Qed.
End CryptoProofs.
