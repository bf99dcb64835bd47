From Coq Require Import List Arith Bool Lia.
From Verif Require Import Syntax_Model Syntax_Proofs Traversal_Model Traversal_Spec Traversal_Proofs
  Semantics_Spec Semantics_Proofs Subst_Model Subst_Spec Subst_Proofs
  Sort_Model Sort_Spec Sort_Proofs Parser_Model Parser_Spec Parser_Proofs.
Import ListNotations.

(* ---------- unused names ---------- *)
Section Unused.
  Variable M : structure.
  Variable env : penv.
  Variable qsem : qkind -> list sort -> (list (D M) -> list (D M)) -> D M.
  Variable mval : callee -> realm -> list (D M) -> list (D M) -> D M.
  Hypothesis qext : extensional M qsem.
  Variable x : name.
  Definition eqx (a b : scope M) : Prop := forall y, y <> x -> a y = b y.
  Lemma bind_name_x a b y s d : eqx a b -> eqx (bind_name a y s d) (bind_name b y s d).
  Proof. intros H z Hz. unfold bind_name. destruct (Nat.eq_dec z y); auto. Qed.
  Lemma bind_names_x vs : forall ds a b, eqx a b -> eqx (bind_names a vs ds) (bind_names b vs ds).
  Proof. induction vs as [|[y s] vs IH]; intros [|d ds] a b H; cbn; auto. apply IH, bind_name_x, H. Qed.
  Lemma squantify_x q vs : forall a b k k', eqx a b -> (forall a b, eqx a b -> k a = k' b) -> squantify q vs a k = squantify q vs b k'.
  Proof.
    induction vs as [|[y s] vs IH]; intros a b k k' H Hk; cbn; auto.
    destruct q; [apply ex_ext|apply all_ext]; intros d _; apply IH; auto using bind_name_x.
  Qed.
  Lemma value_x : forall t r a b, not_used x t -> eqx a b -> value env qsem mval t r a = value env qsem mval t r b.
  Proof.
    induction t as [y ty t1 t2 IH1 IH2|c l d IHc IHl IHd|vs c l d IHc IHl IHd|q vs b IHb|y|f args IH|o ts IH|m f|m f l IH|m l IH]
      using term_ind'; intros r a b' Hu H; cbn [value].
    - destruct Hu as (_ & U1 & U2). fold (not_used x t1) (not_used x t2) in *. apply IH2; auto. intros z Hz. unfold bind_name. destruct (Nat.eq_dec z y); auto.
      f_equal. f_equal. apply IH1; auto.
    - destruct Hu as (_ & U1 & U2 & U3). fold (not_used x c) (not_used x l) (not_used x d) in *. rewrite (IHc r a b'), (IHl r a b'), (IHd r a b'); auto.
    - destruct Hu as (_ & U1 & U2 & U3). fold (not_used x c) (not_used x l) (not_used x d) in *. f_equal. apply qext. intros ds _. rewrite (IHc _ _ (bind_names b' (binders env vs) ds)), (IHl _ _ (bind_names b' (binders env vs) ds)), (IHd _ a b'); auto using bind_names_x.
    - destruct Hu as (_ & U). destruct r.
      + apply qext. intros ds _. f_equal. apply IHb, bind_names_x, H; auto.
      + f_equal. apply squantify_x; auto. intros. f_equal. apply IHb; auto.
    - rewrite H; auto. destruct Hu as [Hu _]. intros ->. auto.
    - apply everywhere_app in Hu. destruct Hu as [_ Hu]. rewrite Forall_forall in Hu.
      apply fn_value_ext. intros r'. apply map_ext_in. intros e He. rewrite Forall_forall in IH. apply IH; [auto|exact (Hu e He)|auto].
    - apply everywhere_infix in Hu. destruct Hu as [_ Hu]. rewrite Forall_forall in Hu.
      apply infix_value_ext. intros r'. apply map_ext_in. intros e He. rewrite Forall_forall in IH. apply IH; [auto|exact (Hu e He)|auto].
    - reflexivity.
    - apply everywhere_step in Hu. destruct Hu as [_ Hu]. rewrite Forall_forall in Hu, IH.
      f_equal; apply map_ext_in; intros e He; (apply IH; [auto|exact (Hu e He)|auto]).
    - apply everywhere_mac in Hu. destruct Hu as [_ Hu]. rewrite Forall_forall in Hu, IH.
      f_equal; apply map_ext_in; intros e He; (apply IH; [auto|exact (Hu e He)|auto]).
  Qed.
End Unused.

(* ---------- let ---------- *)
Lemma one_var_meaning {M : structure} n f1 f2 g (rho : env M) :
  (forall i, occurs_free i f1 -> i <= n) -> (forall i, binds i f2 -> n < i) ->
  sapply (one_var n f1) f2 = Some g -> eval g rho = eval f2 (upd rho n (eval f1 rho)).
Proof.
  intros H1 H2 H. eapply subst_meaning; eauto.
  - intros p v Hp. unfold one_var. split.
    + intros B. apply binds_above_binds, H2 in B. destruct (Nat.eqb (vid v) n) eqn:E; auto. apply Nat.eqb_eq in E. lia.
    + intros B t i Ht Hi Ba. destruct (Nat.eqb (vid v) n); injection Ht as <-.
      * apply H1 in Hi. apply binds_above_binds, H2 in Ba. lia.
      * apply occurs_free_var_inv in Hi. subst i. auto.
  - intros p v t _ _ Ht. unfold one_var in Ht. unfold upd. destruct (Nat.eqb (vid v) n); injection Ht as <-; reflexivity.
Qed.

Lemma binding_good env x ty s v s' : parse_binding env (x, ty) s = Done v s' ->
  v = mkVar (length (p_bv s)) (sort_named env ty) /\ p_bv s' = p_bv s ++ [(x, v)] /\ p_qs s' = p_qs s /\
  (e_shadowing env = false -> NoDup (map fst (p_bv s)) -> NoDup (map fst (p_bv s'))) /\
  (e_shadowing env = false -> e_functions env x = None /\ ~ In x (map fst (p_bv s))).
Proof.
  intros H. pose proof (bindings_good env [(x, ty)] s [v] s') as B.
  assert (H' : mapMM (parse_binding env) [(x, ty)] s = Done [v] s').
  { cbn [mapMM]. unfold bind at 1. rewrite H. reflexivity. }
  destruct (B H') as (B1 & B2 & [B3 _] & B4). cbn in B1. subst v. cbn in *.
  assert (F : e_shadowing env = false -> e_functions env x = None /\ ~ In x (map fst (p_bv s))).
  { intros Hs. unfold parse_binding in H.
    match type of H with (if ?c then _ else _) _ = _ => destruct c eqn:Eb end; [discriminate|].
    rewrite Hs in Eb. cbn [negb] in Eb. rewrite andb_true_r in Eb. apply orb_false_iff in Eb. destruct Eb as [Ef Eb]. split.
    - destruct (e_functions env x); [discriminate|reflexivity].
    - intros Hin. apply in_map_iff in Hin. destruct Hin as (e & E & He).
      assert (existsb (fun e0 : name * var => Nat.eqb (fst e0) x) (p_bv s) = true); [|unfold name in *; congruence].
      apply existsb_exists. exists e. split; auto. apply Nat.eqb_eq. auto. }
  repeat split; auto; intros; apply F; auto.
Qed.

Lemma let_chain_good env r n t : let_chain env r n t -> forall fuel es s f s', n = length (p_bv s) -> numbered (p_bv s) ->
  parse env fuel t r es s = Done f s' ->
  (exists l, p_qs s' = p_qs s ++ l) /\ (forall i, binds i f -> length (p_bv s) <= i) /\ means env (p_bv s) (p_qs s') t r f.
Proof.
  induction 1 as [n t Hp|n x ty t1 t2 Hp1 Hu Hr Hc IH]; intros fuel es s f s' -> Hn H.
  - apply (parse_good env true) in H; auto. destruct H as [[E1 (l & E2 & _)] [W V]]. rewrite E1 in *. split; [eauto|]. split; auto.
    intros i Hi. apply W in Hi. auto.
  - destruct fuel as [|k]; [discriminate|]. cbn [parse parse_step] in H. unfold parse_let in H.
    apply bind_done in H; destruct H as (v & s1 & H1 & H). apply binding_good in H1. destruct H1 as (-> & B1 & Q1 & N1 & _).
    apply bind_done in H; destruct H as (f1 & s2 & H2 & H). cbn [vsort vid] in *.
    assert (Hn1 : numbered (p_bv s1)) by (rewrite B1; apply numbered_snoc; auto).
    assert (Ln : length (p_bv s1) = S (length (p_bv s))) by (rewrite B1, app_length; cbn; lia).
    apply (parse_good env true) in H2; auto; [|rewrite Ln; auto]. destruct H2 as [[E1 (l & E2 & _)] [W1 V1]]. rewrite E1, B1 in *.
    apply bind_done in H; destruct H as (f2 & s3 & H3 & H).
    apply IH in H3; [|rewrite E1; auto..]. destruct H3 as ((l3 & Q3) & Bd & V2). rewrite E1, app_length in *. cbn in *. rewrite Nat.add_1_r in *.
    assert (Hs : sapply (one_var (length (p_bv s)) f1) f2 = Some f /\ s' = s3).
    { unfold lift_opt in H. destruct (sapply _ f2); [|discriminate]. unfold ret in H. injection H as <- <-. auto. }
    destruct Hs as [Hs ->]. split; [|split].
    + exists (l ++ l3). rewrite Q3, E2, Q1, app_assoc. reflexivity.
    + intros i Hi. destruct (sapply_binds _ _ _ _ Hs Hi) as [B|(v & t & Hv & B)].
      * apply Bd in B. lia.
      * unfold one_var in Hv. destruct (Nat.eqb (vid v) _); injection Hv as <-; [|inversion B]. apply W1 in B. lia.
    + intros Hsh (_ & C1 & C2) Hnd M qsem mval U Q R rho.
      assert (R1 : respects qsem (p_qs s2)) by (rewrite Q3 in R; eapply respects_app; eauto).
      pose proof (N1 Hsh Hnd) as Hnd1. 
      rewrite (one_var_meaning (length (p_bv s)) f1 f2 f rho); auto.
      2:{ intros i Hi. apply W1 in Hi. lia. }
      rewrite (V2 Hsh C2 Hnd1 M qsem mval U Q R). cbn [value].
      set (v := mkVar (length (p_bv s)) (sort_named env ty)) in *.
      assert (E : eval f1 rho = value env qsem mval t1 match sort_realm (sort_named env ty) with Some r' => r' | None => r end (scope_of (p_bv s) rho)).
      { rewrite (V1 Hsh C1 Hnd1 M qsem mval U Q R1).
        replace (match sort_realm (sort_named env ty) with Some r' => r' | None => r end) with r by (destruct Hr as [->| ->]; auto).
        apply value_x with (x := x); auto. intros y Hy.
        unfold scope_of. rewrite rev_app_distr. cbn [rev List.app find fst].
        replace (Nat.eqb x y) with false by (symmetry; apply Nat.eqb_neq; auto). reflexivity. }
      rewrite <- E. apply value_ext; auto. intros y. apply (scope_snoc (p_bv s) rho x v); auto.
Qed.

(* ---------- calls ---------- *)
Lemma macro_good env fuel m mc args r es s g s' :
  e_macros env m = Some mc -> gentle env true (length (mc_args mc)) (mc_body mc) -> counted env (mc_body mc) ->
  Forall (gentle env true (length (p_bv s))) args -> NoDup (map fst (mc_args mc)) ->
  numbered (p_bv s) -> parse env fuel (TMac m args) r es s = Done g s' ->
  length (p_bv s) <= length (mc_args mc) \/ flat env (mc_body mc) ->
  p_bv s' = p_bv s /\ length args = length (mc_args mc) /\
  (e_shadowing env = false -> Forall (counted env) args -> NoDup (map fst (p_bv s)) ->
   forall (M : structure) qsem mval, unfolds env qsem mval -> extensional M qsem -> respects qsem (p_qs s') -> forall rho : Semantics_Spec.env M,
     eval g rho = macro_value env qsem mval (mc_args mc) (mc_body mc) args r (scope_of (p_bv s) rho)).
Proof.
  intros Hm Hb Hcb Ha Hnp Hn H Hcap.
  assert (L : length args = length (mc_args mc)).
  { destruct fuel as [|k]; [discriminate|]. cbn [parse parse_step] in H. unfold parse_macro in H. rewrite Hm in H.
    destruct (Nat.eqb (length (mc_args mc)) (length args)) eqn:L; [|discriminate]. apply Nat.eqb_eq in L. auto. }
  assert (Hg : gentle env true (length (p_bv s)) (TMac m args)).
  { apply ge_mac; auto; [apply Forall_forall; auto|]. intros mc' Em. assert (mc' = mc) by congruence. subst mc'. auto. }
  apply (parse_good env true) in H; auto. destruct H as [[E _] [_ V]]. rewrite E in V. split; auto. split; auto.
  intros Hsh Hc Hnd M qsem mval U Q R rho. rewrite (V Hsh) with (mval := mval) (qsem := qsem); auto.
  2:{ apply everywhere_mac. split; [exact I|auto]. }
  cbn [value]. rewrite U. cbn [call_value]. rewrite Hm. unfold macro_value. rewrite chosen_map. apply value_ext; auto. intros y.
  f_equal. apply map_ext. intros [[x st] a]. cbn [fst snd]. destruct (sort_realm st) as [[]|]; auto. destruct r; auto.
Qed.
Lemma step_good env fuel (is_msg : bool) f fc st args r es s h s' :
  e_functions env f = Some fc -> fc_step fc = Some st -> callable env f fc st ->
  gentle env true (S (length (st_args st))) (if is_msg then st_msg st else st_cond st) -> counted env (if is_msg then st_msg st else st_cond st) ->
  Forall (gentle env true (length (p_bv s))) args -> (forall n, arity (fc_kind fc) = Some n -> length args <= n) ->
  numbered (p_bv s) -> parse env fuel (TStepMac is_msg f (Some args)) r es s = Done h s' ->
  length (p_bv s) <= S (length (st_args st)) \/ flat env (if is_msg then st_msg st else st_cond st) ->
  p_bv s' = p_bv s /\ length args = length (st_args st) /\
  (e_shadowing env = false -> Forall (counted env) args -> NoDup (map fst (p_bv s)) ->
   forall (M : structure) qsem mval, unfolds env qsem mval -> extensional M qsem -> respects qsem (p_qs s') -> forall rho : Semantics_Spec.env M,
     eval h rho = step_value env qsem mval (fc_sym fc) st (if is_msg then st_msg st else st_cond st) args r (scope_of (p_bv s) rho)).
Proof.
  intros Hf Hst Hcl Hb Hcb Ha La Hn H Hcap.
  assert (Hg : gentle env true (length (p_bv s)) (TStepMac is_msg f (Some args))).
  { apply ge_step; auto; [apply Forall_forall; auto|]. intros fc' st' E1 E2. assert (fc' = fc) by congruence. subst fc'. assert (st' = st) by congruence. subst st'. auto. }
  assert (L : length args = length (st_args st)).
  { destruct fuel as [|k]; [discriminate|]. cbn [parse parse_step] in H. unfold parse_step_mac in H.
    apply bind_done in H; destruct H as (f0 & s1 & H1 & H).
    unfold parse_app in H1. apply bind_done in H1; destruct H1 as (fc' & s1' & Hd & H1).
    apply get_function_spec in Hd. destruct Hd as [-> Hd]. destruct Hcl as ((ss & Ek) & En & Hd' & _). rewrite Hd' in Hd. injection Hd as <-.
    destruct fc as [g kd nm sto]. cbn [fc_kind fc_name fc_step] in *. subst kd nm sto.
    apply (app_step_inv env true (parse env k) (parse_good env true k)) in H1; auto. destruct H1 as (fs & l' & -> & _ & P1 & Hl).
    rewrite Hl in P1 by (apply La; reflexivity). rewrite Hf in H. apply bind_done in H; destruct H as (t & s2 & H2 & H).
    destruct (Nat.eqb (length fs) (length (st_args st))) eqn:Lf; [|discriminate]. apply Nat.eqb_eq in Lf. rewrite <- Lf.
    clear -P1. induction P1; cbn; auto. }
  apply (parse_good env true) in H; auto. destruct H as [[E _] [_ V]]. rewrite E in V. split; auto. split; auto.
  intros Hsh Hc Hnd M qsem mval U Q R rho. rewrite (V Hsh) with (mval := mval) (qsem := qsem); auto.
  2:{ cbn. split; [|apply all_Forall; exact Hc]. intros fc' n E1. assert (fc' = fc) by congruence. subst fc'. apply La. }
  cbn [value]. rewrite U. cbn [call_value]. rewrite Hf, Hst. unfold step_value. destruct r; reflexivity.
Qed.

(** Calls have exactly one meaning when macros and steps are ranked. *)
Section Layers.
  Variable env : penv.
  Variable rank : callee -> nat.
  Hypothesis HL : layered env rank.
  Variable M : structure.
  Variable qsem : qkind -> list sort -> (list (D M) -> list (D M)) -> D M.
  Hypothesis qext : extensional M qsem.
  Definition agree_on (P : callee -> Prop) (m1 m2 : callee -> realm -> list (D M) -> list (D M) -> D M) : Prop :=
    forall c, P c -> forall r vs ve, m1 c r vs ve = m2 c r vs ve.
  Lemma value_calls P m1 m2 : agree_on P m1 m2 -> forall t r sc, calls_only P t -> value env qsem m1 t r sc = value env qsem m2 t r sc.
  Proof.
    intros A. unfold calls_only.
    induction t as [x ty t1 t2 IH1 IH2|c l d IHc IHl IHd|vs c l d IHc IHl IHd|q vs b IHb|x|f args IH|o ts IH|m f|m f l IH|m l IH]
      using term_ind'; intros r sc C; cbn [value].
    - destruct C as (_ & C1 & C2). rewrite IH1 by auto. apply IH2; auto.
    - destruct C as (_ & C1 & C2 & C3). rewrite IHc, IHl, IHd by auto. reflexivity.
    - destruct C as (_ & C1 & C2 & C3). f_equal. apply qext. intros ds _. rewrite IHc, IHl, IHd by auto. reflexivity.
    - destruct C as (_ & C1). destruct r.
      + apply qext. intros ds _. f_equal. apply IHb; auto.
      + f_equal. apply squantify_ext; [intros y; reflexivity|]. intros a a' Ha. f_equal.
        rewrite IHb by auto. apply value_ext; auto.
    - reflexivity.
    - apply everywhere_app in C. destruct C as [_ C]. rewrite Forall_forall in C, IH.
      apply fn_value_ext. intros r'. apply map_ext_in. intros e He. apply IH; auto.
    - apply everywhere_infix in C. destruct C as [_ C]. rewrite Forall_forall in C, IH.
      apply infix_value_ext. intros r'. apply map_ext_in. intros e He. apply IH; auto.
    - destruct C as [C _]. apply A. exact C.
    - apply everywhere_step in C. destruct C as [C0 C]. rewrite Forall_forall in C, IH. rewrite (A _ C0).
      f_equal; apply map_ext_in; intros e He; apply IH; auto.
    - apply everywhere_mac in C. destruct C as [C0 C]. rewrite Forall_forall in C, IH. rewrite (A _ C0).
      f_equal; apply map_ext_in; intros e He; apply IH; auto.
  Qed.
  Lemma call_value_below m1 m2 c r vs ve : agree_on (fun c' => rank c' < rank c) m1 m2 -> call_value env qsem m1 c r vs ve = call_value env qsem m2 c r vs ve.
  Proof.
    intros A. destruct c as [m|b f]; cbn [call_value].
    - destruct (e_macros env m) as [mc|] eqn:E; auto. apply (value_calls _ _ _ A). apply (proj1 HL _ _ E).
    - destruct (e_functions env f) as [fc|] eqn:E; auto. destruct (fc_step fc) as [st|] eqn:Es; auto.
      apply (value_calls _ _ _ A). apply (proj2 HL b _ _ _ E Es).
  Qed.
  Fixpoint mval_upto (n : nat) : callee -> realm -> list (D M) -> list (D M) -> D M :=
    match n with
    | 0 => fun _ _ _ _ => dinj M false
    | S k => call_value env qsem (mval_upto k)
    end.
  Lemma mval_upto_stable : forall n n' c, rank c < n -> rank c < n' -> forall r vs ve, mval_upto n c r vs ve = mval_upto n' c r vs ve.
  Proof.
    induction n as [|n IH]; intros [|n'] c H H' r vs ve; try lia. cbn [mval_upto]. apply call_value_below.
    intros c' Hc r' vs' ve'. apply IH; lia.
  Qed.
  Lemma calls_meaning : exists mval, unfolds env qsem mval /\
    forall mval', unfolds env qsem mval' -> forall c r vs ve, mval' c r vs ve = mval c r vs ve.
  Proof.
    set (mval := fun c => mval_upto (S (rank c)) c).
    assert (U : unfolds env qsem mval).
    { intros c r vs ve. unfold mval at 1. cbn [mval_upto]. apply call_value_below. intros c' Hc r' vs' ve'. apply mval_upto_stable; lia. }
    exists mval. split; auto. intros mval' U' c.
    remember (rank c) as n eqn:E. revert c E. induction n as [n IH] using lt_wf_ind. intros c -> r vs ve.
    rewrite U, U'. apply call_value_below. intros c' Hc r' vs' ve'. eapply IH; eauto.
  Qed.
End Layers.

(* ---------- termination ---------- *)
Definition cv {A} (m : nat -> Parser_Model.M A) : Prop := forall s, exists n o, o <> Timeout /\ forall k, n <= k -> m k s = o.
Lemma cv_const {A} (m : Parser_Model.M A) : (forall s, m s <> Timeout) -> cv (fun _ => m).
Proof. intros H s. exists 0, (m s). auto. Qed.
Lemma cv_S {A} (m m' : nat -> Parser_Model.M A) : (forall k, m (S k) = m' k) -> cv m' -> cv m.
Proof.
  intros H C s. destruct (C s) as (n & o & Ho & Hk). exists (S n), o. split; auto. intros [|k] Hle; [lia|]. rewrite H. apply Hk. lia.
Qed.
Lemma cv_bind {A B} (m : nat -> Parser_Model.M A) (f : nat -> A -> Parser_Model.M B) : cv m -> (forall a, cv (fun k => f k a)) ->
  cv (fun k => bind (m k) (f k)).
Proof.
  intros C F s. destruct (C s) as (n & o & Ho & Hk). destruct o as [| | |a s'].
  - congruence.
  - exists n, Error. split; [discriminate|]. intros k L. unfold bind. rewrite Hk; auto.
  - exists n, Panic. split; [discriminate|]. intros k L. unfold bind. rewrite Hk; auto.
  - destruct (F a s') as (n' & o' & Ho' & Hk'). exists (Nat.max n n'), o'. split; auto. intros k L. unfold bind. rewrite Hk by lia. apply Hk'. lia.
Qed.
Lemma cv_mapMM {A B} (f : nat -> A -> Parser_Model.M B) : forall l, (forall a, In a l -> cv (fun k => f k a)) -> cv (fun k => mapMM (f k) l).
Proof.
  induction l as [|a l IH]; intros H; cbn [mapMM].
  - apply cv_const. discriminate.
  - apply cv_bind; [apply H; cbn; auto|]. intros b. apply cv_bind; [apply IH; intros; apply H; cbn; auto|]. intros bs. apply cv_const. discriminate.
Qed.
Lemma lift_cv {A} f s : @lift A f s <> Timeout.
Proof. unfold lift. destruct (f (p_heap s)) as [[h [x|e]]|]; discriminate. Qed.
Lemma bind_nt {A B} (m : Parser_Model.M A) (f : A -> Parser_Model.M B) s : (forall s, m s <> Timeout) -> (forall a s, f a s <> Timeout) -> bind m f s <> Timeout.
Proof. intros H1 H2. unfold bind. destruct (m s) eqn:E; try discriminate; [elim (H1 s); auto|apply H2]. Qed.
Lemma mapMM_nt {A B} (f : A -> Parser_Model.M B) : (forall a s, f a s <> Timeout) -> forall l s, mapMM f l s <> Timeout.
Proof. intros H. induction l; intros s; cbn [mapMM]; [discriminate|]. apply bind_nt; auto. intros b s'. apply bind_nt; auto. discriminate. Qed.
Lemma when_nt {A} (es : option A) f s : (forall a s, f a s <> Timeout) -> when es f s <> Timeout.
Proof. intros H. destruct es; cbn; auto. discriminate. Qed.
Lemma newsig_nt k s : newsig k s <> Timeout.
Proof. unfold newsig. destruct (signature _ _). discriminate. Qed.
Lemma get_function_nt env f r s : get_function_mow env f r s <> Timeout.
Proof. unfold get_function_mow. destruct (_ || _); [discriminate|]. destruct (_ || _); [discriminate|]. destruct (Nat.eqb _ _); [discriminate|]. destruct (e_functions env f); discriminate. Qed.
Lemma binding_nt env x s : parse_binding env x s <> Timeout.
Proof.
  unfold parse_binding. apply bind_nt; [discriminate|]. intros b s0. destruct (_ && _); [discriminate|].
  destruct (e_sorts env (snd x)); [|discriminate]. apply bind_nt; discriminate.
Qed.
Lemma lift_opt_nt {A} (o : option A) s : lift_opt o s <> Timeout.
Proof. destruct o; discriminate. Qed.
Lemma variable_nt r es v s : parse_variable r es v s <> Timeout.
Proof.
  unfold parse_variable. destruct (vsort v); cbn [maybe_evaluated_sort]; try discriminate; destruct r; cbn beta iota; try discriminate;
    try (destruct es; try discriminate; apply bind_nt; intros; try apply lift_cv; discriminate);
    apply bind_nt; intros; try discriminate; apply when_nt; intros; apply lift_cv.
Qed.
Lemma fv_cv fs : cv (fun k => fv_all k fs).
Proof.
  induction fs as [|f fs IH]; cbn [fv_all]; [apply cv_const; discriminate|].
  destruct (free_vars_exact f) as (n & out & H).
  intros s. destruct (IH s) as (n' & o & Ho & Hk).
  assert (C : cv (fun k => l' <- fv_all k fs ;; ret (out ++ l'))) by (apply cv_bind; auto; intros; apply cv_const; discriminate).
  destruct (C s) as (n2 & o2 & Ho2 & Hk2). exists (Nat.max n n2), o2. split; auto. intros k L. 
  rewrite (proj1 H k) by lia. apply Hk2. lia.
Qed.
Lemma newq_cv k vs cs : cv (fun n => new_quantifier n k vs cs).
Proof. unfold new_quantifier. apply cv_bind; [apply fv_cv|]. intros l. apply cv_const. discriminate. Qed.
Lemma with_bv_cv {A} b (m : nat -> Parser_Model.M A) : cv m -> cv (fun k => with_bv b (m k)).
Proof.
  intros H. unfold with_bv. apply cv_bind; [apply cv_const; discriminate|]. intros b0. apply cv_bind; [apply cv_const; discriminate|].
  intros u. apply cv_bind; auto. intros a. apply cv_const. discriminate.
Qed.
Lemma in_zip {A} (l : list A) : forall ps rep p a, In (p, a) (zip_args ps rep l) -> In a l.
Proof.
  induction l as [|b l IH]; intros ps rep p a H; cbn in H; [destruct H|]. destruct ps as [|q ps]; [destruct rep as [q|]; [|destruct H]|];
    (destruct H as [[= <- <-]|H]; [cbn; auto|right; eauto]).
Qed.
Lemma out_realm h k : as_option (fst (signature h k)) (sout (snd (signature h k))) = out_sort k.
Proof. apply sig_out. Qed.

Lemma app_cv env r es fc args :
  (forall a es', In a args -> cv (fun k => parse env k a (match out_sort (fc_kind fc) with Some s => match sort_realm s with Some r' => r' | None => r end | None => r end) es')) ->
  cv (fun k => parse_application (parse env k) r es fc args).
Proof.
  intros H s. unfold parse_application. unfold bind at 1. unfold newsig.
  destruct (signature (p_heap s) (fc_kind fc)) as [h sg] eqn:E. unfold bind at 1. unfold readp at 1.
  pose proof (out_realm (p_heap s) (fc_kind fc)) as Eo. rewrite E in Eo. cbn [fst snd] in Eo. cbn [p_heap]. rewrite Eo.
  match goal with |- exists n o, o <> Timeout /\ forall k, n <= k -> bind (@?g k) ?F ?s0 = o =>
    assert (C : cv (fun k => bind (g k) F)); [|exact (C s0)] end.
  apply cv_bind.
  - apply cv_mapMM. intros [p a] Ha. cbn [fst snd]. apply in_zip in Ha.
    replace (match match out_sort (fc_kind fc) with Some s0 => sort_realm s0 | None => None end with Some r' => r' | None => r end)
      with (match out_sort (fc_kind fc) with Some s => match sort_realm s with Some r' => r' | None => r end | None => r end)
      by (destruct (out_sort (fc_kind fc)); reflexivity).
    apply H; auto.
  - intros nargs. apply cv_const. intros s1. destruct (negb _); [discriminate|].
    apply bind_nt; [discriminate|]. intros o2 s2. apply bind_nt; [intros; destruct (fc_name fc) as [[]|]; discriminate|].
    intros [[f fr] hs] s3. apply bind_nt; [intros; destruct r, (sym_realm fr), hs; discriminate|]. intros f1 s4.
    apply bind_nt; [discriminate|]. intros oo s5. apply bind_nt; [|discriminate]. intros s6. apply when_nt. intros p s7. apply bind_nt; [|discriminate].
    intros. apply lift_cv.
Qed.

Lemma all_in env rm rs n r l : fold_right (fun a P => calls_below env rm rs n r a /\ P) True l <-> (forall a, In a l -> calls_below env rm rs n r a).
Proof.
  induction l as [|a l IH]; cbn; [split; auto; intros _ a []|]. rewrite IH. split.
  - intros [H1 H2] b [<-|Hb]; auto.
  - intros H. split; auto.
Qed.

Lemma name_cv env f r es args : (forall a es', In a args -> cv (fun k => parse env k a (args_realm env f r) es')) ->
  cv (fun k => parse_app env (parse env k) r es f args).
Proof.
  intros H. unfold parse_app. intros s. 
  destruct (get_function_mow env f r s) as [| | |fc s'] eqn:E.
  - elim (get_function_nt env f r s). auto.
  - exists 0, Error. split; [discriminate|]. intros. unfold bind. rewrite E. reflexivity.
  - exists 0, Panic. split; [discriminate|]. intros. unfold bind. rewrite E. reflexivity.
  - pose proof E as E'. apply get_function_spec in E. destruct E as [-> E].
    destruct (app_cv env r es fc args) with (s := s) as (n & o & Ho & Hk).
    + intros a es' Ha. unfold args_realm in H. rewrite E in H. auto.
    + exists n, o. split; auto. intros k L. unfold bind. rewrite E'. auto.
Qed.
Lemma const_var_cv env x r es : cv (fun k => parse_const_var env (parse env k) r es x).
Proof.
  unfold parse_const_var. apply cv_bind; [apply cv_const; discriminate|]. intros b.
  match goal with |- context [find ?p b] => destruct (find p b) as [[y v]|] end; [apply cv_const; apply variable_nt|].
  apply cv_bind; [apply cv_const; apply get_function_nt|]. intros fc. apply app_cv. intros a es' [].
Qed.
Lemma fold_cv env g r es : forall ts acc, (forall a es', In a ts -> cv (fun k => parse env k a r es')) -> cv (fun k => fold_infix (parse env k) g r es acc ts).
Proof.
  induction ts as [|t ts IH]; intros acc H; cbn [fold_infix]; [apply cv_const; discriminate|].
  apply cv_bind; [apply H; cbn; auto|]. intros h. apply IH. intros; apply H; cbn; auto.
Qed.
Lemma andor_cv env r es b ts : (forall a es', In a ts -> cv (fun k => parse env k a r es')) -> cv (fun k => parse_andor (parse env k) r es b ts).
Proof.
  intros H. destruct r; cbn [parse_andor].
  - destruct ts as [|t ts]; [apply cv_const; discriminate|]. apply cv_bind; [apply H; cbn; auto|]. intros h. apply fold_cv. intros; apply H; cbn; auto.
  - apply app_cv. intros. destruct b; apply H; auto.
Qed.

Lemma in_pairs o : forall ts a, In a (pairs o ts) -> exists x y, a = TInfix o [x; y] /\ In x ts /\ In y ts.
Proof.
  induction ts as [|x ts IH]; intros a H; [destruct H|]. destruct ts as [|y ts]; [destruct H|].
  change (pairs o (x :: y :: ts)) with (TInfix o [x; y] :: pairs o (y :: ts)) in H. destruct H as [<-|H].
  - exists x, y. cbn. auto.
  - apply IH in H. destruct H as (x' & y' & -> & Hx & Hy). exists x', y'. cbn in *. tauto.
Qed.

Section Ranked.
  Variable env : penv.
  Variable rm rs : name -> nat.
  Hypothesis Hrk : ranked env rm rs.
  Definition conv n := forall t r es, calls_below env rm rs n r t -> cv (fun k => parse env k t r es).

  Lemma hardeq_cv ts r es : (forall a es', In a ts -> cv (fun k => parse env k a RSymbolic es')) ->
    cv (fun k => parse env k (TInfix OHardEq ts) r es).
  Proof.
    intros Hs. apply cv_S with (m' := fun k => parse_step env k (parse env k) (TInfix OHardEq ts) r es); [reflexivity|]. cbn [parse_step parse_infix].
    destruct (Nat.eqb (length ts) 2); [apply app_cv; intros; apply Hs; auto|].
    apply cv_S with (m' := fun k => parse_step env k (parse env k) (TInfix OAnd (pairs OHardEq ts)) r es); [reflexivity|]. cbn [parse_step parse_infix].
    apply andor_cv. intros a es' Ha. apply in_pairs in Ha. destruct Ha as (x & y & -> & Hx & Hy).
    apply cv_S with (m' := fun k => parse_step env k (parse env k) (TInfix OHardEq [x; y]) r es'); [reflexivity|]. cbn [parse_step parse_infix].
    apply app_cv. intros a es2 [<-|[<-|[]]]; apply Hs; auto.
  Qed.

  Lemma conv_all : forall n, conv n.
  Proof.
    induction n as [n IHn] using lt_wf_ind. unfold conv.
    induction t as [x ty t1 t2 IH1 IH2|c l d IHc IHl IHd|vs c l d IHc IHl IHd|q vs b IHb|x|f args IH|o ts IH|m f|m f l IH|m l IH]
      using term_ind'; intros r es H; cbn [calls_below] in H;
      match goal with |- cv (fun k => parse env k ?t r es) =>
        apply cv_S with (m' := fun k => parse_step env k (parse env k) t r es); [reflexivity|]; cbn [parse_step] end.
    - destruct H as [H1 H2]. unfold parse_let. apply cv_bind; [apply cv_const, binding_nt|]. intros v.
      apply cv_bind; [apply IH1; auto|]. intros f1. apply cv_bind; [apply IH2; auto|]. intros f2. apply cv_const. intros. apply lift_opt_nt.
    - destruct H as (H1 & H2 & H3). unfold parse_if. apply cv_bind; [apply IHc; auto|]. intros ?. apply cv_bind; [apply IHl; auto|].
      intros ?. apply cv_bind; [apply IHd; auto|]. intros ?. apply cv_const. discriminate.
    - destruct H as (H1 & H2 & H3). unfold parse_find.
      apply cv_bind; [apply cv_const; intros; apply when_nt; intros; apply lift_cv|]. intros ?.
      apply cv_bind; [apply IHd; auto|]. intros ?. apply cv_bind; [apply cv_const; discriminate|]. intros ?.
      apply cv_bind; [apply cv_const; apply mapMM_nt; apply binding_nt|]. intros ?.
      apply cv_bind; [apply IHc; auto|]. intros ?. apply cv_bind; [apply IHl; auto|]. intros ?.
      apply cv_bind; [apply cv_const; discriminate|]. intros ?. apply cv_bind; [apply newq_cv|]. intros ?. apply cv_const. discriminate.
    - unfold parse_quant. apply cv_bind; [apply cv_const; intros; apply when_nt; intros; apply lift_cv|]. intros ?.
      apply cv_bind; [apply cv_const; discriminate|]. intros ?. apply cv_bind; [apply cv_const; apply mapMM_nt; apply binding_nt|]. intros ?.
      apply cv_bind; [apply IHb; auto|]. intros ?. apply cv_bind; [apply cv_const; discriminate|]. intros ?.
      destruct r; [apply newq_cv|apply cv_const; discriminate].
    - apply const_var_cv.
    - rewrite all_in in H. rewrite Forall_forall in IH. apply name_cv. intros a es' Ha. apply IH; auto.
    - destruct H as [Ho H]. rewrite all_in in H. rewrite Forall_forall in IH.
      assert (HH : forall a es', In a ts -> cv (fun k => parse env k a (match o with OHardEq => RSymbolic | _ => r end) es')) by (intros; apply IH; auto).
      clear IH H. destruct o; cbn [parse_infix].
      + destruct (Nat.eqb (length ts) 2); [apply app_cv; auto|].
        apply cv_S with (m' := fun k => parse_step env k (parse env k) (TInfix OAnd (pairs OHardEq ts)) r es); [reflexivity|]. cbn [parse_step parse_infix].
        apply andor_cv. intros a es' Ha. apply in_pairs in Ha. destruct Ha as (x & y & -> & Hx & Hy).
        apply hardeq_cv. intros a es2 [<-|[<-|[]]]; auto.
      + destruct r; [apply hardeq_cv; auto|apply app_cv; auto].
      + apply cv_S with (m' := fun k => parse_step env k (parse env k) (TApp n_not [TInfix OEq ts]) r es); [reflexivity|]. cbn [parse_step].
        apply name_cv. intros a es' [<-|[]].
        apply cv_S with (m' := fun k => parse_step env k (parse env k) (TInfix OEq ts) (args_realm env n_not r) es'); [reflexivity|]. cbn [parse_step parse_infix].
        replace (args_realm env n_not r) with r by (destruct r; reflexivity).
        destruct r; [apply hardeq_cv; auto|apply app_cv; auto].
      + apply andor_cv; auto.
      + apply andor_cv; auto.
      + apply app_cv. intros. destruct r; apply HH; auto.
      + rewrite (Ho eq_refl) in *. apply app_cv; auto.
    - unfold parse_step_mac. apply cv_bind; [apply const_var_cv|]. intros [v|g a|q vs b]; try (apply cv_const; discriminate).
      destruct (e_functions env f) as [[g' k' nm [st|]]|] eqn:E; try (apply cv_const; discriminate).
      destruct (Hrk r) as [_ Hs]. destruct (Hs f _ st E eq_refl) as [Hm Hc].
      apply cv_bind; [apply with_bv_cv; apply (IHn (rs f) H); destruct m; auto|]. intros t. apply cv_const. intros s. destruct (negb _); [discriminate|apply lift_opt_nt].
    - destruct H as [H Hl]. rewrite all_in in Hl. rewrite Forall_forall in IH.
      unfold parse_step_mac. apply cv_bind; [apply name_cv; intros; apply IH; auto|]. intros [v|g a|q vs b]; try (apply cv_const; discriminate).
      destruct (e_functions env f) as [[g' k' nm [st|]]|] eqn:E; try (apply cv_const; discriminate).
      destruct (Hrk r) as [_ Hs]. destruct (Hs f _ st E eq_refl) as [Hm Hc].
      apply cv_bind; [apply with_bv_cv; apply (IHn (rs f) H); destruct m; auto|]. intros t. apply cv_const. intros s. destruct (negb _); [discriminate|apply lift_opt_nt].
    - destruct H as (H & Ha & Hb). rewrite all_in in Ha, Hb. rewrite Forall_forall in IH. unfold parse_macro.
      destruct (e_macros env m) as [mc|] eqn:E; [|apply cv_const; discriminate]. destruct (negb _); [apply cv_const; discriminate|].
      apply cv_bind.
      + apply cv_mapMM. intros [p a] Hp. cbn [fst snd]. apply in_combine_r in Hp. 
        destruct (match sort_realm (snd p) with Some r' => r' | None => r end); apply IH; auto.
      + intros fs. destruct (Hrk r) as [Hm _]. apply cv_bind; [apply with_bv_cv; apply (IHn (rm m) H); eauto|]. intros t. apply cv_const. intros. apply lift_opt_nt.
  Qed.
End Ranked.

(* ---------- arities ---------- *)
Lemma mapMM_length {A B} (f : A -> Parser_Model.M B) : forall l s bs s', mapMM f l s = Done bs s' -> length bs = length l.
Proof.
  induction l as [|a l IH]; intros s bs s' H; cbn [mapMM] in H.
  - unfold ret in H. injection H as <- <-. auto.
  - apply bind_done in H; destruct H as (b & s1 & H1 & H). apply bind_done in H; destruct H as (bs' & s2 & H2 & H).
    unfold ret in H. injection H as <- <-. cbn. f_equal. eauto.
Qed.
Lemma sig_fixed h k n : arity k = Some n -> length (sargs (snd (signature h k))) = n /\ srep (snd (signature h k)) = None.
Proof. destruct k; cbn; intros [= <-]; rewrite ?map_length; auto. Qed.
Lemma zip_args_more {A} : forall ps (l l' : list A), length l = length ps -> zip_args ps None (l ++ l') = zip_args ps None l.
Proof.
  induction ps as [|p ps IH]; intros [|a l] l' H; try discriminate; cbn.
  - destruct l'; reflexivity.
  - rewrite IH; auto.
Qed.
Lemma bind_ext {A B} (m : Parser_Model.M A) (k k' : A -> Parser_Model.M B) s : (forall a s', m s = Done a s' -> k a s' = k' a s') -> bind m k s = bind m k' s.
Proof. intros H. unfold bind. destruct (m s) eqn:E; auto. Qed.
Lemma application_more rec r es fc args extra s : arity (fc_kind fc) = Some (length args) ->
  parse_application rec r es fc (args ++ extra) s = parse_application rec r es fc args s.
Proof.
  intros H. unfold parse_application. apply bind_ext. intros sg s1 H1. apply newsig_same in H1. destruct H1 as (_ & -> & _).
  pose proof (sig_fixed (p_heap s) _ _ H) as [H1 H2]. rewrite H2, zip_args_more by auto. reflexivity.
Qed.
Lemma application_arity rec r es fc args s f s' n : arity (fc_kind fc) = Some n -> parse_application rec r es fc args s = Done f s' -> n <= length args.
Proof.
  intros Ha H. unfold parse_application in H.
  apply bind_done in H; destruct H as (sg & s0 & H0 & H). apply newsig_same in H0. destruct H0 as (S0 & -> & Hh).
  apply bind_done in H; destruct H as (o & s1 & H1 & H). apply bind_done in H; destruct H as (nargs & s2 & H2 & H).
  apply mapMM_length in H2. destruct (sig_fixed (p_heap s) _ _ Ha) as [L R]. rewrite R in H2.
  destruct (zip_args_snd args (sargs (snd (signature (p_heap s) (fc_kind fc)))) None) as (m & _ & Hz & _). rewrite Hz, L in H2 by auto.
  destruct (args_size_ok (fc_kind fc) (length nargs)) eqn:Hok; [|discriminate].
  assert (length nargs = n) by (destruct (fc_kind fc); cbn in *; try discriminate; injection Ha as <-; apply Nat.eqb_eq in Hok; rewrite ?map_length in *; auto).
  lia.
Qed.

(* ---------- binders of an accepted quantifier ---------- *)
Lemma bindings_fresh env : forall vs s vars s', mapMM (parse_binding env) vs s = Done vars s' -> e_shadowing env = false ->
  NoDup (map fst vs) /\ (forall x ty, In (x, ty) vs -> e_functions env x = None /\ ~ In x (map fst (p_bv s)) /\ e_sorts env ty <> None).
Proof.
  induction vs as [|[x ty] vs IH]; intros s vars s' H Hs; [split; [constructor|intros ? ? []]|]. cbn [mapMM] in H.
  apply bind_done in H; destruct H as (v & s1 & H1 & H). apply bind_done in H; destruct H as (bs' & s2 & H2 & H).
  assert (Ht : e_sorts env ty <> None).
  { unfold parse_binding in H1. apply bind_done in H1. destruct H1 as (b & s3 & _ & H1). destruct (_ && _); [discriminate|].
    cbn [snd] in H1. destruct (e_sorts env ty); discriminate. }
  apply binding_good in H1. destruct H1 as (_ & B & _ & _ & F). destruct (F Hs) as [F1 F2].
  apply IH in H2; auto. destruct H2 as [N I]. rewrite B, map_app in I. cbn [map fst] in I. split.
  - cbn. constructor; auto. intros Hin. apply in_map_iff in Hin. destruct Hin as ([y ty'] & E & Hin). cbn in E. subst y.
    apply I in Hin. destruct Hin as (_ & Hin & _). apply Hin. apply in_or_app. right. cbn. auto.
  - intros y ty' [[= <- <-]|Hin]; auto. apply I in Hin. destruct Hin as (I1 & I2 & I3). split; auto. split; auto. intros Hy. apply I2. apply in_or_app. auto.
Qed.
Lemma quant_fresh env fuel q vs b r es s f s' : e_shadowing env = false -> parse env fuel (TQuant q vs b) r es s = Done f s' ->
  NoDup (map fst vs) /\ (forall x ty, In (x, ty) vs -> e_functions env x = None /\ ~ In x (map fst (p_bv s)) /\ e_sorts env ty <> None).
Proof.
  intros Hs H. destruct fuel as [|k]; [discriminate|]. cbn [parse parse_step] in H. unfold parse_quant in H.
  apply bind_done in H; destruct H as (u & s0 & H0 & H). apply when_same in H0; [|intros; eapply lift_same; eauto].
  apply bind_done in H; destruct H as (bn & s1 & H1 & H). unfold getbv in H1. injection H1 as <- <-.
  apply bind_done in H; destruct H as (vars & s2 & H2 & H). apply bindings_fresh in H2; auto. destruct H0 as [<- _]. auto.
Qed.

(* ---------- order declarations ---------- *)
Lemma order_args_spec env : forall args id s l s', order_args env id args s = Done l s' ->
  s' = s /\ l = combine (map fst args) (map snd l) /\ bound env id args (map snd l) /\ map fst l = map fst args.
Proof.
  induction args as [|[x ty] args IH]; intros id s l s' H; cbn [order_args] in H.
  - unfold ret in H. injection H as <- <-. cbn. auto.
  - cbn [fst snd] in H. destruct (e_sorts env ty) as [so|] eqn:E; [|discriminate].
    apply bind_done in H; destruct H as (l' & s1 & H1 & H). unfold ret in H. injection H as <- <-.
    apply IH in H1. destruct H1 as (-> & H1 & H2 & H3). cbn. rewrite H3, <- H1. unfold sort_named. rewrite E. auto.
Qed.
Lemma order_qs env fuel o s r s' : parse_order env fuel o s = Done r s' ->
  gentle env true (length (od_args o)) (od_t1 o) -> gentle env true (length (od_args o)) (od_t2 o) ->
  (forall g, od_guard o = Some g -> gentle env true (length (od_args o)) g) -> exists l, p_qs s' = p_qs s ++ l.
Proof.
  intros H P1 P2 Pg. unfold parse_order in H.
  apply bind_done in H; destruct H as (l & s0 & H0 & H). apply order_args_spec in H0. destruct H0 as (-> & El & Bl & Nl).
  assert (Ll : length l = length (od_args o)) by (rewrite <- (map_length fst l), Nl, map_length; reflexivity). rewrite <- Ll in P1, P2, Pg.
  apply bind_done in H; destruct H as (u & s1 & H1 & H). unfold setbv in H1. injection H1 as _ <-.
  assert (Hn : numbered l) by (rewrite El; exact (bound_numbered env (od_args o) [] _ numbered_nil Bl)).
  apply bind_done in H; destruct H as (g & s1 & H1 & H).
  assert (E1 : ext true (mkPst (p_heap s) l (p_qs s)) s1).
  { destruct (od_guard o) as [t|] eqn:Eg.
    - apply (parse_good env true) in H1; auto. apply H1.
    - unfold ret in H1. injection H1 as <- <-. apply ext_refl. }
  clear H1. destruct E1 as [E1 (l1 & Q1 & _)]. cbn [p_bv p_qs] in *.
  apply bind_done in H; destruct H as (u1 & s2 & H1 & H). unfold truncbv in H1. rewrite E1, firstn_all in H1. injection H1 as <- <-.
  apply bind_done in H; destruct H as (t1 & s2 & H1 & H). apply (parse_good env true) in H1; auto. destruct H1 as [[E2 (l2 & Q2 & _)] R1]. cbn [p_bv p_qs] in *.
  apply bind_done in H; destruct H as (u2 & s3 & H1 & H). unfold truncbv in H1. rewrite E2, firstn_all in H1. injection H1 as <- <-.
  apply bind_done in H; destruct H as (t2 & s3 & H1 & H). apply (parse_good env true) in H1; auto. destruct H1 as [[E3 (l3 & Q3 & _)] R2]. cbn [p_bv p_qs] in *.
  apply bind_done in H; destruct H as (u3 & s4 & H1 & H). unfold truncbv in H1. injection H1 as <- <-.
  unfold ret in H. injection H as <- <-. cbn [p_qs]. exists (l1 ++ l2 ++ l3). rewrite Q3, Q2, Q1, !app_assoc. reflexivity.
Qed.
Lemma order_good env fuel o s r s' : parse_order env fuel o s = Done r s' ->
  gentle env true (length (od_args o)) (od_t1 o) -> gentle env true (length (od_args o)) (od_t2 o) ->
  (forall g, od_guard o = Some g -> gentle env true (length (od_args o)) g) ->
  well_scoped 0 (order_axiom r) /\
  (e_shadowing env = false -> NoDup (map fst (od_args o)) -> counted env (od_t1 o) -> counted env (od_t2 o) ->
   (forall g, od_guard o = Some g -> counted env g) ->
   forall (M : structure) qsem mval, unfolds env qsem mval -> extensional M qsem -> respects qsem (p_qs s') -> forall rho : Semantics_Spec.env M,
     dtest M (eval (order_axiom r) rho) = order_meaning env qsem mval o).
Proof.
  intros H P1 P2 Pg. unfold parse_order in H.
  apply bind_done in H; destruct H as (l & s0 & H0 & H). apply order_args_spec in H0. destruct H0 as (-> & El & Bl & Nl).
  assert (Ll : length l = length (od_args o)) by (rewrite <- (map_length fst l), Nl, map_length; reflexivity). rewrite <- Ll in P1, P2, Pg.
  apply bind_done in H; destruct H as (u & s1 & H1 & H). unfold setbv in H1. injection H1 as _ <-.
  set (vars := map snd l) in *.
  assert (Hn : numbered l) by (rewrite El; exact (bound_numbered env (od_args o) [] vars numbered_nil Bl)).
  apply bind_done in H; destruct H as (g & s1 & H1 & H).
  assert (G1 : ext true (mkPst (p_heap s) l (p_qs s)) s1 /\
    match od_guard o with Some t => post env l (p_qs s1) t REvaluated g | None => g = TRUE end).
  { destruct (od_guard o) as [t|] eqn:Eg.
    - apply (parse_good env true) in H1; auto. destruct H1 as [E1 Q1]. rewrite (proj1 E1) in Q1. auto.
    - unfold ret in H1. injection H1 as <- <-. split; auto. apply ext_refl. }
  clear H1. destruct G1 as [E1 G1]. destruct E1 as [E1 (l1 & Q1 & _)]. cbn [p_bv p_qs] in *.
  apply bind_done in H; destruct H as (u1 & s2 & H1 & H). unfold truncbv in H1. rewrite E1, firstn_all in H1. injection H1 as <- <-.
  apply bind_done in H; destruct H as (t1 & s2 & H1 & H). apply (parse_good env true) in H1; auto. destruct H1 as [[E2 (l2 & Q2 & _)] R1]. cbn [p_bv p_qs] in *. rewrite E2 in R1.
  apply bind_done in H; destruct H as (u2 & s3 & H1 & H). unfold truncbv in H1. rewrite E2, firstn_all in H1. injection H1 as <- <-.
  apply bind_done in H; destruct H as (t2 & s3 & H1 & H). apply (parse_good env true) in H1; auto. destruct H1 as [[E3 (l3 & Q3 & _)] R2]. cbn [p_bv p_qs] in *. rewrite E3 in R2.
  apply bind_done in H; destruct H as (u3 & s4 & H1 & H). unfold truncbv in H1. rewrite E3, firstn_all in H1. injection H1 as <- <-.
  unfold ret in H. injection H as <- <-. cbn [p_qs] in *.
  assert (Hvars : forall v, In v vars -> 0 <= vid v) by (intros; lia).
  split.
  - unfold order_axiom. cbn [or_q or_vars or_guard or_kind]. destruct (bound_new env 0 _ _ Bl) as [A B]. apply (ws_quant 0 (od_q o) vars); [exact A|exact B|].
    assert (Ll' : 0 + length vars = length l) by (unfold vars; rewrite map_length; auto). rewrite Ll'.
    apply ws_fun. constructor; [|constructor; [|constructor]].
    + destruct (od_guard o); [apply G1|subst g; apply ws_fun; constructor].
    + destruct (od_kind o); repeat (apply ws_fun; repeat constructor); try apply R1; try apply R2.
  - intros Hsh Hnd C1 C2 Cg M qsem mval U Q R rho. unfold order_axiom. cbn [or_q or_vars or_guard or_kind eval]. rewrite (dtest_inj M).
    assert (R1' : respects qsem (p_qs s2)) by (rewrite Q3 in R; eapply respects_app; eauto).
    assert (Rg : respects qsem (p_qs s1)) by (rewrite Q2 in R1'; eapply respects_app; eauto).
    assert (Hnl : NoDup (map fst l)) by (rewrite Nl; auto).
    unfold order_meaning.
    set (k' := fun sc : scope M => _ : bool).
    assert (Hk : forall a b, eqsc M a b -> k' a = k' b).
    { intros a b Hab. unfold k'. rewrite !(value_ext M env qsem mval Q _ _ _ _ Hab).
      destruct (od_guard o) as [t|]; [rewrite (value_ext M env qsem mval Q t _ _ _ Hab)|]; reflexivity. }
    etransitivity.
    + apply (quantify_binders env _ k' (od_q o) Hk (od_args o) [] vars rho numbered_nil Bl).
      intros rho'. cbn [List.app]. rewrite <- El. unfold k'.
      pose proof (proj2 R1 Hsh C1 Hnl M qsem mval U Q R1' rho') as V1. pose proof (proj2 R2 Hsh C2 Hnl M qsem mval U Q R rho') as V2.
      assert (Vg : dtest M (eval g rho') = match od_guard o with Some g => dtest M (value env qsem mval g REvaluated (scope_of l rho')) | None => true end).
      { destruct (od_guard o) as [t|]; [f_equal; apply (proj2 G1); auto|subst g; apply (dtest_inj M)]. }
      rewrite <- V1, <- V2, <- Vg. unfold fimp, fnot, fand; destruct (od_kind o); cbn [eval map app]; rewrite ?(dtest_inj M); cbn [forallb]; rewrite ?(dtest_inj M), ?andb_true_r; reflexivity.
    + apply squantify_ext; [intros y; reflexivity|]. intros; apply Hk; auto.
Qed.

(* ---------- statements of Parser_Props ---------- *)
Lemma plain_means env fuel t r es s f s' :
  gentle env true (length (p_bv s)) t -> numbered (p_bv s) -> parse env fuel t r es s = Done f s' -> means env (p_bv s) (p_qs s') t r f.
Proof. intros Hp Hn H. apply (parse_good env true) in H; auto. destruct H as [[E _] [_ V]]. rewrite E in V. exact V. Qed.
Lemma plain_scoped env fuel calls t r es s f s' :
  gentle env calls (length (p_bv s)) t -> numbered (p_bv s) -> parse env fuel t r es s = Done f s' ->
  well_scoped (length (p_bv s)) f /\ p_bv s' = p_bv s /\
  exists l, p_qs s' = p_qs s ++ l /\ Forall (fun q => exists m, (calls = false -> length (p_bv s) <= m) /\ closed_quant m q) l.
Proof. intros Hp Hn H. apply (parse_good env calls) in H; auto. destruct H as [[E (l & Q & N)] [W V]]. rewrite E in W. split; auto. split; auto. exists l. auto. Qed.
Lemma assert_means env fuel t s f s' :
  gentle env true 0 t -> counted env t -> e_shadowing env = false -> parse_assert env fuel t s = Done f s' ->
  forall (M : structure) qsem mval, unfolds env qsem mval -> extensional M qsem -> respects qsem (p_qs s') ->
  forall rho : Semantics_Spec.env M, eval f rho = value env qsem mval t REvaluated (fun _ => None).
Proof.
  intros Hp Hc Hs H M qsem mval U Q R rho. unfold parse_assert in H. apply bind_done in H; destruct H as (u & s1 & H1 & H).
  unfold setbv in H1. injection H1 as _ <-. apply plain_means in H; auto using numbered_nil. cbn [p_bv] in H.
  rewrite (H Hs Hc (NoDup_nil _) M qsem mval U Q R). apply value_ext; auto. intros y. reflexivity.
Qed.
Lemma denotes_get env f r fc s : denotes env f r = Some fc -> get_function_mow env f r s = Done fc s.
Proof.
  unfold get_function_mow, denotes. intros H. 
  destruct (in_dec Nat.eq_dec f [n_true; n_True]) as [I|I].
  { injection H as <-. destruct I as [<-|[<-|[]]]; reflexivity. }
  replace (Nat.eqb f n_true || Nat.eqb f n_True) with false.
  2:{ symmetry. apply orb_false_iff. split; apply Nat.eqb_neq; intros ->; apply I; cbn; auto. }
  destruct (in_dec Nat.eq_dec f [n_false; n_False]) as [I2|I2].
  { injection H as <-. destruct I2 as [<-|[<-|[]]]; reflexivity. }
  replace (Nat.eqb f n_false || Nat.eqb f n_False) with false.
  2:{ symmetry. apply orb_false_iff. split; apply Nat.eqb_neq; intros ->; apply I2; cbn; auto. }
  destruct (Nat.eq_dec f n_not) as [->|I3]; [injection H as <-; reflexivity|].
  apply Nat.eqb_neq in I3. rewrite I3, H. reflexivity.
Qed.
Lemma app_enough_args env fuel f args r es s g s' fc n :
  denotes env f r = Some fc -> arity (fc_kind fc) = Some n ->
  parse env fuel (TApp f args) r es s = Done g s' -> n <= length args.
Proof.
  intros Hd Ha H. destruct fuel as [|k]; [discriminate|]. cbn [parse parse_step] in H. unfold parse_app in H.
  apply bind_done in H; destruct H as (fc' & s1 & H1 & H). rewrite (denotes_get _ _ _ _ _ Hd) in H1. injection H1 as <- <-.
  eapply application_arity; eauto.
Qed.
Lemma app_extra_args env fuel f args extra r es s fc :
  denotes env f r = Some fc -> arity (fc_kind fc) = Some (length args) ->
  parse env fuel (TApp f (args ++ extra)) r es s = parse env fuel (TApp f args) r es s.
Proof.
  intros Hd Ha. destruct fuel as [|k]; [reflexivity|]. cbn [parse parse_step]. unfold parse_app. unfold bind.
  rewrite (denotes_get _ _ _ _ _ Hd). apply application_more. exact Ha.
Qed.
Lemma chain_means env fuel o ts r es s f s' :
  Forall (gentle env true (length (p_bv s))) ts -> Forall (counted env) ts -> (o = OAnd \/ o = OOr \/ o = OHardEq \/ length ts = 2) ->
  numbered (p_bv s) -> NoDup (map fst (p_bv s)) -> e_shadowing env = false ->
  parse env fuel (TInfix o ts) r es s = Done f s' ->
  forall (M : structure) qsem mval, unfolds env qsem mval -> extensional M qsem -> respects qsem (p_qs s') -> forall rho : Semantics_Spec.env M,
  eval f rho = infix_value M o r (fun r' => map (fun t => value env qsem mval t r' (scope_of (p_bv s) rho)) ts).
Proof.
  intros Hp Hc Ho Hn Hd Hs H M qsem mval U Q R rho. apply plain_means in H; auto.
  - rewrite (H Hs) with (qsem := qsem) (mval := mval); auto. apply everywhere_infix. split; auto. cbn. destruct o; auto; destruct Ho as [?|[?|[?|?]]]; auto; discriminate.
  - apply gentle_infix. auto.
Qed.
Lemma chain_ignored env fuel o a b rest r es s :
  o = OImplies \/ (o = OEq \/ o = OIff) /\ r = REvaluated ->
  parse env fuel (TInfix o (a :: b :: rest)) r es s = parse env fuel (TInfix o [a; b]) r es s.
Proof.
  intros H. destruct fuel as [|k]; [reflexivity|]. cbn [parse parse_step].
  destruct H as [->|[[-> | ->] ->]]; cbn [parse_infix]; change (a :: b :: rest) with ([a; b] ++ rest); apply application_more; try reflexivity.
  destruct r; reflexivity.
Qed.
Lemma iff_loops env : forall fuel a b es s, parse env fuel (TInfix OIff [a; b]) RSymbolic es s = Timeout.
Proof.
  intros fuel. induction fuel as [fuel IH] using lt_wf_ind. intros a b es s. destruct fuel as [|[|k]]; [reflexivity..|].
  cbn [parse parse_step parse_infix pairs parse_andor]. unfold bind. rewrite (IH k); auto.
Qed.
Lemma macro_loops env m : forall fuel r es s, e_macros env m = Some (mkMac [] (TMac m [])) -> parse env fuel (TMac m []) r es s = Timeout.
Proof.
  induction fuel as [|k IH]; intros r es s H; [reflexivity|]. cbn [parse parse_step]. unfold parse_macro. rewrite H.
  cbn [mc_args mc_body length Nat.eqb negb combine mapMM named_vars]. unfold bind at 1, ret at 1. unfold bind at 1, with_bv.
  unfold bind at 1, getbv. unfold bind at 1, setbv at 1. unfold bind at 1. rewrite IH; auto.
Qed.
Lemma let_means env fuel t r es s f s' :
  let_chain env r (length (p_bv s)) t -> numbered (p_bv s) -> parse env fuel t r es s = Done f s' -> means env (p_bv s) (p_qs s') t r f.
Proof. intros Hc Hn H. eapply let_chain_good; eauto. Qed.
Lemma squantify_pw {M : structure} q vs : forall (a : scope M) k k', (forall a, k a = k' a) -> squantify q vs a k = squantify q vs a k'.
Proof.
  induction vs as [|[x s] vs IH]; intros a k k' H; cbn; auto. destruct q; [apply ex_ext|apply all_ext]; intros d _; apply IH; auto.
Qed.
Lemma order_exchange env fuel fuel' q args g k k' a b s r s1 r' s2 :
  (k = OpGt /\ k' = OpLt \/ k = OpIncompatible /\ k' = OpIncompatible) ->
  parse_order env fuel (mkOrder q args g k a b) s = Done r s1 ->
  parse_order env fuel' (mkOrder q args g k' b a) s1 = Done r' s2 ->
  gentle env true (length args) a -> gentle env true (length args) b -> (forall t, g = Some t -> gentle env true (length args) t) ->
  counted env a -> counted env b -> (forall t, g = Some t -> counted env t) -> e_shadowing env = false -> NoDup (map fst args) ->
  forall (M : structure) qsem mval, unfolds env qsem mval -> extensional M qsem -> respects qsem (p_qs s2) -> forall rho : Semantics_Spec.env M,
    dtest M (eval (order_axiom r) rho) = dtest M (eval (order_axiom r') rho).
Proof.
  intros Hk H1 H2 Pa Pb Pg Ca Cb Cg Hs Hn M qsem mval U Q R rho.
  pose proof (order_qs _ _ _ _ _ _ H2 Pb Pa Pg) as (l & Hl).
  apply order_good in H1; auto. apply order_good in H2; auto. destruct H1 as [_ H1], H2 as [_ H2].
  rewrite (H2 Hs Hn Cb Ca Cg M qsem mval U Q R rho). rewrite (H1 Hs Hn Ca Cb Cg M qsem mval U Q); [|rewrite Hl in R; eapply respects_app; eauto].
  unfold order_meaning. cbn [od_q od_args od_guard od_kind od_t1 od_t2]. apply squantify_pw. intros sc.
  destruct Hk as [[-> ->]|[-> ->]]; auto. f_equal. f_equal. apply andb_comm.
Qed.

Lemma plain_gentle env : forall t n, plain t -> gentle env false n t.
Proof.
  unfold plain. induction t as [x ty t1 t2 IH1 IH2|c l d IHc IHl IHd|vs c l d IHc IHl IHd|q vs b IHb|x|f args IH|o ts IH|m f|m f l IH|m l IH]
    using term_ind'; intros n H.
  - destruct H as [[] _].
  - destruct H as (_ & H1 & H2 & H3). apply ge_if; auto.
  - destruct H as (_ & H1 & H2 & H3). apply ge_find; auto.
  - destruct H as (_ & H1). apply ge_quant; auto.
  - apply ge_var.
  - apply everywhere_app in H. destruct H as [_ H]. rewrite Forall_forall in H, IH. apply ge_app. intros a Ha. apply IH, H; auto.
  - apply everywhere_infix in H. destruct H as [_ H]. rewrite Forall_forall in H, IH. apply ge_infix. intros a Ha. apply IH, H; auto.
  - destruct H as [[] _].
  - destruct H as [[] _].
  - destruct H as [[] _].
Qed.
Lemma gentle_true env calls : forall n t, gentle env calls n t -> gentle env true n t.
Proof.
  fix F 3. intros n t [n0 c a b H1 H2 H3|n0 vs c a b H1 H2 H3|n0 q vs b H1|n0 x|n0 f args H1|n0 o ts H1|n0 b f Hc H1|n0 b f args Hc H1 H2|n0 m args Hc H1 H2].
  - apply ge_if; apply F; assumption.
  - apply ge_find; apply F; assumption.
  - apply ge_quant; apply F; assumption.
  - apply ge_var.
  - apply ge_app. intros a Ha. apply F, H1, Ha.
  - apply ge_infix. intros a Ha. apply F, H1, Ha.
  - apply ge_const; [reflexivity|]. intros fc st E1 E2. destruct (H1 fc st E1 E2) as (A & B & C & D). split; [exact A|]. split; [exact B|]. split; [apply F, C|exact D].
  - apply ge_step; [reflexivity|intros a Ha; apply F, H1, Ha|]. intros fc st E1 E2. destruct (H2 fc st E1 E2) as (A & B & C & D). split; [exact A|]. split; [exact B|]. split; [apply F, C|exact D].
  - apply ge_mac; [reflexivity|intros a Ha; apply F, H1, Ha|]. intros mc E1. destruct (H2 mc E1) as (A & B & C & D). split; [exact A|]. split; [exact B|]. split; [apply F, C|exact D].
Qed.
(* ---------- what elaboration does to the binders in scope, for every term ---------- *)
Definition keeps {A} (m : Parser_Model.M A) : Prop := forall s a s', m s = Done a s' ->
  (exists l, p_bv s' = p_bv s ++ l) /\ (exists q, p_qs s' = p_qs s ++ q).
Lemma keeps_ret {A} (a : A) : keeps (ret a).
Proof. intros s b s' H. unfold ret in H. injection H as _ <-. split; exists []; rewrite app_nil_r; reflexivity. Qed.
Lemma keeps_bind {A B} (m : Parser_Model.M A) (k : A -> Parser_Model.M B) : keeps m -> (forall a, keeps (k a)) -> keeps (bind m k).
Proof.
  intros Hm Hk s b s' H. apply bind_done in H as (a & s1 & H1 & H2). destruct (Hm _ _ _ H1) as [(l1 & E1) (q1 & Q1)], (Hk _ _ _ _ H2) as [(l2 & E2) (q2 & Q2)].
  split; [exists (l1 ++ l2); rewrite E2, E1, app_assoc; reflexivity|exists (q1 ++ q2); rewrite Q2, Q1, app_assoc; reflexivity].
Qed.
Lemma keeps_same {A} (m : Parser_Model.M A) : (forall s a s', m s = Done a s' -> p_bv s' = p_bv s /\ p_qs s' = p_qs s) -> keeps m.
Proof. intros H s a s' Hm. destruct (H _ _ _ Hm) as [E1 E2]. split; exists []; rewrite app_nil_r; assumption. Qed.
Lemma keeps_fail {A} : keeps (@fail A). Proof. intros s a s' H. discriminate. Qed.
Lemma keeps_panic {A} : keeps (@panic A). Proof. intros s a s' H. discriminate. Qed.
Lemma keeps_timeout {A} : keeps (@timeout A). Proof. intros s a s' H. discriminate. Qed.
Lemma keeps_lift {A} f : keeps (@lift A f).
Proof. apply keeps_same. intros s a s' H. unfold lift in H. destruct (f (p_heap s)) as [[h [b|e]]|]; try discriminate. injection H as _ <-. auto. Qed.
Lemma keeps_newsig k : keeps (newsig k).
Proof. apply keeps_same. intros s a s' H. unfold newsig in H. destruct (signature _ k). injection H as _ <-. auto. Qed.
Lemma keeps_readp p : keeps (readp p).
Proof. apply keeps_same. intros s a s' H. unfold readp in H. injection H as _ <-. auto. Qed.
Lemma keeps_getbv : keeps getbv.
Proof. apply keeps_same. intros s a s' H. unfold getbv in H. injection H as _ <-. auto. Qed.
Lemma keeps_push x : keeps (pushbv x).
Proof. intros s a s' H. unfold pushbv in H. injection H as _ <-. cbn. split; [eauto|]. exists []. rewrite app_nil_r. reflexivity. Qed.
Lemma keeps_newq q : keeps (newq q).
Proof. intros s a s' H. unfold newq in H. injection H as _ <-. cbn. split; [|eauto]. exists []. rewrite app_nil_r. reflexivity. Qed.
Lemma keeps_when {A} (es : option A) f : (forall a, keeps (f a)) -> keeps (when es f).
Proof. intros H. destruct es; [apply H|apply keeps_ret]. Qed.
Lemma keeps_map {A B} (f : A -> Parser_Model.M B) : (forall a, keeps (f a)) -> forall l, keeps (mapMM f l).
Proof. intros H. induction l as [|a l IH]; cbn [mapMM]; [apply keeps_ret|]. apply keeps_bind; [apply H|]. intros b. apply keeps_bind; [exact IH|]. intros. apply keeps_ret. Qed.
Lemma keeps_opt {A} (o : option A) : keeps (lift_opt o).
Proof. destruct o; [apply keeps_ret|apply keeps_panic]. Qed.
Lemma keeps_with {A} b (m : Parser_Model.M A) : keeps m -> keeps (with_bv b m).
Proof.
  intros Hm s a s' H. unfold with_bv in H. apply bind_done in H as (b0 & s0 & H0 & H). unfold getbv in H0. injection H0 as <- <-. apply bind_done in H as (u & s1 & H1 & H). unfold setbv in H1. injection H1 as _ <-.
  apply bind_done in H as (a' & s2 & H2 & H). apply bind_done in H as (u' & s3 & H3 & H). unfold setbv in H3. injection H3 as _ <-. unfold ret in H. injection H as _ <-. apply Hm in H2 as [_ (q & Q)]. cbn [p_bv p_qs] in *.
  split; [exists []; rewrite app_nil_r; reflexivity|exists q; exact Q].
Qed.
(** Under new binders that are removed afterwards. *)
Lemma keeps_scope {A B} (m : Parser_Model.M A) (k : A -> Parser_Model.M B) : keeps m -> (forall a, keeps (k a)) -> keeps (bn <- getbv ;; a <- m ;; _ <- truncbv (length bn) ;; k a).
Proof.
  intros Hm Hk s b s' H. apply bind_done in H as (b0 & s0 & H0 & H). unfold getbv in H0. injection H0 as <- <-. apply bind_done in H as (a & s1 & H1 & H). apply bind_done in H as (u & s2 & H2 & H).
  unfold truncbv in H2. injection H2 as _ <-. apply Hm in H1 as [(l & E) (q & Q)]. apply Hk in H as [(l' & E') (q' & Q')]. cbn [p_bv p_qs] in *. rewrite E, firstn_app, Nat.sub_diag, firstn_all, app_nil_r in E'.
  split; [eauto|]. exists (q ++ q'). rewrite Q', Q, app_assoc. reflexivity.
Qed.
Create HintDb keeps.
#[export] Hint Resolve keeps_ret keeps_fail keeps_panic keeps_timeout keeps_lift keeps_newsig keeps_readp keeps_getbv keeps_push keeps_newq keeps_opt : keeps.
Ltac keep := repeat first
  [ solve [auto with keeps] | apply keeps_with | apply keeps_bind | apply keeps_when | apply keeps_map
  | match goal with |- forall _, _ => intro; cbv beta | |- keeps (match ?x with _ => _ end) => destruct x | |- keeps (let _ := _ in _) => cbv zeta end ].
Section Keeps.
  Variable env : penv.
  Lemma keeps_binding x : keeps (parse_binding env x).
  Proof. unfold parse_binding. keep. Qed.
  Lemma keeps_get f r : keeps (get_function_mow env f r).
  Proof. unfold get_function_mow. keep. Qed.
  Lemma keeps_variable r es v : keeps (parse_variable r es v).
  Proof. unfold parse_variable. keep. Qed.
  Lemma keeps_fv fuel fs : keeps (fv_all fuel fs).
  Proof. induction fs as [|f fs IH]; cbn [fv_all]; keep. Qed.
  Lemma keeps_newquant fuel k vs cs : keeps (new_quantifier fuel k vs cs).
  Proof. unfold new_quantifier. pose proof keeps_fv. keep. Qed.
  Lemma keeps_step k rec : (forall t r es, keeps (rec t r es)) -> forall t r es, keeps (parse_step env k rec t r es).
  Proof.
    intros Hr. pose proof keeps_binding as K1. pose proof keeps_get as K2. pose proof keeps_variable as K3. pose proof keeps_newquant as K4.
    assert (Ka : forall r es fc args, keeps (parse_application rec r es fc args)) by (intros; unfold parse_application; keep).
    assert (Kv : forall r es x, keeps (parse_const_var env rec r es x)) by (intros; unfold parse_const_var; keep).
    assert (Kp : forall r es f args, keeps (parse_app env rec r es f args)) by (intros; unfold parse_app; keep).
    assert (Kf : forall f r es ts acc, keeps (fold_infix rec f r es acc ts)) by (intros f r es; induction ts as [|t ts IH]; intros acc; cbn [fold_infix]; keep).
    intros t r es. destruct t; cbn [parse_step].
    - unfold parse_let. keep.
    - unfold parse_if. keep.
    - unfold parse_find. apply keeps_bind; [keep|]. intros _. apply keeps_bind; [keep|]. intros d'.
      intros s a s' H. apply (keeps_scope (vars <- mapMM (parse_binding env) vs ;; c' <- rec t1 RSymbolic (Some (PStatic SCondition)) ;; l' <- rec t2 RSymbolic (Some (PStatic SMessage)) ;; ret (vars, c', l'))
        (fun x => f <- new_quantifier k KFind (fst (fst x)) [snd (fst x); snd x; d'] ;; ret (match r with RSymbolic => f | REvaluated => try_eval SMessage f end)) ltac:(keep) ltac:(keep) s a s').
      revert H. unfold bind, getbv, ret. destruct (mapMM _ _ s) as [| | |vars s1]; try discriminate. destruct (rec t1 _ _ s1) as [| | |c' s2]; try discriminate. destruct (rec t2 _ _ s2) as [| | |l' s3]; try discriminate. exact (fun H => H).
    - unfold parse_quant. cbv zeta. apply keeps_bind; [keep|]. intros _.
      intros s a s' H. apply (keeps_scope (vars <- mapMM (parse_binding env) vs ;; c <- rec t r (Some (PStatic (match r with REvaluated => SBool | RSymbolic => SCondition end))) ;; ret (vars, c))
        (fun x => match r with REvaluated => ret (FQ q (fst x) (snd x)) | RSymbolic => new_quantifier k (match q with QForall => KForall | QExists => KExists end) (fst x) [snd x] end) ltac:(keep) ltac:(keep) s a s').
      revert H. unfold bind, getbv, ret. destruct (mapMM _ _ s) as [| | |vars s1]; try discriminate. destruct (rec t _ _ s1) as [| | |c' s2]; try discriminate. exact (fun H => H).
    - apply Kv.
    - apply Kp.
    - unfold parse_infix, parse_andor. keep.
    - unfold parse_step_mac. keep.
    - unfold parse_macro. keep.
  Qed.
  Lemma parse_keeps : forall fuel t r es, keeps (parse env fuel t r es).
  Proof. induction fuel as [|k IH]; intros t r es; cbn [parse]; [apply keeps_timeout|]. apply keeps_step. exact IH. Qed.
End Keeps.

(** The axiom of an order declaration in terms of what its terms are elaborated to. *)
Lemma order_axiom_good env fuel o s r s' : parse_order env fuel o s = Done r s' ->
  exists l f1 f2 g, map fst l = map fst (od_args o) /\ numbered l /\ map (fun x => Some (vsort (snd x))) l = map (fun x => e_sorts env (snd x)) (od_args o) /\
    (forall t f, In (t, f) [(od_t1 o, f1); (od_t2 o, f2)] -> exists sa sb, p_bv sa = l /\ parse env fuel t REvaluated (Some (PStatic SStep)) sa = Done f sb) /\
    (forall t, od_guard o = Some t -> exists sa sb, p_bv sa = l /\ parse env fuel t REvaluated (Some (PStatic SBool)) sa = Done g sb) /\
    forall (M : structure) (rho : Semantics_Spec.env M), dtest M (eval (order_axiom r) rho) =
      quantify (od_q o) (map snd l) rho (fun rho' =>
        let happens f := dtest M (app Fhappens [eval f rho']) in
        let before a b := implb (happens b) (dtest M (app Fleq [eval a rho'; eval b rho'])) in
        implb (match od_guard o with Some _ => dtest M (eval g rho') | None => true end)
          (match od_kind o with OpLt => before f1 f2 | OpGt => before f2 f1 | OpIncompatible => negb (happens f1 && happens f2) end)).
Proof.
  intros H. unfold parse_order in H.
  apply bind_done in H; destruct H as (l & s0 & H0 & H).
  assert (Hs : map (fun x => Some (vsort (snd x))) l = map (fun x => e_sorts env (snd x)) (od_args o)).
  { clear H. revert H0. generalize 0. revert l s s0. induction (od_args o) as [|[x ty] args IH]; intros l s s0 id H; cbn [order_args] in H; [unfold ret in H; injection H as <- _; reflexivity|].
    cbn [fst snd] in H. destruct (e_sorts env ty) as [so|] eqn:E; [|discriminate]. apply bind_done in H as (l1 & s1 & H1 & H). unfold ret in H. injection H as <- _. cbn. rewrite E. f_equal. eapply IH; eauto. }
  apply order_args_spec in H0. destruct H0 as (-> & El & Bl & Nl).
  apply bind_done in H; destruct H as (u & s1 & H1 & H). unfold setbv in H1. injection H1 as _ <-.
  assert (Hn : numbered l) by (rewrite El; exact (bound_numbered env (od_args o) [] (map snd l) numbered_nil Bl)).
  apply bind_done in H; destruct H as (g & s1 & H1 & H).
  assert (G1 : (exists x, p_bv s1 = l ++ x) /\ (forall t, od_guard o = Some t -> exists sa sb, p_bv sa = l /\ parse env fuel t REvaluated (Some (PStatic SBool)) sa = Done g sb) /\ (od_guard o = None -> g = TRUE)).
  { destruct (od_guard o) as [t|].
    - split; [apply parse_keeps in H1; apply H1|]. split; [|discriminate]. intros t' [= <-]. do 2 eexists. split; [|exact H1]. reflexivity.
    - unfold ret in H1. injection H1 as <- <-. cbn. split; [exists []; rewrite app_nil_r; reflexivity|]. split; [discriminate|auto]. }
  clear H1. destruct G1 as [(x1 & X1) [G1 G0]].
  assert (T : forall x, firstn (length l) (l ++ x) = l) by (intros x; rewrite firstn_app, Nat.sub_diag, firstn_all; apply app_nil_r).
  apply bind_done in H; destruct H as (u1 & s2 & H1 & H). unfold truncbv in H1. rewrite X1, T in H1. injection H1 as <- <-.
  apply bind_done in H; destruct H as (t1 & s2 & H1 & H). pose proof (parse_keeps _ _ _ _ _ _ _ _ H1) as [(x2 & X2) _]. cbn [p_bv] in X2.
  apply bind_done in H; destruct H as (u2 & s3 & H2 & H). unfold truncbv in H2. rewrite X2, T in H2. injection H2 as <- <-.
  apply bind_done in H; destruct H as (t2 & s3 & H2 & H).
  apply bind_done in H; destruct H as (u3 & s4 & H3 & H). unfold truncbv in H3. injection H3 as <- <-. unfold ret in H. injection H as <- <-.
  exists l, t1, t2, g. split; [exact Nl|]. split; [exact Hn|]. split; [exact Hs|]. split.
  { intros t f [[= <- <-]|[[= <- <-]|[]]]; (do 2 eexists; split; [|eassumption]); reflexivity. }
  split; [exact G1|]. intros M rho. unfold order_axiom. cbn [or_q or_vars or_guard or_kind eval]. rewrite (dtest_inj M). apply quantify_ext. intros rho'.
  assert (Vg : dtest M (eval g rho') = match od_guard o with Some _ => dtest M (eval g rho') | None => true end) by (destruct (od_guard o); [reflexivity|rewrite (G0 eq_refl); apply (dtest_inj M)]).
  rewrite <- Vg. unfold fimp, fnot, fand; destruct (od_kind o); cbn [eval map app]; rewrite ?(dtest_inj M); cbn [forallb]; rewrite ?(dtest_inj M), ?andb_true_r; reflexivity.
Qed.
