From Coq Require Import List Arith Bool Lia FinFun.
From Verif Require Import Syntax_Model Syntax_Proofs Traversal_Spec Traversal_Proofs Semantics_Spec Subst_Spec Subst_Model Semantics_Proofs Subst_Proofs Order_Model Order_Spec
  Order_Proofs Macro_Model Binding_Proofs Macro_Proofs Graph_Model Graph_Proofs Expander_Model Expander_Spec.
Import ListNotations.

Lemma all_unique_iff l : all_unique l = true <-> NoDup l.
Proof.
  induction l as [|i l IH]; cbn; [split; [constructor|reflexivity]|]. rewrite andb_true_iff, negb_true_iff, IH. split.
  - intros [H1 H2]. constructor; [|exact H2]. intros Hin. enough (existsb (Nat.eqb i) l = true) by congruence.
    apply existsb_exists. exists i. rewrite Nat.eqb_refl. auto.
  - intros H. inversion H as [|? ? Hi Hn]; subst. split; [|exact Hn]. apply not_true_is_false. intros He.
    apply existsb_exists in He as (j & Hj & E). apply Nat.eqb_eq in E. subst. contradiction.
Qed.

Lemma existsb_id i (l : list nat) : existsb (Nat.eqb i) l = true <-> In i l.
Proof.
  rewrite existsb_exists. split.
  - intros (j & Hj & E). apply Nat.eqb_eq in E. subst. exact Hj.
  - intros H. exists i. rewrite Nat.eqb_refl. auto.
Qed.

Section Collision.
  Context (vars base : list var) (Hvars : NoDup (map vid vars)).
  Let col := collision_subst vars base.
  Let m := match ids_max (map vid (base ++ vars)) with Some m => m | None => 0 end + 1.
  Let new := map (get_var col) vars.

  Lemma bound_max v : In v (base ++ vars) -> vid v < m.
  Proof.
    intros H. assert (Hm := max_var_gt (base ++ vars) v H). unfold max_var, max_var_or_max in Hm. subst m.
    destruct (ids_max (map vid (base ++ vars))); cbn in *; lia.
  Qed.

  Lemma same_var v w : In v vars -> In w vars -> vid v = vid w -> v = w.
  Proof.
    intros Hv Hw E. apply In_nth_error in Hv as (i & Hi). apply In_nth_error in Hw as (j & Hj).
    enough (i = j) by (subst; congruence). rewrite NoDup_nth_error in Hvars. apply Hvars.
    - rewrite map_length. apply nth_error_Some. congruence.
    - rewrite !nth_error_map, Hi, Hj. cbn. congruence.
  Qed.

  Lemma find_col w : match find (fun o => Nat.eqb (fst o) (vid w)) col with
    | Some o => exists v, In v vars /\ vid v = vid w /\ In (vid w) (map vid base) /\ o = (vid v, var_add v m)
    | None => forall v, In v vars -> vid v = vid w -> ~ In (vid w) (map vid base)
    end.
  Proof.
    destruct (find _ col) as [o|] eqn:E.
    - apply find_some in E as [Ho Ew]. apply Nat.eqb_eq in Ew. unfold col, collision_subst in Ho.
      apply in_map_iff in Ho as (v & <- & Hv). apply filter_In in Hv as [Hv Hb]. apply existsb_id in Hb. cbn in Ew.
      exists v. rewrite Ew in *. auto.
    - intros v Hv Evw Hin. enough (Hf : Nat.eqb (fst (vid v, var_add v m)) (vid w) = false) by (cbn in Hf; apply Nat.eqb_neq in Hf; auto).
      apply (find_none _ _ E). unfold col, collision_subst. apply in_map_iff. exists v. split; [reflexivity|]. apply filter_In. split; [exact Hv|].
        apply existsb_id. congruence.
  Qed.

  Lemma get_var_cases v : In v vars ->
    (In (vid v) (map vid base) /\ get_var col v = var_add v m) \/ (~ In (vid v) (map vid base) /\ get_var col v = v).
  Proof.
    intros Hv. unfold get_var. pose proof (find_col v) as H. destruct (find _ col) as [o|].
    - destruct H as (w & Hw & E & Hb & ->). left. split; [exact Hb|]. cbn. rewrite (same_var w v); auto.
    - right. split; [|reflexivity]. apply (H v); auto.
  Qed.

  Lemma new_sorts : map vsort new = map vsort vars.
  Proof.
    unfold new. rewrite map_map. apply map_ext_in. intros v Hv.
    destruct (get_var_cases v Hv) as [[_ ->]|[_ ->]]; reflexivity.
  Qed.
  Lemma new_length : length new = length vars.
  Proof. apply map_length. Qed.
  Lemma new_apart i : In i (map vid new) -> ~ In i (map vid base).
  Proof.
    unfold new. rewrite map_map. intros H Hb. apply in_map_iff in H as (v & <- & Hv).
    destruct (get_var_cases v Hv) as [[H E]|[H E]]; rewrite E in Hb.
    - cbn in Hb. apply in_map_iff in Hb as (w & Ew & Hw). assert (vid w < m) by (apply bound_max, in_app_iff; auto). lia.
    - contradiction.
  Qed.
  Lemma new_nodup : NoDup (map vid new).
  Proof.
    unfold new. rewrite map_map.
    assert (Hinj : forall v w, In v vars -> In w vars -> vid (get_var col v) = vid (get_var col w) -> vid v = vid w).
    { intros v w Hv Hw E. assert (vid v < m) by (apply bound_max, in_app_iff; auto).
      assert (vid w < m) by (apply bound_max, in_app_iff; auto).
      destruct (get_var_cases v Hv) as [[_ Ev]|[_ Ev]]; destruct (get_var_cases w Hw) as [[_ Ew]|[_ Ew]];
        rewrite Ev, Ew in E; cbn in E; lia. }
    clear -Hvars Hinj. revert Hvars Hinj. generalize (get_var col) as h. generalize vars as l. clear. intros l h.
    induction l as [|v l IH]; cbn; intros Hn Hinj; [constructor|]. inversion Hn as [|? ? Hv Hn']; subst. constructor.
    - intros H. apply in_map_iff in H as (w & E & Hw). apply Hv. rewrite <- (Hinj w v); auto. apply in_map. exact Hw.
    - apply IH; auto.
  Qed.
  Lemma app_nodup : NoDup (map vid base) -> NoDup (map vid (base ++ new)).
  Proof.
    intros Hb. rewrite map_app. pose proof new_nodup as Hn. pose proof new_apart as Ha.
    revert Ha Hn. generalize (map vid new) as l. intros l Ha Hn. induction (map vid base) as [|i b IH]; cbn; [exact Hn|].
    inversion Hb as [|? ? Hi Hb']; subst. constructor.
    - rewrite in_app_iff. intros [H|H]; [contradiction|]. apply (Ha i H). left; reflexivity.
    - apply IH; auto. intros j Hj Hin. apply (Ha j Hj). right; exact Hin.
  Qed.

  (** The renaming on a leaf. *)
  Lemma frozen_leaf w : In (vid w) (map vid vars) -> exists v, In v vars /\ vid v = vid w /\
    (frozen_var col w = Some (FVar (get_var col v)) \/ frozen_var col w = Some (FVar w) /\ get_var col v = v).
  Proof.
    intros H. apply in_map_iff in H as (v & E & Hv). exists v. split; [exact Hv|]. split; [exact E|].
    unfold frozen_var, get_var. rewrite E. pose proof (find_col w) as Hf. destruct (find _ col) as [o|]; auto.
  Qed.
  Lemma frozen_other w : ~ In (vid w) (map vid vars) -> frozen_var col w = Some (FVar w).
  Proof.
    intros H. unfold frozen_var. pose proof (find_col w) as Hf. destruct (find _ col) as [o|]; auto.
    destruct Hf as (v & Hv & E & _). exfalso. apply H. rewrite <- E. apply in_map. exact Hv.
  Qed.

  Context {M : structure}.
  Lemma bind_same (rho rho' : env M) ds v : length vars = length ds -> In v vars ->
    bindv rho new ds (vid (get_var col v)) = bindv rho' vars ds (vid v).
  Proof.
    intros Hl Hv. apply In_nth_error in Hv as (k & Hk).
    pose proof (bindv_values vars rho' ds Hvars Hl) as H1.
    assert (Hl2 : length new = length ds) by (rewrite new_length; exact Hl).
    pose proof (bindv_values new rho ds new_nodup Hl2) as H2.
    apply (f_equal (fun l => nth_error l k)) in H1. apply (f_equal (fun l => nth_error l k)) in H2.
    rewrite nth_error_map in H1, H2. rewrite Hk in H1. cbn [option_map] in H1.
    assert (Ek : nth_error new k = Some (get_var col v)) by (unfold new; rewrite nth_error_map, Hk; reflexivity).
    rewrite Ek in H2. cbn [option_map] in H2.
    congruence.
  Qed.

  Lemma plain_no_binder f p i : plain f -> ~ binds_above f p i.
  Proof.
    intros Hp H. assert (exists p' q vs b, at_path f p' (FQ q vs b)) as (p' & q & vs & b & Hq).
    { clear Hp. induction H as [q vs b p i v Hin E|q vs b p i H (p' & q' & vs' & b' & IH)|s args k a p i Ha H (p' & q & vs & b & IH)].
      - exists [], q, vs, b. constructor.
      - exists (0 :: p'), q', vs', b'. constructor. exact IH.
      - exists (k :: p'), q, vs, b. econstructor; eauto. }
    eapply Hp; eauto.
  Qed.
  Lemma plain_no_capture s f : plain f -> no_capture s f.
  Proof. intros Hp p v _. split; [intros H|intros _ t i _ _]; [exfalso|]; eapply plain_no_binder; eauto. Qed.
  Lemma plain_free f p v : plain f -> at_path f p (FVar v) -> occurs_free (vid v) f.
  Proof. intros Hp H. exists p, v. split; [exact H|]. split; [reflexivity|]. apply plain_no_binder. exact Hp. Qed.

  Lemma rename_total f : exists g, sapply (frozen_var col) f = Some g.
  Proof. apply sapply_total. intros v _. unfold frozen_var. destruct (find _ col); discriminate. Qed.

  Lemma rename_meaning f g (rho rho' : env M) ds : sapply (frozen_var col) f = Some g -> plain f -> scoped [f] vars ->
    length vars = length ds -> eval g (bindv rho new ds) = eval f (bindv rho' vars ds).
  Proof.
    intros Hs Hp Hsc Hl. eapply subst_meaning; [exact Hs|apply plain_no_capture; exact Hp|].
    intros p v t Hv _ Ht.
    assert (Hin : In (vid v) (map vid vars)) by (apply (Hsc f); [left; reflexivity|eapply plain_free; eauto]).
    destruct (frozen_leaf v Hin) as (w & Hw & E & [H|[H Hg]]); rewrite H in Ht; injection Ht as <-; cbn.
    - rewrite <- E. symmetry. apply bind_same; auto.
    - rewrite <- E. rewrite <- (bind_same rho rho' ds w Hl Hw), Hg. reflexivity.
  Qed.

  (** Values of the new variables that are parameters of the step. *)
  Lemma new_values (rho : env M) ds ps rest : vars = ps ++ rest -> length vars = length ds ->
    map (fun v => bindv rho new ds (vid v)) (map (get_var col) ps) = firstn (length ps) ds.
  Proof.
    intros Ev Hl.
    assert (H : map (fun v => bindv rho new ds (vid v)) new = ds)
      by (apply bindv_values; [apply new_nodup|rewrite new_length; exact Hl]).
    apply (f_equal (firstn (length ps))) in H. rewrite <- H. rewrite firstn_map. f_equal. rewrite <- (map_length (get_var col) ps).
    unfold new. rewrite Ev, map_app. rewrite firstn_app, Nat.sub_diag, firstn_all. cbn. rewrite app_nil_r. reflexivity.
  Qed.

  Lemma old_value f (rho : env M) ds : scoped [f] base -> eval f (bindv rho new ds) = eval f rho.
  Proof.
    intros Hs. apply eval_agree. intros i Hi. apply bindv_other. intros H. apply (new_apart i H). apply (Hs f); cbn; auto.
  Qed.
End Collision.

Lemma add_condition_ok st vars c : NoDup (map vid vars) -> NoDup (map vid (ss_bound st)) ->
  let new := map (get_var (collision_subst vars (ss_bound st))) vars in
  exists st', add_condition st new c = Some st' /\ adds st st' new /\ ss_flags st' = ss_flags st /\
    forall (M : structure) (rho : env M) ds, scoped (match ss_guard st with Some g => [g] | None => [] end) (ss_bound st) ->
      (guard_holds st' (bindv rho new ds) <-> guard_holds st rho /\ holds c (bindv rho new ds)).
Proof.
  intros Hv Hb new. unfold add_condition, add_variables.
  assert (E : all_unique (map vid (ss_bound st ++ new)) = true) by (apply all_unique_iff, app_nodup; auto).
  rewrite E. eexists. split; [reflexivity|]. cbn. split.
  - split; [reflexivity|]. cbn. apply app_nodup; auto.
  - split; [reflexivity|]. intros M rho ds Hg. unfold guard_holds. cbn.
    destruct (ss_guard st) as [g|]; [|tauto]. rewrite holds_and. unfold holds. rewrite (old_value vars (ss_bound st) Hv g); [reflexivity|exact Hg].
Qed.

Lemma holds_lt {M : structure} a b (rho : env M) : holds (lt a b) rho <-> tholds M Flt [eval a rho; eval b rho].
Proof. reflexivity. Qed.

Lemma step_value {M : structure} s vs (rho : env M) : eval (step_term s vs) rho = inst M (ps_fun s) (map (fun v => rho (vid v)) vs).
Proof. apply eval_fv_step. Qed.

Lemma unfold_assignment_ok st is_input origin a : state_ok st -> scoped [origin] (ss_bound st) -> asg_closed a ->
  exists u, unfold_assignment st is_input origin a = Some u /\ ss_flags (snd u) = ss_flags st /\
    represents st (ps_vars (as_step a) ++ as_fresh a) (as_content a) u
      (if is_input then strictly_before (as_step a) origin else before_or_at (as_step a) origin).
Proof.
  intros [Hb Hg] Ho (Hv & Hs & Hp). unfold unfold_assignment.
  set (vars := ps_vars (as_step a) ++ as_fresh a) in *. set (col := collision_subst vars (ss_bound st)).
  destruct (add_condition_ok st vars (if is_input
      then strict_before (step_term (as_step a) (map (get_var col) (ps_vars (as_step a)))) origin
      else before (step_term (as_step a) (map (get_var col) (ps_vars (as_step a)))) origin) Hv Hb) as (st' & E & Ha & Hf & Hgu).
  change (get_var (collision_subst vars (ss_bound st))) with (get_var col) in *. rewrite E.
  destruct (rename_total vars (ss_bound st) (as_content a)) as (g & Eg). change (collision_subst vars (ss_bound st)) with col in Eg.
  rewrite Eg. exists (g, st'). split; [reflexivity|]. split; [exact Hf|]. exists (map (get_var col) vars). split; [exact Ha|].
  split; [apply new_sorts; auto|]. intros M rho ds Hds. apply typed_length in Hds as Hl. rewrite map_length in Hl. split.
  - apply (rename_meaning vars (ss_bound st)); auto.
  - cbn [snd]. rewrite (Hgu M rho ds Hg). apply and_iff_compat_l.
    assert (Est : eval (step_term (as_step a) (map (get_var col) (ps_vars (as_step a)))) (bindv rho (map (get_var col) vars) ds) =
      inst M (ps_fun (as_step a)) (firstn (length (ps_vars (as_step a))) ds)).
    { rewrite step_value. f_equal. apply (new_values vars (ss_bound st) Hv rho ds _ (as_fresh a)); auto. }
    assert (Eo : eval origin (bindv rho (map (get_var col) vars) ds) = eval origin rho) by (apply (old_value vars (ss_bound st)); auto).
    destruct is_input.
    + unfold strict_before. rewrite holds_lt, Est, Eo. reflexivity.
    + unfold before, strict_before. rewrite holds_or, holds_lt, holds_meq, Est, Eo. reflexivity.
Qed.

Lemma unfold_step_ok st origin s content : state_ok st -> scoped [origin] (ss_bound st) -> closed_over (ps_vars s) content ->
  exists u, unfold_step st origin s content = Some u /\ ss_flags (snd u) = ss_flags st /\
    represents st (ps_vars s) content u (strictly_before s origin).
Proof.
  intros [Hb Hg] Ho (Hv & Hs & Hp). unfold unfold_step. set (col := collision_subst (ps_vars s) (ss_bound st)).
  destruct (add_condition_ok st (ps_vars s) (strict_before (step_term s (map (get_var col) (ps_vars s))) origin) Hv Hb)
    as (st' & E & Ha & Hf & Hgu).
  change (get_var (collision_subst (ps_vars s) (ss_bound st))) with (get_var col) in *. rewrite E.
  destruct (rename_total (ps_vars s) (ss_bound st) content) as (g & Eg).
  change (collision_subst (ps_vars s) (ss_bound st)) with col in Eg.
  rewrite Eg. exists (g, st'). split; [reflexivity|]. split; [exact Hf|]. exists (map (get_var col) (ps_vars s)). split; [exact Ha|].
  split; [apply new_sorts; auto|]. intros M rho ds Hds. apply typed_length in Hds as Hl. rewrite map_length in Hl. split.
  - apply (rename_meaning (ps_vars s) (ss_bound st)); auto.
  - cbn [snd]. rewrite (Hgu M rho ds Hg). apply and_iff_compat_l. unfold strict_before. rewrite holds_lt, step_value.
    unfold col. rewrite (new_values (ps_vars s) (ss_bound st) Hv rho ds (ps_vars s) []) by (auto; rewrite app_nil_r; auto).
    rewrite (old_value (ps_vars s) (ss_bound st) Hv origin rho ds Ho). reflexivity.
Qed.

(** A step macro: the guard is right; the content only when no parameter was renamed. *)
Lemma unfold_macro_ok st s arg content : state_ok st -> scoped [arg] (ss_bound st) -> closed_over (ps_vars s) content ->
  let col := collision_subst (ps_vars s) (ss_bound st) in
  let nvars := map (get_var col) (ps_vars s) in
  exists st', add_condition st nvars (meq arg (step_term s nvars)) = Some st' /\ adds st st' nvars /\
    map vsort nvars = map vsort (ps_vars s) /\
    (forall (M : structure) (rho : env M) ds, typed nvars ds ->
       (guard_holds st' (bindv rho nvars ds) <-> guard_holds st rho /\ is_the_point s arg M rho ds)) /\
    ((forall v, In v (ps_vars s) -> ~ In (vid v) (map vid (ss_bound st))) ->
     represents st (ps_vars s) content (content, st') (is_the_point s arg)).
Proof.
  intros [Hb Hg] Ho (Hv & Hs & Hp) col nvars.
  destruct (add_condition_ok st (ps_vars s) (meq arg (step_term s nvars)) Hv Hb) as (st' & E & Ha & Hf & Hgu).
  fold col in E, Ha, Hgu. fold nvars in E, Ha, Hgu.
  assert (Hgood : forall (M : structure) (rho : env M) ds, typed nvars ds ->
       (guard_holds st' (bindv rho nvars ds) <-> guard_holds st rho /\ is_the_point s arg M rho ds)).
  { intros M rho ds Hds. apply typed_length in Hds as Hl. unfold nvars in Hl. rewrite map_length in Hl.
    rewrite (Hgu M rho ds Hg). apply and_iff_compat_l. rewrite holds_meq, step_value. unfold nvars at 2.
    unfold nvars, col. rewrite (new_values (ps_vars s) (ss_bound st) Hv rho ds (ps_vars s) []) by (auto; rewrite app_nil_r; auto).
    rewrite (old_value (ps_vars s) (ss_bound st) Hv arg rho ds Ho). reflexivity. }
  exists st'. split; [exact E|]. split; [exact Ha|]. split; [apply new_sorts; auto|]. split; [exact Hgood|].
  intros Hno. assert (En : nvars = ps_vars s).
  { unfold nvars. rewrite <- (map_id (ps_vars s)) at 2. apply map_ext_in. intros v Hin.
    destruct (get_var_cases (ps_vars s) (ss_bound st) Hv v Hin) as [[H _]|[_ H]]; [exfalso; eapply Hno; eauto|exact H]. }
  exists nvars. split; [exact Ha|]. split; [rewrite En; reflexivity|]. intros M rho ds Hds. split; [rewrite En; reflexivity|].
  cbn [snd]. auto.
Qed.

(** Symbolic quantifiers. *)
Definition quant_closed (q : ta_quant) : Prop :=
  NoDup (map vid (tq_bound q)) /\ NoDup (map vid (tq_free q)) /\
  (forall i, In i (map vid (tq_bound q)) -> ~ In i (map vid (tq_free q))) /\
  scoped (tq_contents q) (tq_free q ++ tq_bound q) /\ forall f, In f (tq_contents q) -> plain f.

Lemma sapply_plain s f g : sapply s f = Some g -> plain f -> (forall v t, occurs v f -> s v = Some t -> plain t) -> plain g.
Proof.
  intros H. apply sapply_replaces in H. revert g H. induction f as [v|h args IH|q vs b IH] using formula_ind'; intros g H Hp Hs.
  - inversion H; subst. apply (Hs v); [apply occurs_var|assumption].
  - inversion H as [|? ? args' HF|]; subst. intros p q vs b Hat. inversion Hat; subst.
    match goal with Hn : nth_error args' _ = Some a, Ha : at_path a _ _ |- _ => rename Hn into En; rename Ha into Hat' end.
    assert (exists a0, nth_error args i = Some a0 /\ replaces (fun v t => s v = Some t) a0 a) as (a0 & Ea0 & Hr).
    { clear -HF En. revert i En. induction HF as [|x y l l' Hxy HF IHF]; intros [|i] En; try discriminate.
      - injection En as ->. exists x. auto.
      - apply IHF. exact En. }
    rewrite Forall_forall in IH. eapply (IH a0); [eapply nth_error_In; eauto|exact Hr| | |exact Hat'].
    + intros p1 q1 vs1 b1 H1. eapply (Hp (i :: p1)). econstructor; eauto.
    + intros v t Hv. apply Hs. eapply occurs_fun; [eapply nth_error_In; eauto|exact Hv].
  - exfalso. eapply (Hp []). constructor.
Qed.

Lemma unfold_quantifier_ok st q args : state_ok st -> scoped args (ss_bound st) -> Forall plain args -> quant_closed q -> length args = length (tq_free q) ->
  exists us, unfold_quantifier st q args = Some us /\ length us = length (tq_contents q) /\
    forall k f u, nth_error (tq_contents q) k = Some f -> nth_error us k = Some u ->
      ss_flags (snd u) = ss_flags st /\
      exists new, adds st (snd u) new /\ map vsort new = map vsort (tq_bound q) /\
        forall (M : structure) (rho : env M) ds, typed new ds ->
          eval (fst u) (bindv rho new ds) =
            eval f (bindv (bindv rho (tq_free q) (map (fun a => eval a rho) args)) (tq_bound q) ds) /\
          (guard_holds (snd u) (bindv rho new ds) <-> guard_holds st rho).
Proof.
  intros [Hb Hg] Ha Hpa (Hqb & Hqf & Hdis & Hsc & Hpl) Hlen. unfold unfold_quantifier, frozen_new.
  rewrite map_length, <- Hlen, Nat.eqb_refl. set (base := tq_free q ++ ss_bound st).
  set (col := collision_subst (tq_bound q) base). set (new := map (get_var col) (tq_bound q)).
  assert (Hnew_free : forall i, In i (map vid new) -> ~ In i (map vid (tq_free q))).
  { intros i Hi H. apply (new_apart (tq_bound q) base Hqb i Hi). unfold base. rewrite map_app, in_app_iff. auto. }
  assert (Hnew_bound : forall i, In i (map vid new) -> ~ In i (map vid (ss_bound st))).
  { intros i Hi H. apply (new_apart (tq_bound q) base Hqb i Hi). unfold base. rewrite map_app, in_app_iff. auto. }
  assert (Hnd : NoDup (map vid (ss_bound st ++ new))).
  { rewrite map_app. pose proof (new_nodup (tq_bound q) base Hqb) as Hn. fold col in Hn. fold new in Hn.
    revert Hnew_bound Hn. generalize (map vid new) as l. intros l Hx Hn. clear -Hb Hx Hn.
    induction (map vid (ss_bound st)) as [|i b IH]; cbn; [exact Hn|].
    inversion Hb as [|? ? Hi Hb']; subst. constructor.
    - rewrite in_app_iff. intros [H|H]; [contradiction|]. apply (Hx i H). left; reflexivity.
    - apply IH; auto. intros j Hj Hin. apply (Hx j Hj). right; exact Hin. }
  unfold add_variables. rewrite (proj2 (all_unique_iff _) Hnd).
  set (st' := mkSt (ss_flags st) (ss_bound st ++ new) (ss_guard st)).
  assert (Hlen' : length (map vid (tq_free q)) = length args) by (rewrite map_length; auto).
  assert (Hgu : forall (M : structure) (rho : env M) ds, guard_holds st' (bindv rho new ds) <-> guard_holds st rho).
  { intros M rho ds. unfold guard_holds; cbn. destruct (ss_guard st) as [gd|]; [|tauto]. unfold holds.
    rewrite (eval_agree M gd (bindv rho new ds) rho); [reflexivity|]. intros i Hi. apply bindv_other. intros H.
    apply (Hnew_bound i H). apply (Hg gd); cbn; auto. }
  assert (Hone : forall f, In f (tq_contents q) -> exists h g, sapply (frozen_var col) f = Some g /\
    sapply (frozen (map vid (tq_free q)) args) g = Some h /\
    forall (M : structure) (rho : env M) ds, typed new ds -> eval h (bindv rho new ds) =
      eval f (bindv (bindv rho (tq_free q) (map (fun a => eval a rho) args)) (tq_bound q) ds)).
  { intros f Hf. destruct (rename_total (tq_bound q) base f) as (g & Eg). fold col in Eg.
    destruct (sapply_total g (frozen (map vid (tq_free q)) args)) as (h & Eh).
    { intros v _. unfold frozen. rewrite frozen_get_eq_len by exact Hlen'. unfold multiple. destruct (maybe_get _ _); discriminate. }
    exists h, g. split; [exact Eg|]. split; [exact Eh|]. intros M rho ds Hds.
    assert (Hpg : plain g).
    { eapply sapply_plain; [exact Eg|auto|]. intros v t _ Ht. unfold frozen_var in Ht.
      destruct (find _ col); injection Ht as <-; intros p0 q0 vs0 b0 H; inversion H. }
    set (rho1 := bindv rho (tq_free q) (map (fun a => eval (M:=M) a rho) args)).
    apply typed_length in Hds as Hl. unfold new in Hl. rewrite map_length in Hl.
    transitivity (eval g (bindv rho1 new ds)).
    - eapply subst_meaning; [exact Eh|apply plain_no_capture; exact Hpg|]. intros p v t Hv _ Ht.
      unfold frozen in Ht. rewrite frozen_get_eq_len in Ht by exact Hlen'. apply multiple_spec in Ht.
      destruct Ht as [(l1 & l2 & El & Hn1)|[Hn ->]].
      + assert (Hin : In (vid v) (map vid (tq_free q))).
        { assert (H : In (vid v, t) (combine (map vid (tq_free q)) args)) by (rewrite El; apply in_app_iff; cbn; auto).
          apply in_combine_l in H. exact H. }
        rewrite bindv_other by (intros H; eapply Hnew_free; eauto).
        assert (Hval : rho1 (vid v) = eval t rho).
        { unfold rho1. clear -El Hn1 Hqf Hlen.
          assert (Hl : length (tq_free q) = length (map (fun a => eval (M:=M) a rho) args)) by (rewrite map_length; auto).
          pose proof (bindv_values (tq_free q) rho _ Hqf Hl) as Hv.
          assert (Hk : nth_error (combine (map vid (tq_free q)) args) (length l1) = Some (vid v, t))
            by (rewrite El, nth_error_app2, Nat.sub_diag by lia; reflexivity).
          assert (exists w, nth_error (tq_free q) (length l1) = Some w /\ vid w = vid v /\ nth_error args (length l1) = Some t)
            as (w & Hw & Ew & Et).
          { clear -Hk. revert Hk. generalize (length l1) as k. revert args.
            induction (tq_free q) as [|x l IH]; intros [|a args] [|k]; cbn; try discriminate.
            - intros [= E1 E2]. exists x. subst. auto.
            - apply IH. }
          assert (H1 : nth_error (map (fun a => eval (M:=M) a rho) args) (length l1) = Some (eval t rho))
            by (rewrite nth_error_map, Et; reflexivity).
          rewrite <- Hv in H1. rewrite nth_error_map, Hw in H1. cbn in H1. rewrite Ew in H1. congruence. }
        rewrite Hval. apply eval_agree. intros i Hi. symmetry. apply bindv_other. intros H. eapply (Hnew_bound i); eauto.
        eapply (Ha t); [|exact Hi]. assert (H0 : In (vid v, t) (combine (map vid (tq_free q)) args)) by (rewrite El; apply in_app_iff; cbn; auto).
        apply in_combine_r in H0. exact H0.
      + cbn. destruct (in_dec Nat.eq_dec (vid v) (map vid new)) as [Hi|Hi].
        * apply bindv_in; [unfold new; rewrite map_length; exact Hl|exact Hi].
        * rewrite !bindv_other by auto. unfold rho1. apply bindv_other. intros H. apply Hn.
          clear -H Hlen. revert args Hlen. induction (tq_free q) as [|x l IH]; intros [|a args] Hlen; try discriminate; [destruct H|].
          cbn in *. destruct H as [->|H]; [left; reflexivity|right]. apply IH; auto.
    - eapply subst_meaning; [exact Eg|apply plain_no_capture; auto|]. intros p v t Hv _ Ht.
      destruct (in_dec Nat.eq_dec (vid v) (map vid (tq_bound q))) as [Hin|Hin].
      + destruct (frozen_leaf (tq_bound q) base v Hin) as (w & Hw & E & [H|[H Hgv]]); fold col in H; rewrite H in Ht; injection Ht as <-; cbn.
        * rewrite <- E. symmetry. apply bind_same; auto.
        * rewrite <- E. rewrite <- (bind_same (tq_bound q) base Hqb rho1 rho1 ds w Hl Hw), Hgv. reflexivity.
      + pose proof (frozen_other (tq_bound q) base v Hin) as Ho. fold col in Ho. rewrite Ho in Ht. injection Ht as <-. cbn.
        assert (Hfree : In (vid v) (map vid (tq_free q))).
        { specialize (Hsc f (vid v) Hf (plain_free f p v (Hpl f Hf) Hv)). rewrite map_app, in_app_iff in Hsc. tauto. }
        rewrite !bindv_other; auto. intros H. eapply Hnew_free; eauto. }
  destruct (mapM _ (tq_contents q)) as [us|] eqn:E.
  - exists us. split; [reflexivity|]. apply mapM_Forall2 in E. split; [symmetry; clear -E; induction E; cbn; auto|].
    intros k f u Hk Hu.
    assert (Hfu : match sapply (frozen_var col) f with
                  | Some g => match sapply (frozen (map vid (tq_free q)) args) g with Some h => Some (h, st') | None => None end
                  | None => None end = Some u).
    { clear -E Hk Hu. revert k Hk Hu. induction E as [|x y l l' Hxy E IH]; intros [|k] Hk Hu; try discriminate.
      - injection Hk as ->. injection Hu as ->. exact Hxy.
      - eauto. }
    destruct (Hone f (nth_error_In _ _ Hk)) as (h & g & Eg & Eh & Hm). rewrite Eg, Eh in Hfu. injection Hfu as <-.
    split; [reflexivity|]. exists new. split; [split; [reflexivity|exact Hnd]|]. split; [apply new_sorts; auto|].
    intros M rho ds Hds. split; [apply Hm; exact Hds|]. apply Hgu.
  - exfalso. apply mapM_total in E; auto. intros f Hf. destruct (Hone f Hf) as (h & g & Eg & Eh & _). rewrite Eg, Eh. discriminate.
Qed.
