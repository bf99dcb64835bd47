From Coq Require Import List Arith Bool Lia.
From Verif Require Import Syntax_Model Syntax_Proofs Traversal_Spec Semantics_Spec Semantics_Proofs Subst_Proofs Binding_Proofs Exists_Model Exists_Spec.
Import ListNotations.

(** ** Equality tests *)
Lemma key_eqb_eq a b : key_eqb a b = true -> a = b.
Proof.
  unfold key_eqb, sort_eqb. rewrite andb_true_iff, Nat.eqb_eq. intros [H1 H2]. destruct (sort_eq_dec (vsort a) (vsort b)); [|discriminate].
  destruct a, b; cbn in *; congruence.
Qed.
Lemma list_eqb_eq {A} (eqb : A -> A -> bool) : (forall a b, eqb a b = true -> a = b) -> forall l r, list_eqb eqb l r = true -> l = r.
Proof.
  intros H. induction l as [|a l IH]; intros [|b r]; cbn; try discriminate; auto.
  rewrite andb_true_iff. intros [H1 H2]. f_equal; auto.
Qed.
Lemma formula_eqb_eq : forall f g, formula_eqb f g = true -> f = g.
Proof.
  induction f as [v|s l IH|q vs b IH] using formula_ind'; intros [w|t r|q' vs' b']; cbn; try discriminate.
  - intros H. f_equal. apply key_eqb_eq. exact H.
  - rewrite andb_true_iff. unfold fsym_eqb. intros [H1 H2]. destruct (fsym_eq_dec s t); [|discriminate]. subst. f_equal. clear H1.
    revert r H2. induction l as [|a l IHl]; intros [|c r]; try discriminate; auto. rewrite andb_true_iff. intros [H1 H2].
    inversion IH; subst. f_equal; auto.
  - rewrite !andb_true_iff. intros [[H1 H2] H3]. apply list_eqb_eq in H2; [|apply key_eqb_eq]. apply IH in H3. subst.
    destruct q, q'; try discriminate; reflexivity.
Qed.
Lemma disjunct_eqb_eq a b : disjunct_eqb a b = true -> a = b.
Proof.
  unfold disjunct_eqb. rewrite andb_true_iff. intros [H1 H2]. apply list_eqb_eq in H1; [|apply key_eqb_eq]. apply formula_eqb_eq in H2.
  destruct a, b; cbn in *; congruence.
Qed.

Lemma unique_from_in l : forall seen x, In x (unique_from seen l) \/ In x seen <-> In x l \/ In x seen.
Proof.
  induction l as [|d l IH]; intros seen x; cbn; [tauto|]. destruct (existsb (disjunct_eqb d) seen) eqn:E.
  - rewrite IH. apply existsb_exists in E as (y & Hy & E). apply disjunct_eqb_eq in E. subst y. split; [tauto|].
    intros [[<-|H]|H]; auto.
  - specialize (IH (d :: seen) x). cbn in *. tauto.
Qed.
Lemma unique_in l x : In x (unique l) <-> In x l.
Proof. pose proof (unique_from_in l [] x) as H. cbn in H. unfold unique. tauto. Qed.

(** ** Existentials as environments *)
Section Ex.
  Context {M : structure}.
  Lemma holds_ors l rho : holds (M:=M) (ors l) rho <-> exists f, In f l /\ holds (M:=M) f rho.
  Proof. unfold holds. rewrite dtest_ors, existsb_exists. reflexivity. Qed.

  Lemma bindv_sigma (sigma : env M) vs : forall rho i, In i (map vid vs) -> bindv rho vs (map (fun v => sigma (vid v)) vs) i = sigma i.
  Proof.
    induction vs as [|v vs IH]; intros rho i Hi; [destruct Hi|]. cbn [map]. rewrite bindv_cons.
    destruct (in_dec Nat.eq_dec i (map vid vs)) as [H|H]; [apply IH; exact H|].
    rewrite bindv_other by exact H. destruct Hi as [<-|Hi]; [|contradiction]. unfold upd. rewrite Nat.eqb_refl. reflexivity.
  Qed.
  Lemma ex_intro_env vs f (rho sigma : env M) :
    (forall v, In v vs -> dom M (vsort v) (sigma (vid v))) ->
    (forall j, occurs_free j f -> ~ In j (map vid vs) -> sigma j = rho j) ->
    holds (M:=M) f sigma -> holds (M:=M) (mk_exists vs f) rho.
  Proof.
    intros Ht Ha Hf. apply (holds_ex_intro vs f rho (map (fun v => sigma (vid v)) vs)).
    - clear -Ht. induction vs as [|v vs IH]; constructor; [apply Ht; left; auto|]. apply IH. intros w Hw. apply Ht. right; auto.
    - unfold holds in *. rewrite (eval_agree M f _ sigma); [exact Hf|]. intros j Hj.
      destruct (in_dec Nat.eq_dec j (map vid vs)) as [H|H]; [apply bindv_sigma; exact H|].
      rewrite bindv_other by exact H. symmetry. auto.
  Qed.
  Lemma bindv_typed vs : one_sort vs -> forall (rho : env M) ds, typed vs ds -> forall v, In v vs -> dom M (vsort v) (bindv rho vs ds (vid v)).
  Proof.
    induction vs as [|w vs IH]; intros Ho rho ds Hd v Hv; [destruct Hv|]. inversion Hd as [|? d ? ds' Hw Hd']; subst. rewrite bindv_cons.
    assert (Ho' : one_sort vs) by (intros a b Ha Hb; apply Ho; right; auto).
    destruct (in_dec Nat.eq_dec (vid v) (map vid vs)) as [H|H].
    - apply in_map_iff in H as (u & E & Hu). assert (v = u) as -> by (apply Ho; [exact Hv|right; auto|auto]). apply IH; auto.
    - rewrite bindv_other by exact H. destruct Hv as [<-|Hv]; [|exfalso; apply H, in_map; exact Hv].
      unfold upd. rewrite Nat.eqb_refl. exact Hw.
  Qed.
  Lemma ex_elim_env vs f (rho : env M) : one_sort vs -> holds (M:=M) (mk_exists vs f) rho ->
    (forall sigma, (forall v, In v vs -> dom M (vsort v) (sigma (vid v))) -> (forall j, ~ In j (map vid vs) -> sigma j = rho j) ->
       ~ holds (M:=M) f sigma) -> False.
  Proof.
    intros Ho H Hn. apply (holds_ex_elim vs f rho H). intros ds Hd. apply Hn.
    - apply bindv_typed; auto.
    - intros j Hj. apply bindv_other. exact Hj.
  Qed.
  Lemma ex_holds vs f (rho : env M) g (rho' : env M) : one_sort vs -> holds (M:=M) (mk_exists vs f) rho ->
    (forall sigma, (forall v, In v vs -> dom M (vsort v) (sigma (vid v))) -> (forall j, ~ In j (map vid vs) -> sigma j = rho j) ->
       holds (M:=M) f sigma -> holds (M:=M) g rho') -> holds (M:=M) g rho'.
  Proof.
    intros Ho H Hn. destruct (holds_dec g rho') as [Hd|Hd]; [exact Hd|]. exfalso. apply (ex_elim_env vs f rho Ho H).
    intros sigma H1 H2 H3. apply Hd. eapply Hn; eauto.
  Qed.
  Lemma env_typed (Hne : forall s, exists d, dom M s d) vs (rho : env M) : one_sort vs ->
    exists tau : env M, (forall v, In v vs -> dom M (vsort v) (tau (vid v))) /\ forall j, ~ In j (map vid vs) -> tau j = rho j.
  Proof.
    induction vs as [|v vs IH]; intros Ho; [exists rho; split; [intros v []|auto]|].
    destruct IH as (tau & H1 & H2); [intros a b Ha Hb; apply Ho; right; auto|].
    destruct (in_dec Nat.eq_dec (vid v) (map vid vs)) as [H|H].
    - exists tau. split.
      + intros w [<-|Hw]; [|auto]. apply in_map_iff in H as (u & E & Hu). assert (v = u) as -> by (apply Ho; cbn; auto). auto.
      + intros j Hj. apply H2. intros Hj'. apply Hj. right; auto.
    - destruct (Hne (vsort v)) as (d & Hd). exists (upd tau (vid v) d). split.
      + intros w Hw. unfold upd. destruct (Nat.eqb_spec (vid w) (vid v)) as [E|E].
        * assert (w = v) as -> by (apply Ho; cbn; auto). exact Hd.
        * destruct Hw as [<-|Hw]; [congruence|auto].
      + intros j Hj. unfold upd. destruct (Nat.eqb_spec j (vid v)) as [->|E]; [exfalso; apply Hj; left; auto|].
        apply H2. intros Hj'. apply Hj. right; auto.
  Qed.
End Ex.

(** ** The merge *)
Section Merge.
  Context (scmp : sort -> sort -> comparison) (Hscmp : forall a b, scmp a b = Eq <-> a = b).

  Lemma is_key_iff a b : is_key scmp a b = true <-> a = b.
  Proof.
    unfold is_key, kcmp. destruct (Nat.compare_spec (vid a) (vid b)) as [E|E|E].
    - destruct (scmp (vsort a) (vsort b)) eqn:S.
      + apply Hscmp in S. split; [|reflexivity]. intros _. destruct a, b; cbn in *; congruence.
      + split; [discriminate|]. intros ->. assert (scmp (vsort b) (vsort b) = Eq) by (apply Hscmp; auto). congruence.
      + split; [discriminate|]. intros ->. assert (scmp (vsort b) (vsort b) = Eq) by (apply Hscmp; auto). congruence.
    - split; [discriminate|]. intros ->. lia.
    - split; [discriminate|]. intros ->. lia.
  Qed.
  Lemma key_insert_in v l x : In x (key_insert scmp v l) <-> x = v \/ In x l.
  Proof.
    induction l as [|w l IH]; cbn; [intuition auto|]. destruct (kcmp scmp v w) eqn:E; cbn.
    - assert (v = w) as -> by (apply is_key_iff; unfold is_key; rewrite E; reflexivity). intuition auto.
    - intuition auto.
    - rewrite IH. intuition auto.
  Qed.
  Lemma keys_in content x : In x (keys scmp content) <-> exists d, In d content /\ In x (fst d).
  Proof.
    unfold keys. assert (E : (exists d, In d content /\ In x (fst d)) <-> In x (flat_map fst content)) by (symmetry; apply in_flat_map).
    rewrite E. clear E. generalize (flat_map fst content) as l. intros l.
    enough (H : forall acc, In x (fold_left (fun acc v => key_insert scmp v acc) l acc) <-> In x l \/ In x acc) by (rewrite H; cbn; tauto).
    induction l as [|v l IH]; intros acc; cbn; [tauto|]. rewrite IH, key_insert_in. intuition auto.
  Qed.

  Lemma combine_seq_in {A} (l : list A) : forall k i (x : A), In (i, x) (combine (seq k (length l)) l) <-> k <= i /\ nth_error l (i - k) = Some x.
  Proof.
    induction l as [|a l IH]; intros k i x; cbn; [split; [tauto|intros [_ H]; destruct (i - k); discriminate]|].
    rewrite IH. split.
    - intros [E|[H1 H2]]; [injection E as -> ->; rewrite Nat.sub_diag; cbn; auto|]. split; [lia|].
      replace (i - k) with (S (i - S k)) by lia. exact H2.
    - intros [H1 H2]. destruct (i - k) as [|n] eqn:E; cbn in H2; [left; f_equal; [lia|congruence]|right].
      split; [lia|]. replace (i - S k) with n by lia. exact H2.
  Qed.
  Lemma index_set_in content v i : In i (index_set scmp content v) <->
    exists d, nth_error content i = Some d /\ (In v (fst d) \/ ~ In (vid v) (map vid (fst d))).
  Proof.
    unfold index_set. rewrite in_map_iff. split.
    - intros ([i' d] & E & H). cbn in E. subst i'. apply filter_In in H as [H1 H2]. cbn in H2. apply combine_seq_in in H1 as [_ H1].
      rewrite Nat.sub_0_r in H1. exists d. split; [exact H1|]. apply orb_true_iff in H2 as [H2|H2].
      + left. apply existsb_exists in H2 as (w & Hw & E). apply is_key_iff in E. subst. exact Hw.
      + right. intros H. apply negb_true_iff in H2. enough (existsb (Nat.eqb (vid v)) (map vid (fst d)) = true) by congruence.
        apply existsb_exists. exists (vid v). rewrite Nat.eqb_refl. auto.
    - intros (d & Hd & H). exists (i, d). split; [reflexivity|]. apply filter_In. split.
      + apply combine_seq_in. rewrite Nat.sub_0_r. split; [lia|exact Hd].
      + cbn. apply orb_true_iff. destruct H as [H|H].
        * left. apply existsb_exists. exists v. split; [exact H|apply is_key_iff; reflexivity].
        * right. apply negb_true_iff. apply not_true_is_false. intros Hx. apply H. apply existsb_exists in Hx as (j & Hj & E).
          apply Nat.eqb_eq in E. subst. exact Hj.
  Qed.

  Lemma lex_eq l : forall r, lex l r = Eq -> l = r.
  Proof.
    induction l as [|a l IH]; intros [|b r]; cbn; try discriminate; auto. destruct (Nat.compare_spec a b); try discriminate.
    intros H'. f_equal; auto.
  Qed.
  Lemma set_cmp_eq l r : set_cmp l r = Eq -> l = r.
  Proof. unfold set_cmp. destruct (Nat.compare (length l) (length r)); try discriminate. apply lex_eq. Qed.

  Lemma max_set_spec l : forall best, (forall P, (forall x, In x best -> snd x = P) ->
      exists Q, (forall x, In x (max_set best l) -> snd x = Q /\ (In x l \/ In x best))) /\ (max_set best l = [] -> best = [] /\ l = []).
  Proof.
    induction l as [|x l IH]; intros best; cbn.
    - split; [|auto]. intros P H. exists P. auto.
    - destruct best as [|b best].
      + destruct (IH [x]) as [H1 H2]. split.
        * intros _ _. destruct (H1 (snd x)) as (Q & HQ); [intros y [<-|[]]; auto|]. exists Q. intros y Hy.
          destruct (HQ y Hy) as [? [?|[<-|[]]]]; auto.
        * intros H. destruct (H2 H). discriminate.
      + destruct (set_cmp (snd x) (snd b)) eqn:E.
        * destruct (IH ((b :: best) ++ [x])) as [H1 H2]. split.
          -- intros P HP. destruct (H1 P) as (Q & HQ).
             { intros y Hy. apply in_app_iff in Hy as [Hy|[<-|[]]]; [apply HP; exact Hy|]. apply set_cmp_eq in E. rewrite E. apply HP. left; auto. }
             exists Q. intros y Hy. destruct (HQ y Hy) as [? H]. split; [auto|]. rewrite in_app_iff in H. cbn in H |- *. tauto.
          -- intros H. destruct (H2 H) as [H3 _]. discriminate.
        * destruct (IH (b :: best)) as [H1 H2]. split.
          -- intros P HP. destruct (H1 P HP) as (Q & HQ). exists Q. intros y Hy. destruct (HQ y Hy) as [? H]. split; auto. tauto.
          -- intros H. destruct (H2 H). discriminate.
        * destruct (IH [x]) as [H1 H2]. split.
          -- intros P HP. destruct (H1 (snd x)) as (Q & HQ); [intros y [<-|[]]; auto|]. exists Q. intros y Hy.
             destruct (HQ y Hy) as [? [?|[<-|[]]]]; auto.
          -- intros H. destruct (H2 H). discriminate.
  Qed.

  Context {M : structure} (ds : list disjunct) (Hone : forall d, In d ds -> one_sort (fst d)).
  Let content := unique ds.
  Let others P := flat_map (fun id => if existsb (Nat.eqb (fst id)) P then [] else [mk_exists (fst (snd id)) (snd (snd id))])
                      (combine (seq 0 (length content)) content).

  Lemma disjunction_unique rho : holds (M:=M) (disjunction ds) rho <-> exists i d, nth_error content i = Some d /\ holds (M:=M) (mk_exists (fst d) (snd d)) rho.
  Proof.
    unfold disjunction. rewrite holds_ors. split.
    - intros (f & Hf & H). apply in_map_iff in Hf as (d & <- & Hd). apply unique_in in Hd. apply In_nth_error in Hd as (i & Hi). eauto.
    - intros (i & d & Hd & H). eexists. split; [|exact H]. apply in_map_iff. exists d. split; [reflexivity|]. apply unique_in.
      eapply nth_error_In. exact Hd.
  Qed.
  Lemma content_one i d : nth_error content i = Some d -> one_sort (fst d).
  Proof. intros H. apply Hone. apply unique_in. eapply nth_error_In. exact H. Qed.

  Lemma others_in P f : In f (others P) <-> exists i d, nth_error content i = Some d /\ ~ In i P /\ f = mk_exists (fst d) (snd d).
  Proof.
    unfold others. rewrite in_flat_map. split.
    - intros ([i d] & H & Hf). apply combine_seq_in in H as [_ H]. rewrite Nat.sub_0_r in H. cbn in Hf.
      destruct (existsb (Nat.eqb i) P) eqn:E; [destruct Hf|]. destruct Hf as [<-|[]]. exists i, d. split; [exact H|]. split; [|reflexivity].
      intros Hi. enough (existsb (Nat.eqb i) P = true) by congruence. apply existsb_exists. exists i. rewrite Nat.eqb_refl. auto.
    - intros (i & d & H & Hi & ->). exists (i, d). split; [apply combine_seq_in; rewrite Nat.sub_0_r; split; [lia|exact H]|]. cbn.
      destruct (existsb (Nat.eqb i) P) eqn:E; [|left; auto]. exfalso. apply Hi. apply existsb_exists in E as (j & Hj & E).
      apply Nat.eqb_eq in E. subst. exact Hj.
  Qed.

  Section Step.
    (** Variables that have the same index set. *)
    Context (V : list var) (P : list nat) (HV : forall v, In v V -> In v (keys scmp content) /\ index_set scmp content v = P).
    Let rest (inner : list var) := filter (fun v => negb (existsb (is_key scmp v) V)) inner.
    Let ors1 := flat_map (fun i => match nth_error content i with
                                   | Some (inner, f) => [mk_exists (rest inner) f]
                                   | None => []
                                   end) P.

    Lemma rest_in inner w : In w (rest inner) <-> In w inner /\ ~ In w V.
    Proof.
      unfold rest. rewrite filter_In, negb_true_iff. apply and_iff_compat_l. split.
      - intros E H. enough (existsb (is_key scmp w) V = true) by congruence. apply existsb_exists. exists w. split; [exact H|].
        apply is_key_iff; reflexivity.
      - intros H. apply not_true_is_false. intros E. apply existsb_exists in E as (u & Hu & E). apply is_key_iff in E. subst. auto.
    Qed.
    Lemma V_one : one_sort V.
    Proof.
      intros v w Hv Hw E. destruct (HV v Hv) as [Hk Hp]. destruct (HV w Hw) as [Hk' Hp'].
      apply keys_in in Hk as (d & Hd & Hvd). apply In_nth_error in Hd as (i & Hi).
      assert (Hin : In i (index_set scmp content w)).
      { rewrite Hp', <- Hp. apply index_set_in. exists d. auto. }
      apply index_set_in in Hin as (d' & Hd' & [H|H]).
      - assert (d' = d) by congruence. subst d'. eapply content_one; eauto.
      - exfalso. apply H. assert (d' = d) by congruence. subst d'. rewrite <- E. apply in_map. exact Hvd.
    Qed.
    Lemma ors1_in f : In f ors1 <-> exists i d, In i P /\ nth_error content i = Some d /\ f = mk_exists (rest (fst d)) (snd d).
    Proof.
      unfold ors1. rewrite in_flat_map. split.
      - intros (i & Hi & Hf). destruct (nth_error content i) as [[inner g]|] eqn:E; [|destruct Hf]. destruct Hf as [<-|[]].
        exists i, (inner, g). auto.
      - intros (i & [inner g] & Hi & Hd & ->). exists i. rewrite Hd. cbn. auto.
    Qed.
    Lemma in_V_ids j : In j (map vid V) -> exists v, In v V /\ vid v = j.
    Proof. intros H. apply in_map_iff in H as (v & E & Hv). eauto. Qed.

    (** A disjunct that is merged implies the merged one. *)
    Lemma merged_intro (rho tau : env M) i d :
      (forall v, In v V -> dom M (vsort v) (tau (vid v))) ->
      (forall j, occurs_free j (snd d) -> ~ In j (map vid (fst d)) -> ~ In j (map vid V) -> tau j = rho j) ->
      (forall j, ~ In j (map vid (fst d)) -> In j (map vid V) -> occurs_free j (snd d) -> tau j = rho j) ->
      In i P -> nth_error content i = Some d -> holds (M:=M) (mk_exists (fst d) (snd d)) rho -> holds (M:=M) (mk_exists V (ors ors1)) rho.
    Proof.
      intros Htau Hout Hin Hi Hd H. eapply ex_holds; [eapply content_one; exact Hd|exact H|].
      intros sigma0 Ht0 Ho0 Hf.
      set (sigma := fun j => if in_dec Nat.eq_dec j (map vid (fst d)) then sigma0 j else tau j).
      set (sigmaV := fun j => if in_dec Nat.eq_dec j (map vid V) then sigma j else rho j).
      apply (ex_intro_env V (ors ors1) rho sigmaV).
      - intros v Hv. unfold sigmaV. destruct (in_dec Nat.eq_dec (vid v) (map vid V)) as [_|n]; [|exfalso; apply n, in_map; exact Hv].
        unfold sigma. destruct (in_dec Nat.eq_dec (vid v) (map vid (fst d))) as [Hin'|_]; [|apply Htau; exact Hv].
        destruct (HV v Hv) as [_ Hp]. rewrite <- Hp in Hi. apply index_set_in in Hi as (d' & Hd' & [Hx|Hx]);
          (assert (d' = d) by congruence; subst d'); [apply Ht0; exact Hx|contradiction].
      - intros j _ Hj. unfold sigmaV. destruct (in_dec Nat.eq_dec j (map vid V)); [contradiction|reflexivity].
      - apply holds_ors. exists (mk_exists (rest (fst d)) (snd d)). split; [apply ors1_in; exists i, d; auto|].
        apply (ex_intro_env _ _ sigmaV sigma).
        + intros w Hw. apply rest_in in Hw as [Hw _]. unfold sigma.
          destruct (in_dec Nat.eq_dec (vid w) (map vid (fst d))) as [_|n]; [apply Ht0; exact Hw|exfalso; apply n, in_map; exact Hw].
        + intros j Hfree Hj. unfold sigmaV. destruct (in_dec Nat.eq_dec j (map vid V)) as [_|n]; [reflexivity|].
          unfold sigma. destruct (in_dec Nat.eq_dec j (map vid (fst d))) as [Hx|Hx]; [|apply Hout; auto].
          exfalso. apply in_map_iff in Hx as (w & <- & Hw). apply Hj. apply in_map_iff. exists w. split; [reflexivity|].
          apply rest_in. split; [exact Hw|]. intros HwV. apply n. apply in_map. exact HwV.
        + unfold holds in *. rewrite (eval_agree M (snd d) sigma sigma0); [exact Hf|]. intros j Hfree. unfold sigma.
          destruct (in_dec Nat.eq_dec j (map vid (fst d))) as [Hx|Hx]; [reflexivity|]. rewrite (Ho0 j Hx).
          destruct (in_dec Nat.eq_dec j (map vid V)) as [HjV|HjV]; [apply Hin|apply Hout]; auto.
    Qed.

    Lemma merged_elim (rho : env M) : no_clash ds -> holds (M:=M) (mk_exists V (ors ors1)) rho ->
      holds (M:=M) (disjunction ds) rho.
    Proof.
      intros Hcl H. eapply ex_holds; [apply V_one|exact H|]. intros sigma1 Ht1 Ho1 Hor. apply holds_ors in Hor as (f & Hf & Hh).
      apply ors1_in in Hf as (i & d & Hi & Hd & ->).
      assert (Hone_d := content_one i d Hd).
      assert (Hone_r : one_sort (rest (fst d))) by (intros a b Ha Hb; apply rest_in in Ha; apply rest_in in Hb; apply Hone_d; tauto).
      eapply ex_holds; [exact Hone_r|exact Hh|]. intros sigma2 Ht2 Ho2 Hf2.
      apply disjunction_unique. exists i, d. split; [exact Hd|]. apply (ex_intro_env _ _ rho sigma2); [| |exact Hf2].
      - intros w Hw. destruct (in_dec Nat.eq_dec (vid w) (map vid (rest (fst d)))) as [Hx|Hx].
        + apply in_map_iff in Hx as (u & E & Hu). assert (u = w) as -> by (apply Hone_d; auto; apply rest_in in Hu; tauto). auto.
        + rewrite (Ho2 _ Hx). apply Ht1.
          destruct (existsb (is_key scmp w) V) eqn:Ew.
          * apply existsb_exists in Ew as (u & Hu & E). apply is_key_iff in E. subst. exact Hu.
          * exfalso. apply Hx. apply in_map. unfold rest. apply filter_In. rewrite Ew. auto.
      - intros j Hfree Hj. rewrite Ho2.
        + apply Ho1. intros HjV. apply in_V_ids in HjV as (v & Hv & <-). apply Hj.
          destruct (HV v Hv) as [Hk _]. apply keys_in in Hk as (e & He & Hve).
          apply (Hcl d e v); auto; apply unique_in; [eapply nth_error_In; exact Hd|exact He].
        + intros Hx. apply Hj. apply in_map_iff in Hx as (w & <- & Hw). apply in_map. apply rest_in in Hw. tauto.
    Qed.
  End Step.

  Lemma max_vars : let mx := max_set [] (map (fun v => (v, index_set scmp content v)) (keys scmp content)) in
    (mx = [] -> keys scmp content = []) /\
    (forall v P mx', mx = (v, P) :: mx' -> forall w, In w (map fst mx) -> In w (keys scmp content) /\ index_set scmp content w = P).
  Proof.
    intros mx. destruct (max_set_spec (map (fun v => (v, index_set scmp content v)) (keys scmp content)) []) as [H1 H2]. split.
    - intros H. destruct (H2 H) as [_ H3]. destruct (keys scmp content); [reflexivity|discriminate].
    - intros v P mx' E w Hw. destruct (H1 []) as (Q & HQ); [intros x []|]. fold mx in HQ.
      assert (Q = P) as -> by (destruct (HQ (v, P)) as [HQ1 _]; [rewrite E; left; auto|auto]).
      apply in_map_iff in Hw as ([w' S] & <- & Hw). destruct (HQ _ Hw) as [HS [Hin|[]]]. cbn in *.
      apply in_map_iff in Hin as (w & E' & Hin). injection E' as -> <-. auto.
  Qed.

  Lemma no_keys rho : keys scmp content = [] -> (holds (M:=M) (ors (map snd content)) rho <-> holds (M:=M) (disjunction ds) rho).
  Proof.
    intros Hk. rewrite disjunction_unique, holds_ors.
    assert (Hnil : forall d, In d content -> fst d = []).
    { intros d Hd. destruct (fst d) as [|v l] eqn:E; [reflexivity|]. exfalso. assert (In v (keys scmp content)); [|rewrite Hk in *; auto].
      apply keys_in. exists d. split; [exact Hd|]. rewrite E. left; auto. }
    split.
    - intros (f & Hf & H). apply in_map_iff in Hf as (d & <- & Hd). apply In_nth_error in Hd as Hi. destruct Hi as (i & Hi). exists i, d.
      split; [exact Hi|]. rewrite (Hnil d Hd). exact H.
    - intros (i & d & Hi & H). apply nth_error_In in Hi. exists (snd d). split; [apply in_map; exact Hi|]. rewrite (Hnil d Hi) in H. exact H.
  Qed.

  Lemma merge_implied rho : (forall d v, In d ds -> In v (fst d) -> dom M (vsort v) (rho (vid v))) ->
    holds (M:=M) (disjunction ds) rho -> holds (M:=M) (into_exist_formula scmp ds) rho.
  Proof.
    intros Ht H. unfold into_exist_formula. fold content. destruct max_vars as [Hm1 Hm2].
    destruct (max_set [] _) as [|[v P] mx] eqn:E; [apply no_keys; auto|]. specialize (Hm2 v P mx eq_refl).
    change (map fst ((v, P) :: mx)) with (v :: map fst mx) in *. set (V := v :: map fst mx) in *.
    apply disjunction_unique in H as (i & d & Hd & H). apply holds_ors.
    destruct (in_dec Nat.eq_dec i P) as [Hi|Hi].
    - eexists. split; [left; reflexivity|]. apply (merged_intro V P Hm2 rho rho i d); auto. intros w Hw. destruct (Hm2 w Hw) as [Hk _].
      apply keys_in in Hk as (e & He & Hwe). apply (Ht e w); [apply unique_in|]; auto.
    - eexists. split; [right; apply (others_in P); exists i, d; eauto|]. exact H.
  Qed.

  Lemma merge_equivalent rho : (forall s, exists d, dom M s d) -> no_clash ds ->
    (holds (M:=M) (into_exist_formula scmp ds) rho <-> holds (M:=M) (disjunction ds) rho).
  Proof.
    intros Hne Hcl. unfold into_exist_formula. fold content. destruct max_vars as [Hm1 Hm2].
    destruct (max_set [] _) as [|[v P] mx] eqn:E; [apply no_keys; auto|]. specialize (Hm2 v P mx eq_refl).
    change (map fst ((v, P) :: mx)) with (v :: map fst mx) in *. set (V := v :: map fst mx) in *. rewrite holds_ors. split.
    - intros (f & [<-|Hf] & H).
      + apply (merged_elim V P Hm2 rho Hcl H).
      + apply (others_in P) in Hf as (i & d & Hd & _ & ->). apply disjunction_unique. eauto.
    - intros H. apply disjunction_unique in H as (i & d & Hd & H). destruct (in_dec Nat.eq_dec i P) as [Hi|Hi].
      + eexists. split; [left; reflexivity|]. destruct (env_typed Hne V rho (V_one V P Hm2)) as (tau & Ht & Ho).
        apply (merged_intro V P Hm2 rho tau i d); auto. intros j Hj HjV Hfree. exfalso. apply Hj.
        apply in_V_ids in HjV as (w & Hw & <-). destruct (Hm2 w Hw) as [Hk _]. apply keys_in in Hk as (e & He & Hwe).
        apply (Hcl d e w); auto; apply unique_in; [eapply nth_error_In; exact Hd|exact He].
      + eexists. split; [right; apply (others_in P); exists i, d; eauto|]. exact H.
  Qed.
End Merge.
