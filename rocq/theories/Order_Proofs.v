From Coq Require Import List Arith Bool Lia Permutation.
From Verif Require Import Syntax_Model Subst_Model Traversal_Spec Semantics_Spec Semantics_Proofs Order_Model Order_Spec.
Import ListNotations.

Section Order.
  Context (M : structure).
  Notation T := (is_time M).
  Notation hap d := (tholds M Fhappens [d]).
  Notation le a b := (tholds M Fleq [a; b]).
  Notation ltt a b := (tholds M Flt [a; b]).
  Notation pr d := (fint M Fpred [d]).

  Lemma tholds_dec f ds : {tholds M f ds} + {~ tholds M f ds}.
  Proof. unfold tholds. destruct (dtest M (fint M f ds)); [left; auto|right; congruence]. Qed.
  Lemma deq_dec (a b : D M) : {a = b} + {a <> b}.
  Proof.
    destruct (deq M a b) eqn:E; [left; apply deq_spec; auto|right].
    intros H. apply deq_spec in H. congruence.
  Qed.

  Lemma holds_and a b rho : holds (M:=M) (fand a b) rho <-> holds (M:=M) a rho /\ holds (M:=M) b rho.
  Proof. unfold holds; cbn. rewrite dtest_inj, !andb_true_r, andb_true_iff. reflexivity. Qed.
  Lemma holds_or a b rho : holds (M:=M) (for_ a b) rho <-> holds (M:=M) a rho \/ holds (M:=M) b rho.
  Proof. unfold holds; cbn. rewrite dtest_inj, !orb_false_r, orb_true_iff. reflexivity. Qed.

  Lemma forall1 a f rho : holds (M:=M) (mk_forall [sv a] f) rho <->
    forall d, T d -> holds (M:=M) f (upd rho a d).
  Proof.
    rewrite holds_mk_forall, holds_forall. split.
    - intros H d Hd. apply (H [d]). repeat constructor; auto.
    - intros H ds Hds. inversion Hds as [|? d ? ? Hd Ht]; subst. inversion Ht; subst. cbn. apply H. exact Hd.
  Qed.
  Lemma forall2 a b f rho : holds (M:=M) (mk_forall [sv a; sv b] f) rho <->
    forall d e, T d -> T e -> holds (M:=M) f (upd (upd rho a d) b e).
  Proof.
    rewrite holds_mk_forall, holds_forall. split.
    - intros H d e Hd He. apply (H [d; e]). repeat constructor; auto.
    - intros H ds Hds. inversion Hds as [|? d ? ? Hd Ht]; subst. inversion Ht as [|? e ? ? He Ht']; subst.
      inversion Ht'; subst. cbn. apply H; [exact Hd|exact He].
  Qed.
  Lemma forall3 a b c f rho : holds (M:=M) (mk_forall [sv a; sv b; sv c] f) rho <->
    forall d e g, T d -> T e -> T g -> holds (M:=M) f (upd (upd (upd rho a d) b e) c g).
  Proof.
    rewrite holds_mk_forall, holds_forall. split.
    - intros H d e g Hd He Hg. apply (H [d; e; g]). repeat constructor; auto.
    - intros H ds Hds. inversion Hds as [|? d ? ? Hd Ht]; subst. inversion Ht as [|? e ? ? He Ht']; subst.
      inversion Ht' as [|? g ? ? Hg Ht'']; subst. inversion Ht''; subst. cbn.
      apply H; [exact Hd|exact He|exact Hg].
  Qed.

  (** The axioms, read in [M]. *)
  Record order_laws (i : D M) : Prop := {
    ol_lt : forall a b, T a -> T b -> fint M Flt [a; b] = dinj M (dtest M (fint M Fleq [a; b]) && negb (deq M a b));
    ol_init : hap i;
    ol_least : forall a, T a -> hap a -> le i a;
    ol_prev : forall a, T a -> hap a -> a = i \/ hap (pr a);
    ol_undef : forall a b, T a -> T b -> (hap a \/ hap b) \/ a = b;
    ol_trans : forall a b c, T a -> T b -> T c -> le a b /\ le b c -> le a c;
    ol_anti : forall a b, T a -> T b -> le a b /\ le b a -> a = b;
    ol_total : forall a b, T a -> T b -> (hap a /\ hap b <-> le a b \/ le b a);
    ol_pred_le : forall a, T a -> hap (pr a) -> le (pr a) a;
    ol_pred_ne : forall a, T a -> hap a -> pr a <> a;
    ol_pred_hap : forall a, T a -> hap (pr a) -> hap a;
    ol_pred_imm : forall a b, T a -> T b -> hap (pr a) /\ hap b -> le b (pr a) \/ le a b
  }.

  Lemma dinj_true_iff (a b : bool) : dinj M a = dinj M b <-> (a = true <-> b = true).
  Proof.
    split.
    - intros H. apply (f_equal (dtest M)) in H. rewrite !dtest_inj in H. subst; reflexivity.
    - intros H. f_equal. apply eq_true_iff_eq. exact H.
  Qed.

  Lemma order_theory_laws init i :
    (forall rho, eval (M:=M) init rho = i) -> forall rho,
    Forall (fun f => holds (M:=M) f rho) (order_theory init) <-> order_laws i.
  Proof.
    intros Hi rho. unfold order_theory.
    assert (E : forall f l, Forall (fun f => holds (M:=M) f rho) (f :: l) <->
                            holds (M:=M) f rho /\ Forall (fun f => holds (M:=M) f rho) l).
    { intros f l. split; intros H; [inversion H; auto|constructor; tauto]. }
    rewrite !E. clear E. rewrite !forall2, !forall3, !forall1.
    assert (X : Forall (fun f => holds (M:=M) f rho) [] <-> True) by (split; auto). rewrite X; clear X.
    repeat setoid_rewrite holds_imp. repeat setoid_rewrite holds_or. repeat setoid_rewrite holds_and.
    repeat setoid_rewrite holds_not. repeat setoid_rewrite holds_meq.
    unfold holds, happens, leq, lt, pred, st. cbn. setoid_rewrite Hi.
    repeat setoid_rewrite dtest_inj.
    split.
    - intros (H0 & H1 & H2 & H3 & H4 & H5 & H6 & H7 & H8 & H9 & H10 & H11 & _).
      constructor; auto.
      + intros a b Ha Hb. rewrite <- (H0 a b Ha Hb). f_equal. rewrite andb_true_r; reflexivity.
      + intros a b Ha Hb. specialize (H7 a b Ha Hb). apply dinj_true_iff in H7.
        rewrite andb_true_r, orb_false_r, andb_true_iff, orb_true_iff in H7. exact H7.
    - intros [H0 H1 H2 H3 H4 H5 H6 H7 H8 H9 H10 H11].
      repeat (split; [auto|]); auto.
      + intros a b Ha Hb. rewrite (H0 a b Ha Hb). f_equal. rewrite andb_true_r; reflexivity.
      + intros a b Ha Hb. apply dinj_true_iff. rewrite andb_true_r, orb_false_r, andb_true_iff, orb_true_iff.
        exact (H7 a b Ha Hb).
  Qed.

  Lemma nth_once (tr : list (D M)) : NoDup tr -> forall i j a,
    nth_error tr i = Some a -> nth_error tr j = Some a -> i = j.
  Proof.
    intros H i j a Hi Hj. eapply NoDup_nth_error; [exact H| |congruence].
    apply nth_error_Some. congruence.
  Qed.

  (** C23: traces satisfy the axioms. *)
  Lemma trace_laws i tr u : is_trace M i tr u -> order_laws i.
  Proof.
    intros [Hpt Hun Hon Hfi Hha Hle Hlt Hltb Hpr Hpi Hpu].
    assert (Tin : forall d, In d tr -> T d) by (intros d Hd; apply Hpt; auto).
    assert (Tu : T u) by (apply Hpt; auto).
    assert (Ii : In i tr) by (eapply nth_error_In; eauto).
    assert (Cases : forall d, T d -> d = u /\ ~ hap d \/ exists k, nth_error tr k = Some d).
    { intros d Hd. destruct (proj1 (Hpt d) Hd) as [H| ->].
      - right. apply In_nth_error in H. exact H.
      - left. split; auto. intros H. apply Hha in H; auto. }
    assert (Hk : forall k d, nth_error tr k = Some d -> T d /\ hap d).
    { intros k d H. apply nth_error_In in H. split; [auto|]. apply Hha; auto. }
    assert (Prev : forall d, T d -> (pr d = u /\ (d = u \/ d = i)) \/
                     exists k, nth_error tr (S k) = Some d /\ nth_error tr k = Some (pr d)).
    { intros d Hd. destruct (Cases d Hd) as [[-> _]|[[|k] E]].
      - left; auto.
      - left. rewrite Hfi in E. injection E as <-. auto.
      - right. destruct (nth_error tr k) as [a|] eqn:Ea.
        + exists k. split; auto. rewrite (Hpr k a d); auto.
        + apply nth_error_None in Ea. assert (S k < length tr) by (apply nth_error_Some; congruence). lia. }
    assert (nhu : ~ hap u) by (intros H; apply Hha in H; auto).
    assert (lek : forall k l a b, nth_error tr k = Some a -> nth_error tr l = Some b -> (le a b <-> k <= l)).
    { intros k l a b Ha Hb. rewrite Hle; [|apply (Hk _ _ Ha)|apply (Hk _ _ Hb)]. split; [|eauto].
      intros (k' & l' & Ha' & Hb' & H). rewrite (nth_once tr Hon _ _ _ Ha Ha'), (nth_once tr Hon _ _ _ Hb Hb'). auto. }
    assert (leu : forall a b, T a -> T b -> le a b -> exists k l, nth_error tr k = Some a /\ nth_error tr l = Some b /\ k <= l)
      by (intros a b Ha Hb H; apply Hle; auto).
    assert (hk : forall a, T a -> hap a -> exists k, nth_error tr k = Some a).
    { intros a Ha H. apply Hha in H; auto. apply In_nth_error; auto. }
    constructor.
    - intros a b Ha Hb. destruct (Hltb a b Ha Hb) as [t Et]. rewrite Et. f_equal. apply eq_true_iff_eq.
      specialize (Hlt a b Ha Hb). unfold tholds in Hlt. rewrite Et, dtest_inj in Hlt. rewrite Hlt.
      rewrite andb_true_iff, negb_true_iff. fold (tholds M Fleq [a; b]). rewrite (Hle a b Ha Hb). split.
      + intros (k & l & Ek & El & Hkl). split; [exists k, l; repeat split; auto; lia|].
        destruct (deq M a b) eqn:E; auto. apply deq_spec in E; subst. pose proof (nth_once tr Hon _ _ _ Ek El). lia.
      + intros ((k & l & Ek & El & Hkl) & Hn). exists k, l. repeat split; auto.
        destruct (Nat.eq_dec k l) as [->|]; [|lia]. rewrite Ek in El. injection El as <-. rewrite deq_refl in Hn. discriminate.
    - apply Hha; auto.
    - intros a Ha H. destruct (hk a Ha H) as [k Ek]. apply (lek 0 k); auto. lia.
    - intros a Ha H. destruct (Prev a Ha) as [[_ [->| ->]]|(k & E & E')]; [tauto|auto|].
      right. apply (Hk _ _ E').
    - intros a b Ha Hb. destruct (Cases a Ha) as [[-> _]|[k E]]; [|left; left; apply (Hk _ _ E)].
      destruct (Cases b Hb) as [[-> _]|[k E]]; [auto|]. left; right; apply (Hk _ _ E).
    - intros a b c Ha Hb Hc [H1 H2]. apply leu in H1 as (k & l & Ek & El & H1); auto.
      apply leu in H2 as (l' & m & El' & Em & H2); auto. rewrite (nth_once tr Hon _ _ _ El' El) in H2.
      apply (lek k m); auto. lia.
    - intros a b Ha Hb [H1 H2]. apply leu in H1 as (k & l & Ek & El & H1); auto.
      apply (lek l k) in H2; auto. assert (k = l) as <- by lia. congruence.
    - intros a b Ha Hb. split.
      + intros [H1 H2]. destruct (hk a Ha H1) as [k Ek], (hk b Hb H2) as [l El].
        destruct (le_gt_dec k l); [left; apply (lek k l)|right; apply (lek l k)]; auto; lia.
      + intros [H|H]; apply leu in H as (k & l & Ek & El & H); auto; apply Hk in Ek, El; tauto.
    - intros a Ha H. destruct (Prev a Ha) as [[E _]|(k & E & E')]; [rewrite E in H; tauto|].
      apply (lek k (S k)); auto.
    - intros a Ha H E. destruct (Prev a Ha) as [[E' _]|(k & Ek & Ek')].
      + rewrite <- E, E' in H. tauto.
      + rewrite E in Ek'. pose proof (nth_once tr Hon _ _ _ Ek Ek'). lia.
    - intros a Ha H. destruct (Prev a Ha) as [[E _]|(k & Ek & Ek')]; [rewrite E in H; tauto|]. apply (Hk _ _ Ek).
    - intros a b Ha Hb [H1 H2]. destruct (Prev a Ha) as [[E _]|(k & Ek & Ek')]; [rewrite E in H1; tauto|].
      destruct (hk b Hb H2) as [l El].
      destruct (le_gt_dec l k); [left; apply (lek l k)|right; apply (lek (S k) l)]; auto.
  Qed.

  Theorem order_sound init i tr u : (forall rho, eval (M:=M) init rho = i) -> is_trace M i tr u ->
    forall rho, Forall (fun f => holds (M:=M) f rho) (order_theory init).
  Proof. intros Hi Ht rho. apply (order_theory_laws init i Hi). eapply trace_laws; eauto. Qed.

  (** C24: finitely many happening points satisfying the laws form a trace. *)
  Section Adequate.
    Context (i : D M) (L : order_laws i) (Ti : T i) (Tp : forall d, T d -> T (pr d)).

    Lemma law_happens a b : T a -> T b -> le a b -> hap a /\ hap b.
    Proof. intros Ha Hb H. apply (ol_total i L a b Ha Hb); auto. Qed.
    Lemma law_refl a : T a -> hap a -> le a a.
    Proof. intros Ha H. destruct (proj1 (ol_total i L a a Ha Ha)); auto. Qed.
    Lemma pred_init_undef : ~ hap (pr i).
    Proof.
      intros H. apply (ol_pred_ne i L i Ti (ol_init i L)). apply (ol_anti i L); auto. split.
      - apply (ol_pred_le i L); auto.
      - apply (ol_least i L); auto.
    Qed.

    Fixpoint insert (a : D M) (l : list (D M)) : list (D M) :=
      match l with
      | [] => [a]
      | b :: l' => if dtest M (fint M Fleq [a; b]) then a :: l else b :: insert a l'
      end.
    Definition isort (l : list (D M)) : list (D M) := fold_right insert [] l.

    Lemma insert_perm a l : Permutation (a :: l) (insert a l).
    Proof.
      induction l as [|b l IH]; cbn; [auto|]. destruct (dtest M _); [auto|].
      etransitivity; [apply perm_swap|]. constructor; auto.
    Qed.
    Lemma isort_perm l : Permutation l (isort l).
    Proof.
      induction l as [|a l IH]; cbn; [auto|]. etransitivity; [constructor; exact IH|apply insert_perm].
    Qed.

    Fixpoint sorted (l : list (D M)) : Prop :=
      match l with [] => True | a :: l' => Forall (fun b => le a b) l' /\ sorted l' end.

    Lemma insert_sorted a l : T a -> hap a -> Forall (fun b => T b /\ hap b) l -> sorted l -> sorted (insert a l).
    Proof.
      intros Ha Hh Hl. induction l as [|b l IH]; intros Hs; cbn; [auto|].
      apply Forall_cons_iff in Hl as [[Hb Hbh] Hl]. destruct Hs as [Hb' Hs].
      destruct (dtest M (fint M Fleq [a; b])) eqn:E.
      - cbn. repeat split; auto. constructor; auto. rewrite Forall_forall in *. intros c Hc.
        apply (ol_trans i L a b c); auto. apply Hl; auto.
      - cbn. split; [|apply IH; auto]. apply Forall_forall. intros c Hc.
        apply (Permutation_in (l' := a :: l)) in Hc; [|symmetry; apply insert_perm].
        destruct Hc as [<-|Hc]; [|rewrite Forall_forall in Hb'; auto].
        destruct (proj1 (ol_total i L a b Ha Hb)) as [H|H]; auto. unfold tholds in H. congruence.
    Qed.
    Lemma isort_sorted l : Forall (fun b => T b /\ hap b) l -> sorted (isort l).
    Proof.
      induction l as [|a l IH]; intros H; cbn; [auto|]. apply Forall_cons_iff in H as [[Ha Hh] H].
      apply insert_sorted; auto. eapply Permutation_Forall; [apply isort_perm|exact H].
    Qed.
    Lemma sorted_nth l : sorted l -> forall k m a b, k < m -> nth_error l k = Some a -> nth_error l m = Some b -> le a b.
    Proof.
      induction l as [|c l IH]; intros Hs k m a b Hkm Hk Hm; [destruct k; discriminate|].
      destruct Hs as [Hc Hs]. destruct m as [|m]; [lia|]. destruct k as [|k]; cbn in Hk, Hm.
      - injection Hk as <-. rewrite Forall_forall in Hc. apply Hc. eapply nth_error_In; eauto.
      - apply (IH Hs k m); auto. lia.
    Qed.

    Lemma laws_trace pts : (forall d, T d /\ hap d <-> In d pts) ->
      exists tr, Permutation (nodup deq_dec pts) tr /\ is_trace M i tr (pr i).
    Proof.
      intros Hp. pose (l := nodup deq_dec pts). exists (isort l). split; [apply isort_perm|].
      assert (Hin : forall d, In d (isort l) <-> T d /\ hap d).
      { intros d. rewrite Hp. rewrite <- (nodup_In deq_dec pts d). fold l. split; apply Permutation_in;
          [symmetry|]; apply isort_perm. }
      assert (Hnd : NoDup (isort l)).
      { eapply Permutation_NoDup; [apply isort_perm|apply NoDup_nodup]. }
      assert (Hso : sorted (isort l)).
      { apply isort_sorted. apply Forall_forall. intros d Hd. apply Hp. apply nodup_In in Hd. auto. }
      assert (Hidx : forall k m a b, nth_error (isort l) k = Some a -> nth_error (isort l) m = Some b -> (le a b <-> k <= m)).
      { intros k m a b Hk Hm. pose proof (proj1 (Hin a) (nth_error_In _ _ Hk)) as [Ta Ha].
        pose proof (proj1 (Hin b) (nth_error_In _ _ Hm)) as [Tb Hb]. split; intros H.
        - destruct (le_gt_dec k m); auto. assert (le b a) by (eapply sorted_nth; eauto).
          assert (a = b) as -> by (apply (ol_anti i L); auto). pose proof (nth_once _ Hnd _ _ _ Hk Hm). lia.
        - destruct (Nat.eq_dec k m) as [->|]; [|apply (sorted_nth (isort l) Hso k m); auto; lia].
          rewrite Hk in Hm. injection Hm as <-. apply law_refl; auto. }
      assert (Ii : In i (isort l)) by (apply Hin; split; [auto|apply (ol_init i L)]).
      assert (Hn : ~ hap (pr i)) by apply pred_init_undef.
      assert (Hle : forall a b, T a -> T b -> (le a b <-> exists k m, nth_error (isort l) k = Some a /\
                       nth_error (isort l) m = Some b /\ k <= m)).
      { intros a b Ha Hb. split.
        - intros H. destruct (law_happens a b Ha Hb H) as [Hha Hhb].
          destruct (In_nth_error (isort l) a) as [k Hk]; [apply Hin; auto|].
          destruct (In_nth_error (isort l) b) as [m Hm]; [apply Hin; auto|].
          exists k, m. repeat split; auto. apply (Hidx k m a b); auto.
        - intros (k & m & Hk & Hm & H). apply (Hidx k m); auto. }
      constructor; auto.
      - intros d. rewrite Hin. split.
        + intros Hd. destruct (tholds_dec Fhappens [d]) as [H|H]; [auto|right].
          destruct (ol_undef i L d (pr i)) as [[|]|]; auto; tauto.
        + intros [[H _]| ->]; auto.
      - intros H. apply Hn, Hin; auto.
      - destruct (In_nth_error _ _ Ii) as [k Hk]. destruct k as [|k]; [exact Hk|].
        destruct (nth_error (isort l) 0) as [a|] eqn:E.
        + exfalso. pose proof (proj1 (Hin a) (nth_error_In _ _ E)) as [Ta Ha].
          assert (H : le i a) by (apply (ol_least i L); auto). apply (Hidx (S k) 0) in H; auto. lia.
        + apply nth_error_None in E. assert (S k < length (isort l)) by (apply nth_error_Some; congruence). lia.
      - intros d Hd. rewrite Hin. tauto.
      - intros a b Ha Hb. unfold tholds at 1. rewrite (ol_lt i L a b Ha Hb), dtest_inj, andb_true_iff, negb_true_iff.
        fold (tholds M Fleq [a; b]). rewrite (Hle a b Ha Hb). split.
        + intros [(k & m & Hk & Hm & H) Hne]. exists k, m. repeat split; auto.
          destruct (Nat.eq_dec k m) as [->|]; [|lia]. rewrite Hk in Hm. injection Hm as ->.
          rewrite deq_refl in Hne. discriminate.
        + intros (k & m & Hk & Hm & H). split; [exists k, m; repeat split; auto; lia|].
          destruct (deq M a b) eqn:E; auto. apply deq_spec in E. subst.
          pose proof (nth_once _ Hnd _ _ _ Hk Hm). lia.
      - intros a b Ha Hb. eexists. apply (ol_lt i L a b Ha Hb).
      - intros k a b Hk Hm. pose proof (proj1 (Hin a) (nth_error_In _ _ Hk)) as [Ta Ha].
        pose proof (proj1 (Hin b) (nth_error_In _ _ Hm)) as [Tb Hb].
        assert (Hpb : hap (pr b)).
        { destruct (ol_prev i L b Tb Hb) as [->|H]; auto. exfalso.
          assert (H : le i a) by (apply (ol_least i L); auto). apply (Hidx (S k) k) in H; auto. lia. }
        destruct (In_nth_error (isort l) (pr b)) as [p Hpk]; [apply Hin; auto|].
        assert (p <= S k) by (apply (Hidx p (S k) (pr b) b Hpk Hm), (ol_pred_le i L); auto).
        assert (p <> S k).
        { intros ->. rewrite Hm in Hpk. injection Hpk as Hpk. apply (ol_pred_ne i L b Tb Hb). auto. }
        destruct (ol_pred_imm i L b a Tb Ta) as [H'|H']; auto.
        + apply (Hidx k p) in H'; auto. assert (p = k) as -> by lia. congruence.
        + apply (Hidx (S k) k) in H'; auto. lia.
      - destruct (ol_undef i L (pr (pr i)) (pr i)) as [[H|H]|H]; auto; [|tauto].
        apply (ol_pred_hap i L) in H; auto. tauto.
    Qed.
  End Adequate.

  Theorem order_adequate init i pts :
    (forall rho, eval (M:=M) init rho = i) -> T i -> (forall d, T d -> T (pr d)) ->
    (forall d, T d /\ hap d <-> In d pts) ->
    forall rho, Forall (fun f => holds (M:=M) f rho) (order_theory init) ->
    exists tr, (forall d, In d tr <-> In d pts) /\ is_trace M i tr (pr i).
  Proof.
    intros Hi Ti Tp Hp rho H. apply (order_theory_laws init i Hi) in H.
    destruct (laws_trace i H Ti Tp pts Hp) as (tr & Hperm & Htr). exists tr. split; auto.
    intros d. rewrite <- (nodup_In deq_dec pts d). split; apply Permutation_in; [symmetry|]; auto.
  Qed.
  (** C25 *)
  Lemma gt_axiom_iff rho : holds (M:=M) gt_axiom rho <->
    forall a b, T a -> T b -> fint M Fgt [a; b] <> fint M Flt [b; a].
  Proof.
    unfold gt_axiom. rewrite forall2. setoid_rewrite holds_not. setoid_rewrite holds_meq. reflexivity.
  Qed.
End Order.
