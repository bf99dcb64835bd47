From Coq Require Import List Arith Bool Lia.
From Verif Require Import Rewrite_Model Egraph_Model Egraph_Spec.
Import ListNotations.
Local Open Scope list_scope.

Lemma F2_nth {A B} (R : A -> B -> Prop) l m : Forall2 R l m -> forall n x, nth_error l n = Some x -> exists y, nth_error m n = Some y /\ R x y.
Proof. induction 1 as [|a b l m H F IH]; intros [|n] x E; try discriminate E; [injection E as ->; exists b; auto|]. apply IH. exact E. Qed.
Lemma F2_nth_r {A B} (R : A -> B -> Prop) l m : Forall2 R l m -> forall n y, nth_error m n = Some y -> exists x, nth_error l n = Some x /\ R x y.
Proof. induction 1 as [|a b l m H F IH]; intros [|n] x E; try discriminate E; [injection E as ->; exists a; auto|]. apply IH. exact E. Qed.

Section Fun.
  Variable g : graph.
  Hypothesis W : rebuilt g.

  Lemma rep_fun : forall t i j, rep g t i -> rep g t j -> i = j.
  Proof.
    fix IH 1. intros [f ts] i j A B.
    inversion A as [? ? ids ? ns Hn Hi F]; subst. inversion B as [? ? ids' ? ns' Hn' Hi' F']; subst.
    assert (ids = ids') as ->.
    { clear - IH F F'. revert ids ids' F F'. induction ts as [|t ts IHt]; intros ids ids' F F'; inversion F; inversion F'; subst; [reflexivity|].
      f_equal; [eapply IH; eauto|apply IHt; assumption]. }
    exact (r_unique g W _ _ _ _ _ Hn Hn' Hi Hi').
  Qed.
  Lemma rep_lt t i : rep g t i -> i < length g.
  Proof. intros H. inversion H; subst. apply nth_error_Some. congruence. Qed.

  (** What [next] must satisfy for [l]. *)
  Definition agrees (next : nat -> node -> list nat) (l : looks) : Prop :=
    forall k i ns f ids ts n c u, nth_error g i = Some ns -> In (f, ids) ns -> Forall2 (rep g) ts ids ->
      nth_error ids n = Some c -> nth_error ts n = Some u ->
      l (fun u => rep g u k) (T f ts) n u -> In c (next k (f, ids)).
  (** ... and conversely. *)
  Definition exactly (next : nat -> node -> list nat) (l : looks) : Prop :=
    forall k i ns f ids ts c, nth_error g i = Some ns -> In (f, ids) ns -> Forall2 (rep g) ts ids ->
      In c (next k (f, ids)) -> exists n u, nth_error ids n = Some c /\ nth_error ts n = Some u /\ l (fun u => rep g u k) (T f ts) n u.
  Definition children (next : nat -> node -> list nat) : Prop := forall k f ids c, In c (next k (f, ids)) -> In c ids.
  (** [l] looks at children only. *)
  Definition proper_looks (l : looks) : Prop := forall K f ts n u, l K (T f ts) n u -> nth_error ts n = Some u.

  Ltac cases_op f := destruct f; try (cbn; eauto using nth_error_In; fail).

  Lemma agrees_cca sk : agrees (next_cca sk) (looks_cca sk).
  Proof.
    intros k i ns f ids ts n c u Hn Hi F Ec Eu [_ [N1 [N2 N3]]]. pose proof (nth_error_In _ _ Ec) as IC.
    destruct (r_arity g W _ _ _ _ Hn Hi) as [AD AP]. assert (rep g u c) as RU.
    { destruct (F2_nth _ _ _ F _ _ Eu) as [c' [E' R]]. congruence. }
    destruct f; try (destruct sk; exact IC); try congruence.
    - specialize (AD eq_refl). destruct ids as [|x [|y [|? ?]]]; try discriminate AD. destruct sk; try exact IC. cbn.
      destruct (Nat.eqb_spec y k) as [->|]; [|exact IC]. destruct n as [|[|n]]; cbn in Ec.
      + injection Ec as ->. left. reflexivity.
      + injection Ec as ->. exfalso. apply N3. auto.
      + destruct n; discriminate Ec.
    - specialize (AP eq_refl). destruct ids as [|x [|? ?]]; try discriminate AP. cbn. destruct sk; cbn; try exact IC;
        (destruct (Nat.eqb_spec x k) as [->|]; [|exact IC]; exfalso; apply N2; destruct n as [|n]; cbn in Ec;
         [injection Ec as <-; repeat split; [congruence|exact RU]|destruct n; discriminate Ec]).
  Qed.
  Lemma agrees_nonce : agrees next_nonce looks_nonce.
  Proof.
    intros k i ns f ids ts n c u Hn Hi F Ec Eu [_ [N1 N2]]. pose proof (nth_error_In _ _ Ec) as IC.
    destruct f; try exact IC; congruence.
  Qed.
  Lemma agrees_key : agrees next_key looks_key.
  Proof.
    intros k i ns f ids ts n c u Hn Hi F Ec Eu [_ [N1 [N2 N3]]]. pose proof (nth_error_In _ _ Ec) as IC.
    destruct (r_arity g W _ _ _ _ Hn Hi) as [AD _]. assert (rep g u c) as RU.
    { destruct (F2_nth _ _ _ F _ _ Eu) as [c' [E' R]]. congruence. }
    destruct f; try exact IC; try congruence.
    specialize (AD eq_refl). destruct ids as [|x [|y [|? ?]]]; try discriminate AD. cbn.
    destruct (Nat.eqb_spec y k) as [->|]; [|exact IC]. destruct n as [|[|n]]; cbn in Ec.
    - injection Ec as ->. left. reflexivity.
    - injection Ec as ->. exfalso. apply N3. auto.
    - destruct n; discriminate Ec.
  Qed.

  Lemma children_cca sk : children (next_cca sk).
  Proof.
    intros k f ids c. destruct f; try (destruct sk; exact (fun x => x)); cbn.
    - destruct ids as [|x [|y [|? ?]]], sk; cbn; auto. destruct (Nat.eqb y k); cbn; tauto.
    - destruct ids as [|x [|? ?]]; cbn; auto. destruct (is_key sk && Nat.eqb x k); cbn; tauto.
    - intros [].
  Qed.
  Lemma children_nonce : children next_nonce.
  Proof. intros k f ids c. destruct f; cbn; auto; intros []. Qed.
  Lemma children_key : children next_key.
  Proof.
    intros k f ids c. destruct f; cbn; auto; try (intros []; fail).
    destruct ids as [|x [|y [|? ?]]]; cbn; auto. destruct (Nat.eqb y k); cbn; tauto.
  Qed.

  Lemma looked ids ts c : Forall2 (rep g) ts ids -> In c ids -> exists n u, nth_error ids n = Some c /\ nth_error ts n = Some u /\ rep g u c.
  Proof.
    intros F I. apply In_nth_error in I as [n E]. destruct (F2_nth_r _ _ _ F _ _ E) as [u [E' R]]. eauto.
  Qed.
  Lemma exactly_cca sk : exactly (next_cca sk) (looks_cca sk).
  Proof.
    intros k i ns f ids ts c Hn Hi F I. destruct (r_arity g W _ _ _ _ Hn Hi) as [AD AP].
    pose proof (children_cca sk _ _ _ _ I) as IC. destruct (looked _ _ _ F IC) as [n [u [E1 [E2 R]]]].
    assert (f <> ODec -> f <> OPk -> f <> OInput -> exists n u, nth_error ids n = Some c /\ nth_error ts n = Some u /\
            looks_cca sk (fun u => rep g u k) (T f ts) n u) as Z.
    { intros D1 D2 D3. exists n, u. split; [exact E1|]. split; [exact E2|]. split; [exact E2|]. split; [exact D3|].
      split; intros [X _]; contradiction. }
    destruct f; try (apply Z; discriminate); clear Z.
    - specialize (AD eq_refl). destruct ids as [|x [|y [|? ?]]]; try discriminate AD.
      assert (exists n u, nth_error [x; y] n = Some c /\ nth_error ts n = Some u /\ rep g u c /\ ~ (sk = KeyBeforeEnc /\ n = 1 /\ rep g u k)) as [n' [u' [A1 [A2 [A3 A4]]]]].
      { destruct (Nat.eq_dec c x) as [->|NX].
        - assert (nth_error [x; y] 0 = Some x) as A1 by reflexivity. destruct (F2_nth_r _ _ _ F _ _ A1) as [u0 [A2 A3]].
          exists 0, u0. repeat (split; [assumption|]). intros [_ [X _]]. discriminate X.
        - destruct n as [|[|n]]; cbn in E1; [congruence| |destruct n; discriminate E1]. injection E1 as ->.
          exists 1, u. repeat (split; [assumption || reflexivity|]). intros [-> [_ RK]].
          assert (c = k) as -> by (eapply rep_fun; eauto). cbn in I. rewrite Nat.eqb_refl in I. destruct I as [I|[]]. congruence. }
      exists n', u'. split; [exact A1|]. split; [exact A2|]. split; [exact A2|]. split; [discriminate|].
      split; [intros [X _]; discriminate X|]. intros [_ [X [Y Z]]]. apply A4. auto.
    - specialize (AP eq_refl). destruct ids as [|x [|? ?]]; try discriminate AP. exists n, u.
      split; [exact E1|]. split; [exact E2|]. split; [exact E2|]. split; [discriminate|].
      split; [|intros [X _]; discriminate X]. intros [_ [K RK]]. assert (c = k) as -> by (eapply rep_fun; eauto).
      cbn in I. destruct IC as [<-|[]]. destruct sk; cbn in I; rewrite ?Nat.eqb_refl in I; try contradiction; congruence.
    - destruct I.
  Qed.
  Lemma exactly_nonce : exactly next_nonce looks_nonce.
  Proof.
    intros k i ns f ids ts c Hn Hi F I.
    pose proof (children_nonce _ _ _ _ I) as IC. destruct (looked _ _ _ F IC) as [n [u [E1 [E2 R]]]].
    exists n, u. split; [exact E1|]. split; [exact E2|]. split; [exact E2|]. destruct f; try (split; discriminate); destruct I.
  Qed.
  Lemma exactly_key : exactly next_key looks_key.
  Proof.
    intros k i ns f ids ts c Hn Hi F I. destruct (r_arity g W _ _ _ _ Hn Hi) as [AD _].
    pose proof (children_key _ _ _ _ I) as IC. destruct (looked _ _ _ F IC) as [n [u [E1 [E2 R]]]].
    assert (f <> ODec -> f <> ONonce -> f <> OInput -> exists n u, nth_error ids n = Some c /\ nth_error ts n = Some u /\
            looks_key (fun u => rep g u k) (T f ts) n u) as Z.
    { intros D1 D2 D3. exists n, u. split; [exact E1|]. split; [exact E2|]. split; [exact E2|]. split; [exact D3|].
      split; [exact D2|]. intros [X _]; contradiction. }
    destruct f; try (apply Z; discriminate); try (destruct I; fail); clear Z.
    specialize (AD eq_refl). destruct ids as [|x [|y [|? ?]]]; try discriminate AD.
    destruct (Nat.eq_dec c x) as [->|NX].
    - assert (nth_error [x; y] 0 = Some x) as A1 by reflexivity. destruct (F2_nth_r _ _ _ F _ _ A1) as [u0 [A2 A3]].
      exists 0, u0. split; [reflexivity|]. split; [exact A2|]. split; [exact A2|]. do 2 (split; [discriminate|]). intros [_ [X _]]. discriminate X.
    - destruct n as [|[|n]]; cbn in E1; [congruence| |destruct n; discriminate E1]. injection E1 as ->.
      exists 1, u. split; [reflexivity|]. split; [exact E2|]. split; [exact E2|]. do 2 (split; [discriminate|]). intros [_ [_ RK]].
      assert (c = k) as -> by (eapply rep_fun; eauto). cbn in I. rewrite Nat.eqb_refl in I. destruct I as [I|[]]. congruence.
  Qed.
  Lemma proper_cca sk : proper_looks (looks_cca sk). Proof. intros K f ts n u H. apply H. Qed.
  Lemma proper_nonce : proper_looks looks_nonce. Proof. intros K f ts n u H. apply H. Qed.
  Lemma proper_key : proper_looks looks_key. Proof. intros K f ts n u H. apply H. Qed.

  Section One.
    Variable next : nat -> node -> list nat.
    Variable l : looks.
    Hypothesis AG : agrees next l.
    Hypothesis CH : children next.
    Hypothesis PL : proper_looks l.
    Variable nonce : nat.

    Lemma avoids_mono ign ign' i : incl ign ign' -> avoids g l nonce ign i -> avoids g l nonce ign' i.
    Proof.
      intros S0 [t [R F]]. exists t. split; [exact R|]. intros v Sv. apply F. clear F R.
      induction Sv as [t|t n u v NI L Sv IH]; [constructor|]. econstructor; eauto. intros [c [I Rc]]. apply NI. exists c. auto.
    Qed.

    Definition sound (ign : list nat) (m : memo) : Prop := forall i, m i = Some NotFound -> avoids g l nonce ign i.

    Lemma sound_set ign m i s : sound ign m -> (s = NotFound -> avoids g l nonce ign i) -> sound ign (mset m i s).
    Proof. intros S0 H j. unfold mset. destruct (Nat.eqb_spec j i) as [->|]; [intros E; apply H; congruence|apply S0]. Qed.

    Lemma choose (Q : nat -> term -> Prop) ids : (forall c, In c ids -> exists t, Q c t) -> exists ts, Forall2 (fun t c => Q c t) ts ids.
    Proof.
      induction ids as [|c ids IH]; intros H; [exists []; constructor|]. destruct (H c (or_introl eq_refl)) as [t Ht].
      destruct IH as [ts F]; [intros c' I; apply H; right; exact I|]. exists (t :: ts). constructor; assumption.
    Qed.

    (** A node whose searched children avoid the nonce. *)
    Lemma node_avoids ign i ns f ids : i <> nonce -> nth_error g i = Some ns -> In (f, ids) ns ->
      (forall c, In c (next nonce (f, ids)) -> avoids g l nonce ign c) -> avoids g l nonce ign i.
    Proof.
      intros NE Hn Hi H.
      destruct (choose (fun c t => rep g t c /\ (In c (next nonce (f, ids)) ->
                forall v, seen l (fun u => rep g u nonce) (in_classes g ign) t v -> ~ rep g v nonce)) ids) as [ts F].
      { intros c Ic. destruct (in_dec Nat.eq_dec c (next nonce (f, ids))) as [J|J].
        - destruct (H c J) as [t [R A]]. exists t. auto.
        - destruct (r_term g W c) as [t R]; [eapply r_closed; eauto|]. exists t. split; [exact R|contradiction]. }
      assert (Forall2 (rep g) ts ids) as FR by (clear - F; induction F; constructor; tauto).
      assert (rep g (T f ts) i) as RT by (econstructor; eauto).
      exists (T f ts). split; [exact RT|]. intros v Sv Rv. inversion Sv as [|? n u ? NI L Su]; subst.
      - apply NE. eapply rep_fun; eauto.
      - pose proof (PL _ _ _ _ _ L) as Eu. destruct (F2_nth _ _ _ F _ _ Eu) as [c [Ec [Rc A]]].
        refine (A _ v Su Rv). eapply AG; eauto.
    Qed.

    Lemma search_sound ign ign' : incl ign ign' -> forall fuel m t m' b, sound ign' m -> t < length g ->
      search g next ign nonce fuel m t = Done m' b -> sound ign' m' /\ (b = true -> avoids g l nonce ign' t).
    Proof.
      intros INCL. induction fuel as [|fuel IH]; intros m t m' b S0 LT; cbn [search].
      - destruct (m t) as [[]|] eqn:E; intros X; inversion X; subst; (split; [exact S0|]); auto; discriminate.
      - destruct (m t) as [[]|] eqn:E; try (intros X; inversion X; subst; (split; [exact S0|]); auto; discriminate).
        destruct (Nat.eqb_spec t nonce) as [->|NE].
        { intros X; inversion X; subst. split; [|discriminate]. apply sound_set; [exact S0|discriminate]. }
        destruct (existsb (Nat.eqb t) ign) eqn:EI.
        { intros X; inversion X; subst. assert (avoids g l nonce ign' t) as A.
          { destruct (r_term g W t LT) as [u Ru]. exists u. split; [exact Ru|]. intros v Sv Rv.
            inversion Sv as [|? n ? ? NI L Su]; subst; [apply NE; eapply rep_fun; eauto|].
            apply NI. apply existsb_exists in EI as [c [Ic Ec]]. apply Nat.eqb_eq in Ec as <-. exists t. split; [apply INCL; exact Ic|exact Ru]. }
          split; [|auto]. apply sound_set; auto. }
        destruct (nth_error g t) as [ns|] eqn:En; [|discriminate].
        assert (forall ids m1 m2 b2, sound ign' m1 -> (forall c, In c ids -> c < length g) ->
                all_ids (search g next ign nonce fuel) ids m1 = Done m2 b2 ->
                sound ign' m2 /\ (b2 = true -> forall c, In c ids -> avoids g l nonce ign' c)) as ALL.
        { induction ids as [|c ids IHi]; intros m1 m2 b2 S1 LI; cbn [all_ids].
          - intros X; inversion X; subst. split; [exact S1|]. intros _ c [].
          - destruct (search g next ign nonce fuel m1 c) as [m3 b3| |] eqn:Es; try discriminate.
            destruct (IH _ _ _ _ S1 (LI c (or_introl eq_refl)) Es) as [S3 A3]. destruct b3.
            + intros X. destruct (IHi _ _ _ S3 (fun c' I => LI c' (or_intror I)) X) as [S2 A2]. split; [exact S2|].
              intros Eb c' [<-|I]; auto.
            + intros X; inversion X; subst. split; [exact S3|discriminate]. }
        assert (forall ns' m1 m2 b2, incl ns' ns -> sound ign' m1 -> any_node next nonce (search g next ign nonce fuel) ns' m1 = Done m2 b2 ->
                sound ign' m2 /\ (b2 = true -> avoids g l nonce ign' t)) as ANY.
        { induction ns' as [|[f ids] ns' IHn]; intros m1 m2 b2 INC S1; cbn [any_node].
          - intros X; inversion X; subst. split; [exact S1|discriminate].
          - assert (In (f, ids) ns) as IN by (apply INC; left; reflexivity).
            destruct (all_ids _ _ m1) as [m3 b3| |] eqn:Ea; try discriminate.
            assert (forall c, In c (next nonce (f, ids)) -> c < length g) as LI by (intros c Ic; eapply r_closed; eauto).
            destruct (ALL _ _ _ _ S1 LI Ea) as [S3 A3]. destruct b3.
            + intros X; inversion X; subst. split; [exact S3|]. intros _. eapply node_avoids; eauto.
            + intros X. apply (IHn _ _ _ (fun x J => INC x (or_intror J)) S3 X). }
        destruct (any_node _ _ _ ns _) as [m3 b3| |] eqn:Ea; try discriminate. intros X; inversion X; subst.
        assert (sound ign' (mset m t Searching)) as S1 by (apply sound_set; [exact S0|discriminate]).
        destruct (ANY ns _ _ _ (incl_refl ns) S1 Ea) as [S3 A3]. split; [|exact A3].
        apply sound_set; [exact S3|]. destruct b; [auto|discriminate].
    Qed.

    Lemma sound_mono ign ign' m : incl ign ign' -> sound ign m -> sound ign' m.
    Proof. intros H S0 i E. eapply avoids_mono; eauto. Qed.

    (** *** Termination *)
    Definition unset (m : memo) : nat := length (filter (fun i => match m i with None => true | Some _ => false end) (seq 0 (length g))).
    Definition grows (m m' : memo) : Prop := forall i, m i <> None -> m' i <> None.

    Lemma filter_le {X} (p q : X -> bool) xs : (forall x, p x = true -> q x = true) -> length (filter p xs) <= length (filter q xs).
    Proof. intros H. induction xs as [|x xs IH]; cbn; [lia|]. destruct (p x) eqn:P; [rewrite (H _ P); cbn; lia|]. destruct (q x); cbn; lia. Qed.
    Lemma filter_lt {X} (p q : X -> bool) xs y : (forall x, p x = true -> q x = true) -> In y xs -> p y = false -> q y = true -> length (filter p xs) < length (filter q xs).
    Proof.
      intros H I P Q. induction xs as [|x xs IH]; [destruct I|]. cbn. destruct I as [->|I].
      - rewrite P, Q. cbn. pose proof (filter_le p q xs H). lia.
      - specialize (IH I). destruct (p x) eqn:Px; [rewrite (H _ Px); cbn; lia|]. destruct (q x); cbn; lia.
    Qed.
    Lemma grows_unset m m' : grows m m' -> unset m' <= unset m.
    Proof.
      intros G. apply filter_le. intros i. destruct (m i) eqn:E; [|reflexivity]. specialize (G i). rewrite E in G.
      destruct (m' i); [discriminate|]. exfalso. apply G; congruence.
    Qed.
    Lemma set_unset m i s : i < length g -> m i = None -> unset (mset m i s) < unset m.
    Proof.
      intros LT E. apply filter_lt with (y := i).
      - intros j. unfold mset. destruct (Nat.eqb j i); [discriminate|auto].
      - apply in_seq. lia.
      - unfold mset. rewrite Nat.eqb_refl. reflexivity.
      - rewrite E. reflexivity.
    Qed.
    Lemma grows_set m i s : grows m (mset m i s).
    Proof. intros j. unfold mset. destruct (Nat.eqb j i); [discriminate|auto]. Qed.
    Lemma grows_trans a b c : grows a b -> grows b c -> grows a c.
    Proof. unfold grows. auto. Qed.

    Lemma search_total ign : forall fuel m t, t < length g -> unset m < fuel ->
      exists m' b, search g next ign nonce fuel m t = Done m' b /\ grows m m'.
    Proof.
      induction fuel as [|fuel IH]; intros m t LT FU; [lia|]. cbn [search].
      assert (grows m m) as GR by (intros i; auto).
      destruct (m t) as [[]|] eqn:E; eauto.
      destruct (Nat.eqb t nonce). { do 2 eexists. split; [reflexivity|]. apply grows_set. }
      destruct (existsb _ ign). { do 2 eexists. split; [reflexivity|]. apply grows_set. }
      destruct (nth_error g t) as [ns|] eqn:En; [|apply nth_error_None in En; lia].
      pose proof (set_unset m t Searching LT E) as U1.
      assert (forall ids m1, (forall c, In c ids -> c < length g) -> unset m1 < fuel ->
              exists m2 b2, all_ids (search g next ign nonce fuel) ids m1 = Done m2 b2 /\ grows m1 m2) as ALL.
      { induction ids as [|c ids IHi]; intros m1 LI U; cbn [all_ids]; [do 2 eexists; split; [reflexivity|intros i; auto]|].
        destruct (IH m1 c (LI c (or_introl eq_refl)) U) as [m3 [b3 [-> G3]]]. destruct b3; [|eauto].
        destruct (IHi m3 (fun c' I => LI c' (or_intror I))) as [m2 [b2 [-> G2]]]; [pose proof (grows_unset _ _ G3); lia|].
        do 2 eexists. split; [reflexivity|]. eapply grows_trans; eauto. }
      assert (forall ns' m1, incl ns' ns -> unset m1 < fuel ->
              exists m2 b2, any_node next nonce (search g next ign nonce fuel) ns' m1 = Done m2 b2 /\ grows m1 m2) as ANY.
      { induction ns' as [|[f ids] ns' IHn]; intros m1 INC U; cbn [any_node]; [do 2 eexists; split; [reflexivity|intros i; auto]|].
        assert (In (f, ids) ns) as IN by (apply INC; left; reflexivity).
        destruct (ALL (next nonce (f, ids)) m1) as [m3 [b3 [-> G3]]]; [intros c Ic; eapply r_closed; eauto|exact U|].
        destruct b3; [eauto|].
        destruct (IHn m3 (fun x J => INC x (or_intror J))) as [m2 [b2 [-> G2]]]; [pose proof (grows_unset _ _ G3); lia|].
        do 2 eexists. split; [reflexivity|]. eapply grows_trans; eauto. }
      destruct (ANY ns (mset m t Searching) (incl_refl ns)) as [m2 [b2 [-> G2]]]; [lia|].
      do 2 eexists. split; [reflexivity|]. eapply grows_trans; [|apply grows_set]. eapply grows_trans; [apply grows_set|exact G2].
    Qed.
    Lemma unset_le m : unset m <= length g.
    Proof. unfold unset. rewrite <- (seq_length (length g) 0) at 2. generalize (seq 0 (length g)). intros xs. induction xs as [|x xs IH]; cbn; [lia|]. destruct (match m x with Some _ => false | None => true end); cbn; lia. Qed.
    Lemma check_total ign m t : t < length g -> exists m' b, check g next ign nonce m t = Done m' b.
    Proof. intros LT. destruct (search_total ign (S (length g)) m t LT) as [m' [b [E _]]]; [pose proof (unset_le m); lia|]. exists m', b. exact E. Qed.

    Lemma checks_sound qs : forall m ign0, sound ign0 m -> (forall q, In q qs -> snd q < length g) ->
      length (checks g next nonce m qs) = length qs /\
      forall j q, nth_error qs j = Some q -> nth_error (checks g next nonce m qs) j = Some true ->
        avoids g l nonce (ign0 ++ concat (map fst (firstn (S j) qs))) (snd q).
    Proof.
      induction qs as [|[ign t] qs IH]; intros m ign0 S0 LT; cbn [checks].
      - split; [reflexivity|]. intros [|j] q E; discriminate E.
      - pose proof (LT (ign, t) (or_introl eq_refl)) as L1. cbn in L1.
        destruct (check_total ign m t L1) as [m' [b E]]. rewrite E.
        assert (sound (ign0 ++ ign) m) as S1 by (eapply sound_mono; [apply incl_appl, incl_refl|exact S0]).
        destruct (search_sound ign (ign0 ++ ign) (incl_appr _ (incl_refl _)) _ _ _ _ _ S1 L1 E) as [S2 A].
        destruct (IH m' (ign0 ++ ign) S2 (fun q I => LT q (or_intror I))) as [EL H]. cbn [length]. split; [congruence|].
        intros [|j] q Eq Et; cbn in Eq, Et.
        + injection Eq as <-. injection Et as ->. cbn. rewrite app_nil_r. apply A. reflexivity.
        + specialize (H j q Eq Et). cbn [firstn map concat fst] in *. rewrite app_assoc. exact H.
    Qed.

    (** *** Exactness without cycles *)
    Section Acyclic.
      Hypothesis EX : exactly next l.
      Variable rank : nat -> nat.
      Hypothesis RK : forall i ns f ids c, nth_error g i = Some ns -> In (f, ids) ns -> In c ids -> rank c < rank i.
      Variable ign : list nat.

      Definition exact (m : memo) : Prop := sound ign m /\ forall i, m i = Some Found -> ~ avoids g l nonce ign i.
      Lemma exact_set m i s : exact m -> (s = NotFound -> avoids g l nonce ign i) -> (s = Found -> ~ avoids g l nonce ign i) -> exact (mset m i s).
      Proof.
        intros [S0 F0] H H'. split; [apply sound_set; assumption|]. intros j. unfold mset.
        destruct (Nat.eqb_spec j i) as [->|]; [intros E; apply H'; congruence|apply F0].
      Qed.

      Lemma blocked t ns : t <> nonce -> existsb (Nat.eqb t) ign = false -> nth_error g t = Some ns ->
        (forall f ids, In (f, ids) ns -> exists c, In c (next nonce (f, ids)) /\ ~ avoids g l nonce ign c) -> ~ avoids g l nonce ign t.
      Proof.
        intros NE NI Hn H [[f ts] [R A]]. inversion R as [? ? ids ? ns' Hn' Hi F]; subst. rewrite Hn in Hn'. injection Hn' as <-.
        destruct (H f ids Hi) as [c [Ic NA]]. destruct (EX _ _ _ _ _ _ _ Hn Hi F Ic) as [n [u [E1 [E2 L]]]].
        apply NA. destruct (F2_nth _ _ _ F _ _ E2) as [c' [E' Rc]]. assert (c' = c) as -> by congruence.
        exists u. split; [exact Rc|]. intros v Sv. apply A. econstructor; [|exact L|exact Sv].
        intros [c2 [I2 R2]]. assert (t = c2) as -> by (eapply rep_fun; eauto).
        assert (existsb (Nat.eqb c2) ign = true) as Z by (apply existsb_exists; exists c2; split; [exact I2|apply Nat.eqb_refl]). congruence.
      Qed.

      Lemma search_exact : forall fuel m t m' b, exact m -> t < length g -> (forall i, m i = Some Searching -> rank t < rank i) ->
        search g next ign nonce fuel m t = Done m' b ->
        exact m' /\ (b = true <-> avoids g l nonce ign t) /\ (forall i, m' i = Some Searching <-> m i = Some Searching).
      Proof.
        assert (forall b (P : Prop), (b = true -> P) -> (b = false -> ~ P) -> (b = true <-> P)) as IFF.
        { intros [] P A B; split; intros; auto; exfalso; apply B; auto. }
        induction fuel as [|fuel IH]; intros m t m' b X0 LT SR; cbn [search].
        - destruct (m t) as [[]|] eqn:E; intros X; inversion X; subst; (split; [exact X0|]; split; [|tauto]).
          + specialize (SR t E). lia.
          + apply IFF; [discriminate|]. intros _. apply X0. exact E.
          + apply IFF; [|discriminate]. intros _. apply X0. exact E.
        - destruct (m t) as [[]|] eqn:E.
          1-3: intros X; inversion X; subst; (split; [exact X0|]; split; [|tauto]).
          { specialize (SR t E). lia. }
          { apply IFF; [discriminate|]. intros _. apply X0. exact E. }
          { apply IFF; [|discriminate]. intros _. apply X0. exact E. }
          assert (forall m2 s, s <> Searching -> (forall i, m2 i = Some Searching <-> m i = Some Searching \/ i = t) \/
                                    (forall i, m2 i = Some Searching <-> m i = Some Searching) ->
                  forall i, mset m2 t s i = Some Searching <-> m i = Some Searching) as SS.
          { intros m2 s NS [D|D] i; unfold mset; destruct (Nat.eqb_spec i t) as [->|NE].
            - rewrite E. split; intros Z; [injection Z as ->; congruence|discriminate Z].
            - rewrite D. tauto.
            - rewrite E. split; intros Z; [injection Z as ->; congruence|discriminate Z].
            - apply D. }
          destruct (Nat.eqb_spec t nonce) as [->|NE].
          { intros X; inversion X; subst. assert (~ avoids g l nonce ign nonce) as NA.
            { intros [u [R A]]. apply (A u); [constructor|exact R]. }
            split; [apply exact_set; [exact X0|discriminate|auto]|]. split; [apply IFF; [discriminate|auto]|].
            apply SS; [discriminate|right; tauto]. }
          destruct (existsb (Nat.eqb t) ign) eqn:EI.
          { intros X; inversion X; subst. assert (avoids g l nonce ign t) as A.
            { destruct (r_term g W t LT) as [u Ru]. exists u. split; [exact Ru|]. intros v Sv Rv.
              inversion Sv as [|? n ? ? NI L Su]; subst; [apply NE; eapply rep_fun; eauto|].
              apply NI. apply existsb_exists in EI as [c [Ic Ec]]. apply Nat.eqb_eq in Ec as <-. exists t. auto. }
            split; [apply exact_set; [exact X0|auto|discriminate]|]. split; [apply IFF; [auto|discriminate]|].
            apply SS; [discriminate|right; tauto]. }
          destruct (nth_error g t) as [ns|] eqn:En; [|discriminate].
          assert (forall ids m1 m2 b2, exact m1 -> (forall c, In c ids -> c < length g /\ rank c < rank t) ->
                  (forall i, m1 i = Some Searching <-> m i = Some Searching \/ i = t) ->
                  all_ids (search g next ign nonce fuel) ids m1 = Done m2 b2 ->
                  exact m2 /\ (forall i, m2 i = Some Searching <-> m i = Some Searching \/ i = t) /\
                  (b2 = true -> forall c, In c ids -> avoids g l nonce ign c) /\
                  (b2 = false -> exists c, In c ids /\ ~ avoids g l nonce ign c)) as ALL.
          { induction ids as [|c ids IHi]; intros m1 m2 b2 X1 LI D1; cbn [all_ids].
            - intros X; inversion X; subst. split; [exact X1|]. split; [exact D1|]. split; [intros _ c []|discriminate].
            - destruct (search g next ign nonce fuel m1 c) as [m3 b3| |] eqn:Es; try discriminate.
              destruct (LI c (or_introl eq_refl)) as [LC RC].
              assert (forall i, m1 i = Some Searching -> rank c < rank i) as SR1.
              { intros i Ei. apply D1 in Ei as [Ei| ->]; [specialize (SR i Ei); lia|exact RC]. }
              destruct (IH _ _ _ _ X1 LC SR1 Es) as [X3 [A3 D3]].
              assert (forall i, m3 i = Some Searching <-> m i = Some Searching \/ i = t) as D3' by (intros i; rewrite D3; apply D1).
              destruct b3.
              + intros X. destruct (IHi _ _ _ X3 (fun c' I => LI c' (or_intror I)) D3' X) as [X2 [D2 [A2 B2]]].
                split; [exact X2|]. split; [exact D2|]. split.
                * intros Eb c' [<-|I]; [apply A3; reflexivity|auto].
                * intros Eb. destruct (B2 Eb) as [c' [I' N']]. exists c'. split; [right; exact I'|exact N'].
              + intros X; inversion X; subst. split; [exact X3|]. split; [exact D3'|]. split; [discriminate|].
                intros _. exists c. split; [left; reflexivity|]. intros A. apply A3 in A. discriminate A. }
          assert (forall ns' m1 m2 b2, incl ns' ns -> exact m1 ->
                  (forall i, m1 i = Some Searching <-> m i = Some Searching \/ i = t) ->
                  any_node next nonce (search g next ign nonce fuel) ns' m1 = Done m2 b2 ->
                  exact m2 /\ (forall i, m2 i = Some Searching <-> m i = Some Searching \/ i = t) /\
                  (b2 = true -> avoids g l nonce ign t) /\
                  (b2 = false -> forall f ids, In (f, ids) ns' -> exists c, In c (next nonce (f, ids)) /\ ~ avoids g l nonce ign c)) as ANY.
          { induction ns' as [|[f ids] ns' IHn]; intros m1 m2 b2 INC X1 D1; cbn [any_node].
            - intros X; inversion X; subst. split; [exact X1|]. split; [exact D1|]. split; [discriminate|]. intros _ f ids [].
            - assert (In (f, ids) ns) as IN by (apply INC; left; reflexivity).
              destruct (all_ids _ _ m1) as [m3 b3| |] eqn:Ea; try discriminate.
              assert (forall c, In c (next nonce (f, ids)) -> c < length g /\ rank c < rank t) as LI
                by (intros c Ic; apply CH in Ic; split; [eapply r_closed; eauto|eapply RK; eauto]).
              destruct (ALL _ _ _ _ X1 LI D1 Ea) as [X3 [D3 [A3 B3]]]. destruct b3.
              + intros X; inversion X; subst. split; [exact X3|]. split; [exact D3|]. split; [|discriminate].
                intros _. eapply node_avoids; eauto.
              + intros X. destruct (IHn _ _ _ (fun x J => INC x (or_intror J)) X3 D3 X) as [X2 [D2 [A2 B2]]].
                split; [exact X2|]. split; [exact D2|]. split; [exact A2|]. intros Eb f' ids' [J|J]; [|apply B2; auto].
                injection J as <- <-. apply B3. reflexivity. }
          destruct (any_node _ _ _ ns _) as [m3 b3| |] eqn:Ea; try discriminate. intros X; inversion X; subst.
          assert (exact (mset m t Searching)) as X1 by (apply exact_set; [exact X0|discriminate|discriminate]).
          assert (forall i, mset m t Searching i = Some Searching <-> m i = Some Searching \/ i = t) as D1.
          { intros i. unfold mset. destruct (Nat.eqb_spec i t) as [->|]; [tauto|]. tauto. }
          destruct (ANY ns _ _ _ (incl_refl ns) X1 D1 Ea) as [X3 [D3 [A3 B3]]].
          assert (b = false -> ~ avoids g l nonce ign t) as NA by (intros Eb; apply (blocked t ns NE EI En); apply B3; exact Eb).
          split; [|split; [apply IFF; assumption|]].
          + apply exact_set; [exact X3| |]; destruct b; cbn; auto; discriminate.
          + apply SS; [destruct b; discriminate|left; exact D3].
      Qed.

      Lemma checks_exact ts : forall m, exact m -> (forall i, m i <> Some Searching) -> (forall t, In t ts -> t < length g) ->
        Forall2 (fun t b => b = true <-> avoids g l nonce ign t) ts (checks g next nonce m (map (fun t => (ign, t)) ts)).
      Proof.
        induction ts as [|t ts IH]; intros m X0 NS LT; cbn [checks map]; [constructor|].
        pose proof (LT t (or_introl eq_refl)) as L1. destruct (check_total ign m t L1) as [m' [b E]]. rewrite E.
        assert (forall i, m i = Some Searching -> rank t < rank i) as SR by (intros i Ei; destruct (NS i Ei)).
        destruct (search_exact _ _ _ _ _ X0 L1 SR E) as [X1 [A D]]. constructor; [exact A|].
        apply IH; [exact X1|intros i; rewrite D; apply NS|intros t' I; apply LT; right; exact I].
      Qed.
    End Acyclic.
  End One.

  (** *** Instances *)
  Section Inst.
    Variable repr : nat -> term.
    Hypothesis RE : forall i, i < length g -> rep g (repr i) i.

    Inductive fits (ign : list nat) : list ((nat -> node -> list nat) * nat) -> list looks -> tables -> Prop :=
    | fits_nil : fits ign [] [] []
    | fits_cons next n l m cs ls ms : agrees next l -> children next -> proper_looks l -> sound l n ign m -> fits ign cs ls ms ->
        fits ign ((next, n) :: cs) (l :: ls) (m :: ms).
    Definition allowed (cs : list ((nat -> node -> list nat) * nat)) (ls : list looks) (ign : list nat) (s : nat) : Prop :=
      Forall2 (fun c l => avoids g l (snd c) ign s) cs ls.

    Lemma fits_mono ign ign' cs ls ms : incl ign ign' -> fits ign cs ls ms -> fits ign' cs ls ms.
    Proof. intros I. induction 1; constructor; auto. eapply sound_mono; eauto. Qed.

    Lemma conj_sound ign cs ls ms t : fits ign cs ls ms -> t < length g ->
      exists ms' b, conj g cs ign ms t = Some (ms', b) /\ fits ign cs ls ms' /\ (b = true -> allowed cs ls ign t).
    Proof.
      intros F LT. induction F as [|next n l m cs ls ms AG CH PL S0 F IH].
      - exists [], true. split; [reflexivity|]. split; [constructor|]. constructor.
      - cbn [conj]. destruct (check_total next CH n ign m t LT) as [m' [b E]]. rewrite E.
        destruct (search_sound next l AG CH PL n ign ign (incl_refl _) _ _ _ _ _ S0 LT E) as [S1 A]. destruct b.
        + destruct IH as [ms' [b [-> [F' A']]]]. exists (m' :: ms'), b. split; [reflexivity|]. split; [constructor; auto|].
          intros Eb. constructor; [apply A; reflexivity|apply A'; exact Eb].
        + exists (m' :: ms), false. split; [reflexivity|]. split; [constructor; auto|discriminate].
    Qed.

    Lemma siblings_sound c cs ls id : forall ids ms, fits [c] cs ls ms -> (forall s, In s ids -> s < length g) ->
      exists ms' b, siblings g cs c id ids ms = Some (ms', b) /\ fits [c] cs ls ms' /\
                    (b = true -> forall s, In s ids -> s <> id -> allowed cs ls [c] s).
    Proof.
      induction ids as [|s ids IH]; intros ms F LT; cbn [siblings].
      - exists ms, true. split; [reflexivity|]. split; [exact F|]. intros _ s [].
      - destruct (Nat.eqb_spec s id) as [->|NE].
        + destruct (IH ms F (fun s I => LT s (or_intror I))) as [ms' [b [-> [F' A]]]]. exists ms', b. split; [reflexivity|].
          split; [exact F'|]. intros Eb s [<-|I] N; [contradiction|auto].
        + destruct (conj_sound [c] cs ls ms s F (LT s (or_introl eq_refl))) as [ms1 [b1 [-> [F1 A1]]]]. destruct b1.
          * destruct (IH ms1 F1 (fun s I => LT s (or_intror I))) as [ms' [b [-> [F' A]]]]. exists ms', b. split; [reflexivity|].
            split; [exact F'|]. intros Eb s' [<-|I] N; auto.
          * exists ms1, false. split; [reflexivity|]. split; [exact F1|discriminate].
    Qed.

    Section Up.
      Variable cs : list ((nat -> node -> list nat) * nat).
      Variable ls : list looks.
      Variable c : nat.
      Variable e0 : term.
      Let P := allowed cs ls [c].
      Record inv (st : state) : Prop := mkInv {
        v_fits : fits [c] cs ls (tabs st);
        v_todo : forall id e, In (id, e) (todos st) -> swapped g c e0 P id e;
        v_nodup : NoDup (map fst (todos st) ++ done st);
        v_range : forall id, In id (map fst (todos st) ++ done st) -> id < length g }.

      Lemma push_inv st id e : inv st -> swapped g c e0 P id e -> id < length g ->
        inv (push st id e) /\ done (push st id e) = done st.
      Proof.
        intros V S0 LT. unfold push. destruct (existsb (Nat.eqb id) (done st)) eqn:E; [auto|]. split; [|reflexivity].
        set (q := fun x : nat * term => negb (Nat.eqb (fst x) id)).
        assert (forall j, In j (map fst (filter q (todos st))) -> In j (map fst (todos st)) /\ j <> id) as IN.
        { intros j I. apply in_map_iff in I as [[j' e'] [<- I]]. apply filter_In in I as [I Q]. split; [apply in_map; exact I|].
          cbn in Q. apply negb_true_iff in Q. apply Nat.eqb_neq in Q. exact Q. }
        assert (~ In id (done st)) as ND.
        { intros I. assert (existsb (Nat.eqb id) (done st) = true) as Z by (apply existsb_exists; exists id; split; [exact I|apply Nat.eqb_refl]). congruence. }
        constructor; cbn.
        - apply V.
        - intros j e' [X|I]; [injection X as <- <-; exact S0|]. apply filter_In in I as [I _]. apply (v_todo _ V). exact I.
        - constructor.
          + intros I. apply in_app_iff in I as [I|I]; [apply IN in I as [_ I]; congruence|contradiction].
          + pose proof (v_nodup _ V) as N. clear - N. induction (todos st) as [|x l IH]; [exact N|]. cbn in N. inversion N as [|? ? N1 N2]; subst.
            cbn. destruct (q x); cbn; [|auto]. constructor; [|auto]. intros I. apply N1. apply in_app_iff in I as [I|I]; apply in_app_iff; [left|auto].
            apply in_map_iff in I as [y [Ey I]]. apply filter_In in I as [I _]. rewrite <- Ey. apply in_map. exact I.
        - intros j [<-|I]; [exact LT|]. apply (v_range _ V). apply in_app_iff in I as [I|I]; apply in_app_iff; [left; apply IN; exact I|auto].
      Qed.

      Lemma search_up_inv id e : swapped g c e0 P id e -> forall ups, (forall np, In np ups -> above g id np) -> forall st, inv st ->
        exists st', search_up g repr cs c id e ups st = Some st' /\ inv st' /\ done st' = done st.
      Proof.
        intros S0. induction ups as [|[[f ids] p] ups IH]; intros AB st V; cbn [search_up]; [eauto|].
        destruct (AB _ (or_introl eq_refl)) as [ns [Hn [Hi Hd]]]. cbn [fst snd] in Hn, Hi, Hd |- *.
        assert (forall s, In s ids -> s < length g) as LT by (intros s I; eapply r_closed; eauto).
        destruct (siblings_sound c cs ls id ids (tabs st) (v_fits _ V) LT) as [ms [ok [-> [F A]]]].
        assert (inv (mkState (todos st) (done st) ms)) as V1 by (destruct V; constructor; assumption).
        assert (inv (if ok then push (mkState (todos st) (done st) ms) p (parent_term repr (f, ids) id e) else mkState (todos st) (done st) ms) /\
                done (if ok then push (mkState (todos st) (done st) ms) p (parent_term repr (f, ids) id e) else mkState (todos st) (done st) ms) = done st) as [V2 D2].
        { destruct ok; [|split; [exact V1|reflexivity]]. apply (push_inv (mkState (todos st) (done st) ms)); [exact V1| |apply nth_error_Some; congruence].
          unfold parent_term. cbn [fst snd]. apply (sw_up g c e0 P f ids ns p id e); auto.
          specialize (A eq_refl). clear - A LT RE. induction ids as [|s ids IHs]; [constructor|]. constructor.
          - destruct (Nat.eqb_spec s id) as [->|NE]; [left; auto|right]. split; [exact NE|]. split; [apply RE, LT; left; reflexivity|].
            apply A; [left; reflexivity|exact NE].
          - apply IHs; intros; [apply LT|apply A]; auto; right; assumption. }
        destruct (IH (fun np I => AB np (or_intror I)) _ V2) as [st' [E [V' D']]]. exists st'. split; [exact E|]. split; [exact V'|congruence].
      Qed.

      Lemma pop_inv td1 id e td2 dn ms : inv (mkState (td1 ++ (id, e) :: td2) dn ms) ->
        inv (mkState (td1 ++ td2) (id :: dn) ms) /\ swapped g c e0 P id e.
      Proof.
        intros V. split; [|apply (v_todo _ V); cbn; apply in_app_iff; right; left; reflexivity].
        assert (forall j, In j (map fst (td1 ++ td2) ++ id :: dn) <-> In j (map fst (td1 ++ (id, e) :: td2) ++ dn)) as EQ.
        { intros j. rewrite !map_app, !in_app_iff. cbn. tauto. }
        constructor; cbn.
        - apply (v_fits _ V).
        - intros j e' I. apply (v_todo _ V). cbn. apply in_app_iff in I as [I|I]; apply in_app_iff; [auto|right; right; exact I].
        - pose proof (v_nodup _ V) as N. cbn in N. rewrite map_app in *. cbn in N. rewrite <- app_assoc in *. cbn in N.
          apply NoDup_remove in N as [N1 N2]. apply NoDup_Add with (a := id) (l := map fst td1 ++ map fst td2 ++ dn).
          + rewrite !app_assoc. apply Add_app.
          + split; assumption.
        - intros j I. apply (v_range _ V). cbn. apply EQ. exact I.
      Qed.

      Lemma step_inv st o st' : inv st -> step g repr cs c st o st' ->
        inv st' /\ length (done st') = S (length (done st)) /\
        forall id e, o = Some (id, e) -> is_equiv g id = true /\ swapped g c e0 P id e.
      Proof.
        intros V H. destruct H as [td1 td2 id e dn ms EQ|td1 td2 id e dn ms ups st' EQ AB E]; destruct (pop_inv _ _ _ _ _ _ V) as [V1 S1].
        - split; [exact V1|]. split; [reflexivity|]. intros id' e' X. injection X as <- <-. auto.
        - destruct (search_up_inv id e S1 ups (fun np I => proj1 (AB np) I) _ V1) as [st2 [E2 [V2 D2]]]. rewrite E in E2. injection E2 as <-.
          split; [exact V2|]. split; [rewrite D2; reflexivity|discriminate].
      Qed.
      Lemma yields_swapped st r : yields g repr cs c st r -> inv st -> is_equiv g (fst r) = true /\ swapped g c e0 P (fst r) (snd r).
      Proof.
        induction 1 as [st [id e] st' H|st o st' r H Y IH]; intros V; destruct (step_inv _ _ _ V H) as [V' [_ O]]; [apply O; reflexivity|auto].
      Qed.
      Lemma done_bound st : inv st -> length (done st) <= length g.
      Proof.
        intros V. rewrite <- (seq_length (length g) 0). apply NoDup_incl_length.
        - pose proof (v_nodup _ V) as N. clear - N. induction (map fst (todos st)) as [|x l IH]; [exact N|]. inversion N; auto.
        - intros i I. apply in_seq. pose proof (v_range _ V i). rewrite in_app_iff in H. specialize (H (or_intror I)). lia.
      Qed.

      Lemma after_inv st0 n st : after g repr cs c st0 n st -> inv st0 -> inv st /\ length (done st) = n + length (done st0).
      Proof.
        induction 1 as [|st o st1 n st2 H A IH]; intros V; [auto|]. destruct (step_inv _ _ _ V H) as [V1 [L _]].
        destruct (IH V1) as [V2 L2]. split; [exact V2|]. lia.
      Qed.
      Lemma search_total_up st0 n st : inv st0 -> done st0 = [] -> after g repr cs c st0 n st ->
        n <= length g /\
        forall td1 id e td2 ups, todos st = td1 ++ (id, e) :: td2 -> (forall np, In np ups <-> above g id np) ->
          exists o st', step g repr cs c st o st' /\ (forall r, o = Some r -> r = (id, e)).
      Proof.
        intros V D A. destruct (after_inv _ _ _ A V) as [V1 L]. rewrite D in L. cbn in L. split; [pose proof (done_bound _ V1); lia|].
        intros td1 id e td2 ups E AB. destruct st as [td dn ms]. cbn in E. subst td.
        destruct (pop_inv _ _ _ _ _ _ V1) as [V2 S2]. destruct (is_equiv g id) eqn:EQ.
        - do 2 eexists. split; [apply (st_yield g repr cs c td1 td2 id e dn ms EQ)|]. intros r X. congruence.
        - destruct (search_up_inv id e S2 ups (fun np I => proj1 (AB np) I) _ V2) as [st' [E' _]].
          do 2 eexists. split; [apply (st_up g repr cs c td1 td2 id e dn ms ups st' EQ AB E')|]. discriminate.
      Qed.
    End Up.

    Lemma is_op_rep p i : has_op g p i = true -> exists f ts, p f = true /\ rep g (T f ts) i.
    Proof.
      unfold has_op. destruct (nth_error g i) as [ns|] eqn:E; [|discriminate]. intros H. apply existsb_exists in H as [[f ids] [I Pf]]. cbn in Pf.
      destruct (choose (fun c t => rep g t c) ids) as [ts F]; [intros c Ic; apply (r_term g W); eapply r_closed; eauto|].
      exists f, ts. split; [exact Pf|]. econstructor; eauto.
    Qed.
    Lemma nonce_rep i : is_nonce g i = true -> exists ts, rep g (T ONonce ts) i.
    Proof. intros H. destruct (is_op_rep _ _ H) as [[] [ts [X R]]]; try discriminate X. eauto. Qed.
    Lemma equiv_rep i : is_equiv g i = true -> exists ts, rep g (T OEquiv ts) i.
    Proof. intros H. destruct (is_op_rep _ _ H) as [[] [ts [X R]]]; try discriminate X. eauto. Qed.
    Lemma matches_rep i : matches g i -> im i < length g /\ ik i < length g /\ ir i < length g /\ ic i < length g /\
      rep g (T OEnc [repr (im i); repr (ir i); T OPk [repr (ik i)]]) (ic i).
    Proof.
      intros [ns [p [ns' [Hn [Hi [Hp Hk]]]]]].
      assert (im i < length g /\ ir i < length g /\ ik i < length g) as [L1 [L2 L3]].
      { split; [|split].
        - apply (r_closed g W _ _ _ _ _ Hn Hi). cbn. auto.
        - apply (r_closed g W _ _ _ _ _ Hn Hi). cbn. auto.
        - apply (r_closed g W _ _ _ _ _ Hp Hk). cbn. auto. }
      repeat (split; [assumption|]). split; [apply nth_error_Some; congruence|].
      econstructor; eauto. repeat constructor; auto. econstructor; eauto.
    Qed.

    Definition cca_looks : list looks := [looks_cca KeyBeforeEnc; looks_cca Randomness].
    Definition kp_looks : list looks := [looks_nonce; looks_key; looks_key].
    Lemma empty_sound l n ign : sound l n ign empty_memo.
    Proof. intros i E. discriminate E. Qed.

    Lemma cca_start_inv i st : matches g i -> cca_start g repr i = Some st ->
      ik i <> ir i /\ is_nonce g (ik i) = true /\ is_nonce g (ir i) = true /\
      avoids g (looks_cca KeyBeforeEnc) (ik i) [] (im i) /\ avoids g (looks_cca Randomness) (ir i) [] (im i) /\
      inv (cca_checks i) cca_looks (ic i) (T OEnc [T OZeroes [T OLength [repr (im i)]]; repr (ir i); T OPk [repr (ik i)]]) st /\ done st = [].
    Proof.
      intros M. unfold cca_start. destruct (matches_rep i M) as [L1 [L2 [L3 [L4 _]]]].
      destruct (Nat.eqb_spec (ik i) (ir i)) as [|NE]; [discriminate|].
      destruct (is_nonce g (ik i)) eqn:N1; [|discriminate]. destruct (is_nonce g (ir i)) eqn:N2; [|discriminate]. cbn [andb negb].
      assert (fits [] (cca_checks i) cca_looks [empty_memo; empty_memo]) as F0.
      { repeat (constructor; auto using agrees_cca, children_cca, proper_cca, empty_sound). }
      destruct (conj_sound [] _ _ _ (im i) F0 L1) as [ms [b [-> [F1 A]]]]. destruct b; [|discriminate]. intros X. injection X as <-.
      specialize (A eq_refl). inversion A as [|? ? ? ? A1 A']; subst. inversion A' as [|? ? ? ? A2 A'']; subst. cbn in A1, A2.
      repeat (split; [assumption || reflexivity|]). split; [|reflexivity]. constructor; cbn.
      - eapply fits_mono; [|exact F1]. intros x [].
      - intros id e [Y|[]]. injection Y as <- <-. constructor.
      - constructor; [intros []|constructor].
      - intros id [<-|[]]. exact L4.
    Qed.

    Lemma kp_start_inv i nk st : matches g i -> kp_start g repr i nk = Some st ->
      ik i <> ir i /\ ik i <> nk /\ is_nonce g (ik i) = true /\ is_nonce g (ir i) = true /\
      avoids g looks_key (ik i) [] (im i) /\ avoids g looks_key nk [] (im i) /\ avoids g looks_nonce (ir i) [] (im i) /\
      inv (kp_checks i nk) kp_looks (ic i) (T OEnc [repr (im i); repr (ir i); T OPk [repr nk]]) st /\ done st = [].
    Proof.
      intros M. unfold kp_start. destruct (matches_rep i M) as [L1 [L2 [L3 [L4 _]]]].
      destruct (Nat.eqb_spec (ik i) nk) as [|NK]; [discriminate|]. destruct (Nat.eqb_spec (ik i) (ir i)) as [|NE]; [discriminate|]. cbn [negb andb].
      destruct (is_nonce g (ik i)) eqn:N1; [|discriminate]. destruct (is_nonce g (ir i)) eqn:N2; [|discriminate]. cbn [andb].
      assert (fits [] (kp_start_checks i nk) [looks_key; looks_key; looks_nonce] [empty_memo; empty_memo; empty_memo]) as F0.
      { repeat (constructor; auto using agrees_key, children_key, proper_key, agrees_nonce, children_nonce, proper_nonce, empty_sound). }
      destruct (conj_sound [] _ _ _ (im i) F0 L1) as [ms [b [-> [F1 A]]]].
      inversion F1 as [|? ? ? ma ? ? ? G1 G2 G3 G4 F2]; subst. inversion F2 as [|? ? ? mb ? ? ? H1 H2 H3 H4 F3]; subst.
      inversion F3 as [|? ? ? mr ? ? ? I1 I2 I3 I4 F4]; subst. inversion F4; subst.
      destruct b; [|discriminate]. intros X. injection X as <-.
      specialize (A eq_refl). inversion A as [|? ? ? ? A1 A']; subst. inversion A' as [|? ? ? ? A2 A'']; subst.
      inversion A'' as [|? ? ? ? A3 A3']; subst. cbn in A1, A2, A3.
      repeat (split; [assumption || reflexivity|]). split; [|reflexivity]. constructor; cbn.
      - apply (fits_mono []); [intros x []|]. repeat (constructor; auto).
      - intros id e [Y|[]]. injection Y as <- <-. constructor.
      - constructor; [intros []|constructor].
      - intros id [<-|[]]. exact L4.
    Qed.
  End Inst.
End Fun.

(** An execution of a search, for examples. *)
Definition ups_of (g : graph) (id : nat) : list (node * nat) :=
  flat_map (fun p => map (fun n => (n, p)) (filter (fun n => existsb (Nat.eqb id) (snd n)) (nth p g []))) (seq 0 (length g)).
Fixpoint collect (g : graph) (repr : nat -> term) (cs : list ((nat -> node -> list nat) * nat)) (c : nat) (fuel : nat) (st : state) : list (nat * term) :=
  match fuel, todos st with
  | S fuel', (id, e) :: td =>
      let st' := mkState td (id :: done st) (tabs st) in
      if is_equiv g id then (id, e) :: collect g repr cs c fuel' st'
      else match search_up g repr cs c id e (ups_of g id) st' with Some st2 => collect g repr cs c fuel' st2 | None => [] end
  | _, _ => []
  end.
Lemma ups_above g id np : In np (ups_of g id) <-> above g id np.
Proof.
  unfold ups_of, above. destruct np as [n p]. rewrite in_flat_map. cbn [fst snd]. split.
  - intros [q [Q I]]. apply in_map_iff in I as [n' [X I]]. injection X as -> ->. apply filter_In in I as [I E].
    apply in_seq in Q. destruct (nth_error g p) as [ns|] eqn:En; [|apply nth_error_None in En; lia]. rewrite (nth_error_nth _ _ [] En) in I.
    exists ns. split; [reflexivity|]. split; [exact I|]. apply existsb_exists in E as [x [Ix Ex]]. apply Nat.eqb_eq in Ex as <-. exact Ix.
  - intros [ns [En [I Id]]]. exists p. split; [apply in_seq; split; [lia|]; apply nth_error_Some; rewrite En; discriminate|].
    apply in_map_iff. exists n. split; [reflexivity|]. apply filter_In. split; [rewrite (nth_error_nth _ _ [] En); exact I|]. apply existsb_exists. exists id. split; [exact Id|apply Nat.eqb_refl].
Qed.
Lemma collect_yields g repr cs c fuel : forall st r, In r (collect g repr cs c fuel st) -> yields g repr cs c st r.
Proof.
  induction fuel as [|fuel IH]; intros [td dn ms] r; cbn [collect todos]; [intros []|]. destruct td as [|[id e] td]; [intros []|]. cbn [done tabs].
  destruct (is_equiv g id) eqn:E.
  - intros [<-|I].
    + eapply y_now. apply (st_yield g repr cs c [] td id e dn ms E).
    + eapply y_later; [apply (st_yield g repr cs c [] td id e dn ms E)|]. apply IH. exact I.
  - destruct (search_up _ _ _ _ _ _ _ _) as [st2|] eqn:Es; [|intros []]. intros I. eapply y_later; [|apply IH; exact I].
    apply (st_up g repr cs c [] td id e dn ms (ups_of g id) st2 E); [apply ups_above|exact Es].
Qed.
