From Coq Require Import List Arith Bool Lia.
From Verif Require Import Syntax_Model Syntax_Proofs Traversal_Spec Semantics_Spec Semantics_Proofs
  Subst_Model Subst_Proofs Unify_Model Unify_Spec.
Import ListNotations.

Lemma maybe_get_In {T} (l : list (nat * T)) i t : maybe_get l i = Some t -> In (i, t) l.
Proof.
  induction l as [|[j u] l IH]; cbn; [discriminate|].
  destruct (Nat.eqb_spec j i) as [->|]; [intros [= ->]; auto|auto].
Qed.

Lemma maybe_get_None {T} (l : list (nat * T)) i : ~ In i (map fst l) -> maybe_get l i = None.
Proof.
  induction l as [|[j u] l IH]; cbn; [auto|]. intros H.
  destruct (Nat.eqb_spec j i) as [->|]; [exfalso; auto|auto].
Qed.

Lemma Forall2_length {A B} (R : A -> B -> Prop) l l' : Forall2 R l l' -> length l = length l'.
Proof. induction 1; cbn; congruence. Qed.

Definition is_fvar (t : formula) : bool := match t with FVar _ => true | _ => false end.

(** Line 164 never returns. *)
Lemma line164_diverges : forall n nl v lp rp,
    is_fvar nl = false -> maybe_get rp (vid v) = Some nl -> aux n nl (FVar v) (lp, rp) = None.
Proof.
  induction n as [|n IH]; intros nl v lp rp Hv Hg; [reflexivity|].
  cbn. rewrite Hg. destruct nl; [discriminate| |]; apply IH; auto.
Qed.

Definition entries (st : ustate) : list (nat * formula) := fst st ++ snd st.

Definition sub_st (st st' : ustate) : Prop :=
  (forall p, In p (fst st) -> In p (fst st')) /\ (forall p, In p (snd st) -> In p (snd st')).

Lemma sub_st_refl st : sub_st st st.
Proof. split; auto. Qed.
Lemma sub_st_trans a b c : sub_st a b -> sub_st b c -> sub_st a c.
Proof. intros [H1 H2] [H3 H4]; split; auto. Qed.
Lemma sub_st_entries a b : sub_st a b -> forall p, In p (entries a) -> In p (entries b).
Proof. intros [H1 H2] p. unfold entries. rewrite !in_app_iff. intros [?|?]; auto. Qed.

(** A relation preserved by the unifier: any congruence on terms that makes the entries true makes the two sides
    equal. Used for both structures and... see below. *)
Section Sound.
  Variable E : formula -> formula -> Prop.
  Hypothesis Erefl : forall t, E t t.
  Hypothesis Esym : forall a b, E a b -> E b a.
  Hypothesis Etrans : forall a b c, E a b -> E b c -> E a c.
  Hypothesis Evar : forall v w, vid v = vid w -> E (FVar v) (FVar w).
  Hypothesis Econg : forall f l r, Forall2 E l r -> E (FFun f l) (FFun f r).

  Definition sat (st : ustate) : Prop := forall i t v, In (i, t) (entries st) -> vid v = i -> E (FVar v) t.

  Lemma aux_sound : forall n l r st st',
      aux n l r st = Some (true, st') -> sub_st st st' /\ (sat st' -> E l r).
  Proof.
    induction n as [|n IH]; intros l r [lp rp] st' H; [discriminate|].
    assert (Hall : forall la ra s s', all_args (aux n) la ra s = Some (true, s') -> length la = length ra ->
                     sub_st s s' /\ (sat s' -> Forall2 E la ra)).
    { induction la as [|a la IHl]; intros [|b ra] s s' Ha Hlen; cbn in Ha, Hlen; try discriminate.
      - injection Ha as <-. split; [apply sub_st_refl|]. constructor.
      - destruct (aux n a b s) as [[[] s1]|] eqn:Ea; try discriminate.
        apply IH in Ea as [Hs1 He1]. apply IHl in Ha as [Hs2 He2]; [|congruence].
        split; [eapply sub_st_trans; eauto|]. intros Hsat. constructor; [|auto].
        apply He1. intros i t v Hin. apply Hsat. eapply sub_st_entries; eauto. }
    cbn in H. destruct l as [v|fl al|q vs b].
    - destruct (match r with FVar vr => var_eqb v vr | _ => false end) eqn:Ev.
      { injection H as <-. split; [apply sub_st_refl|]. intros _. destruct r; try discriminate.
        apply Evar, Nat.eqb_eq, Ev. }
      destruct (maybe_get lp (vid v)) as [nl|] eqn:Eg.
      + pose proof (maybe_get_In _ _ _ Eg) as Hin.
        assert (Hnl : forall st'', sub_st (lp, rp) st'' -> sat st'' -> E (FVar v) nl).
        { intros st'' Hs Hsat. apply (Hsat (vid v) nl v); [|reflexivity]. eapply sub_st_entries; [exact Hs|].
          unfold entries. rewrite in_app_iff. auto. }
        destruct nl as [v2|f2 a2|q2 vs2 b2].
        * destruct r as [v3|? ?|? ? ?]; try discriminate.
          destruct (var_eqb v2 v3) eqn:E23.
          { injection H as <-. split; [apply sub_st_refl|]. intros Hsat.
            eapply Etrans; [apply (Hnl _ (sub_st_refl _) Hsat)|]. apply Evar, Nat.eqb_eq, E23. }
          destruct (maybe_get rp (vid v3)) as [r'|] eqn:Er.
          -- injection H as Hsame <-. split; [apply sub_st_refl|]. intros Hsat.
             eapply Etrans; [apply (Hnl _ (sub_st_refl _) Hsat)|].
             destruct r' as [w|? ?|? ? ?]; try discriminate. cbn in Hsame.
             eapply Etrans; [apply Evar, Nat.eqb_eq, Hsame|]. apply Esym.
             apply (Hsat (vid v3) (FVar w) v3); [|reflexivity]. unfold entries; rewrite in_app_iff; right.
             apply maybe_get_In; exact Er.
          -- injection H as <-.
             assert (Hsub : sub_st (lp, rp) (lp, mv_add rp (vid v3) (FVar v2))).
             { split; cbn; auto. intros p Hp. unfold mv_add. rewrite in_app_iff; auto. }
             split; [exact Hsub|]. intros Hsat.
             eapply Etrans; [apply (Hnl _ Hsub Hsat)|]. apply Esym.
             apply (Hsat (vid v3) (FVar v2) v3); [|reflexivity].
             unfold entries, mv_add; cbn. rewrite !in_app_iff; cbn; auto.
        * apply IH in H as [Hs He]. split; [exact Hs|]. intros Hsat.
          eapply Etrans; [apply (Hnl _ Hs Hsat)|]. auto.
        * apply IH in H as [Hs He]. split; [exact Hs|]. intros Hsat.
          eapply Etrans; [apply (Hnl _ Hs Hsat)|]. auto.
      + injection H as <-. split.
        { split; cbn; auto. intros p Hp. unfold mv_add. rewrite in_app_iff; auto. }
        intros Hsat. apply (Hsat (vid v) r v); [|reflexivity].
        unfold entries, mv_add; cbn. rewrite !in_app_iff; cbn; auto.
    - destruct r as [v|fr ar|? ? ?]; try discriminate.
      + destruct (maybe_get rp (vid v)) as [nl|] eqn:Eg.
        * destruct nl as [?|? ?|? ? ?]; try discriminate;
            rewrite line164_diverges in H; auto; discriminate.
        * injection H as <-. split.
          { split; cbn; auto. intros p Hp. unfold mv_add. rewrite in_app_iff; auto. }
          intros Hsat. apply Esym. apply (Hsat (vid v) _ v); [|reflexivity].
          unfold entries, mv_add; cbn. rewrite !in_app_iff; cbn; auto.
      + destruct (fsym_eqb fl fr && Nat.eqb (length al) (length ar)) eqn:Ef; [|discriminate].
        apply andb_true_iff in Ef as [Ef El]. apply fsym_eqb_eq in Ef. apply Nat.eqb_eq in El. subst fr.
        apply Hall in H as [Hs He]; [|exact El]. split; [exact Hs|]. intros Hsat. apply Econg. auto.
    - destruct r as [v|fr ar|? ? ?]; try discriminate.
      destruct (maybe_get rp (vid v)) as [nl|] eqn:Eg.
      + destruct nl as [?|? ?|? ? ?]; try discriminate;
          rewrite line164_diverges in H; auto; discriminate.
      + injection H as <-. split.
        { split; cbn; auto. intros p Hp. unfold mv_add. rewrite in_app_iff; auto. }
        intros Hsat. apply Esym. apply (Hsat (vid v) _ v); [|reflexivity].
        unfold entries, mv_add; cbn. rewrite !in_app_iff; cbn; auto.
  Qed.
End Sound.

Lemma mgu_sound : forall fuel l r u, mgu fuel l r = Some (Some u) ->
    forall (M : structure) (rho : env M),
      (forall i t, In (i, t) (fst u ++ snd u) -> rho i = eval t rho) -> eval l rho = eval r rho.
Proof.
  intros fuel l r u H M rho Hsat. unfold mgu in H.
  destruct (aux fuel l r ([], [])) as [[[] st]|] eqn:Ea; try discriminate. injection H as <-.
  eapply (aux_sound (fun a b => eval (M:=M) a rho = eval b rho)) in Ea as [_ He]; try congruence.
  - apply He. intros i t v Hin <-. cbn. apply Hsat, Hin.
  - intros v w E; cbn; congruence.
  - intros f la ra Hf. cbn. f_equal. induction Hf; cbn; congruence.
Qed.

Lemma mgu_equalities_sound : forall fuel l r u get_sort eqs,
    mgu fuel l r = Some (Some u) -> as_equalities get_sort u = Some eqs ->
    forall (M : structure) (rho : env M), holds (ands eqs) rho -> eval (M:=M) l rho = eval r rho.
Proof.
  intros fuel l r [lp rp] get_sort eqs H He M rho Hh. eapply mgu_sound; eauto. cbn.
  intros i t Hin. unfold as_equalities in He.
  destruct (existsb _ _); [discriminate|]. apply mapM_Forall2 in He.
  apply holds_and_list in Hh.
  induction He as [|[j u] e l1 l2 Hp Hf IH]; [destruct Hin|].
  inversion Hh; subst. destruct Hin as [E|Hin]; [|auto]. injection E as -> ->.
  cbn in Hp. destruct (get_sort t); [|discriminate]. injection Hp as <-.
  apply holds_meq in H2. exact H2.
Qed.

(** ** Generality: a common instance satisfies the returned equations *)
Section GtermInd.
  Variable P : gterm -> Prop.
  Hypothesis HG : forall f l, Forall P l -> P (G f l).
  Fixpoint gterm_ind' (g : gterm) : P g :=
    match g with
    | G f l => HG f l ((fix go (l : list gterm) : Forall P l :=
                          match l with [] => Forall_nil P | a :: l' => Forall_cons a (gterm_ind' a) (go l') end) l)
    end.
End GtermInd.

Lemma inst_det s : forall t g g', inst s t g -> inst s t g' -> g = g'.
Proof.
  induction t as [v|f args IH|q vs b IH] using formula_ind'; intros g g' H H'; inversion H as [|? ? gs Hg E1 E2]; inversion H' as [|? ? gs' Hg' E3 E4]; subst; auto.
  f_equal. clear -IH Hg Hg'. revert gs' Hg'. induction Hg; intros gs' Hg'; inversion Hg'; subst; auto.
  inversion IH; subst. f_equal; eauto.
Qed.

Definition gsat (s : nat -> gterm) (st : ustate) : Prop := forall i t, In (i, t) (entries st) -> inst s t (s i).

Lemma aux_general s : forall n l r st st' g,
    aux n l r st = Some (true, st') -> inst s l g -> inst s r g -> gsat s st -> gsat s st'.
Proof.
  induction n as [|n IH]; intros l r [lp rp] st' g H Hl Hr Hs; [discriminate|].
  assert (Hadd_l : forall i t, inst s t (s i) -> gsat s (mv_add lp i t, rp)).
  { intros i t Ht j u Hin. unfold entries, mv_add in Hin; cbn in Hin.
    rewrite !in_app_iff in Hin. cbn in Hin. destruct Hin as [[Hin|[E|[]]]|Hin].
    - apply Hs. unfold entries; rewrite in_app_iff; auto.
    - injection E as <- <-. exact Ht.
    - apply Hs. unfold entries; rewrite in_app_iff; auto. }
  assert (Hadd_r : forall i t, inst s t (s i) -> gsat s (lp, mv_add rp i t)).
  { intros i t Ht j u Hin. unfold entries, mv_add in Hin; cbn in Hin.
    rewrite !in_app_iff in Hin. cbn in Hin. destruct Hin as [Hin|[Hin|[E|[]]]].
    - apply Hs. unfold entries; rewrite in_app_iff; auto.
    - apply Hs. unfold entries; rewrite in_app_iff; auto.
    - injection E as <- <-. exact Ht. }
  cbn in H. inversion Hl as [v E1 E2|fl al gl Hal E1 E2]; subst.
  - destruct (match r with FVar vr => var_eqb v vr | _ => false end) eqn:Ev.
    { injection H as <-; auto. }
    destruct (maybe_get lp (vid v)) as [nl|] eqn:Eg.
    + assert (Hnl : inst s nl (s (vid v))).
      { apply Hs. unfold entries; rewrite in_app_iff. left. apply maybe_get_In; auto. }
      destruct nl as [v2|f2 a2|q2 vs2 b2].
      * destruct r as [v3|? ?|? ? ?]; try discriminate.
        destruct (var_eqb v2 v3); [injection H as <-; auto|].
        destruct (maybe_get rp (vid v3)); [injection H as _ <-; auto|].
        injection H as <-. apply Hadd_r. inversion Hr as [w E1 E2|]; subst. rewrite E2. exact Hnl.
      * eapply IH; eauto.
      * inversion Hnl.
    + injection H as <-. apply Hadd_l. exact Hr.
  - destruct r as [v|fr ar|? ? ?]; [|inversion Hr as [|? ? gr Har]; subst|discriminate].
    + destruct (maybe_get rp (vid v)) as [nl|] eqn:Eg.
      * destruct nl as [?|? ?|? ? ?]; try discriminate; rewrite line164_diverges in H; auto; discriminate.
      * injection H as <-. apply Hadd_r. inversion Hr as [w E1 E2|]; subst. rewrite E2. constructor. auto.
    + match type of H with (if ?c then _ else _) = _ => destruct c; [|discriminate] end.
      clear Hadd_l Hadd_r Hl Hr. revert ar gl Hal Har H Hs. generalize (lp, rp) as st.
      induction al as [|a al IHl]; intros st [|b ar] gl Hal Har H Hs; cbn in H;
        try (injection H as <-; exact Hs).
      destruct (aux n a b st) as [[[] s1]|] eqn:Ea; try discriminate.
      inversion Hal; subst. inversion Har; subst.
      eapply IHl; [| |exact H|]; eauto.
Qed.

Lemma mgu_general : forall fuel l r u s g,
    mgu fuel l r = Some (Some u) -> inst s l g -> inst s r g ->
    forall i t, In (i, t) (fst u ++ snd u) -> inst s t (s i).
Proof.
  intros fuel l r u s g H Hl Hr. unfold mgu in H.
  destruct (aux fuel l r ([], [])) as [[[] st]|] eqn:Ea; try discriminate. injection H as <-.
  eapply aux_general in Ea; eauto. intros i t [].
Qed.

(** ** Linear terms with disjoint variables *)
Definition ids_of (t : formula) (i : nat) : Prop := exists v, occurs v t /\ vid v = i.
Definition ids_ofs (l : list formula) (i : nat) : Prop := exists a, In a l /\ ids_of a i.

Lemma linear_arg f args k a : linear (FFun f args) -> nth_error args k = Some a -> linear a.
Proof.
  intros H Hk p p' v v' Hp Hp' E.
  assert (k :: p = k :: p') as E'; [|congruence].
  eapply (H _ _ v v'); eauto; econstructor; eauto.
Qed.

Lemma linear_disjoint f args k k' a a' i :
  linear (FFun f args) -> nth_error args k = Some a -> nth_error args k' = Some a' ->
  ids_of a i -> ids_of a' i -> k = k'.
Proof.
  intros H Hk Hk' (v & (p & Hp) & E) (v' & (p' & Hp') & E').
  assert (k :: p = k' :: p') as E2; [|congruence].
  eapply (H _ _ v v'); try (econstructor; eauto). congruence.
Qed.

Lemma all_args_mono (a1 a2 : formula -> formula -> ustate -> option (bool * ustate)) :
  (forall l r s x, a1 l r s = Some x -> a2 l r s = Some x) ->
  forall l r s x, all_args a1 l r s = Some x -> all_args a2 l r s = Some x.
Proof.
  intros H. induction l as [|a l IH]; intros [|b r] s x; cbn; auto.
  destruct (a1 a b s) as [[[] s1]|] eqn:E; try discriminate; rewrite (H _ _ _ _ E); auto.
Qed.

Lemma aux_mono : forall n m l r s x, aux n l r s = Some x -> n <= m -> aux m l r s = Some x.
Proof.
  induction n as [|n IH]; intros m l r [lp rp] x H Hle; [discriminate|].
  destruct m as [|m]; [lia|].
  assert (IH' : forall l r s x, aux n l r s = Some x -> aux m l r s = Some x) by (intros; eapply IH; eauto; lia).
  clear IH. cbn in *. destruct l as [v|fl al|q vs b].
  - destruct (match r with FVar vr => var_eqb v vr | _ => false end); [exact H|].
    destruct (maybe_get lp (vid v)) as [[?|? ?|? ? ?]|]; auto.
  - destruct r as [v|fr ar|? ? ?]; auto.
    + destruct (maybe_get rp (vid v)) as [[?|? ?|? ? ?]|]; auto.
    + destruct (fsym_eqb fl fr && Nat.eqb (length al) (length ar)); [|exact H].
      eapply all_args_mono; [|exact H]. auto.
  - destruct r as [v|fr ar|? ? ?]; auto.
    destruct (maybe_get rp (vid v)) as [[?|? ?|? ? ?]|]; auto.
Qed.

Lemma linear_complete : forall l r lp rp,
    linear l -> linear r -> vars_apart l r ->
    (forall i, ids_of l i -> ~ In i (map fst lp)) ->
    (forall i, ids_of r i -> ~ In i (map fst rp)) ->
    exists n b lp' rp', aux n l r (lp, rp) = Some (b, (lp', rp')) /\
      (unifiable l r -> b = true) /\
      (forall i, In i (map fst lp') -> In i (map fst lp) \/ ids_of l i) /\
      (forall i, In i (map fst rp') -> In i (map fst rp) \/ ids_of r i).
Proof.
  induction l as [v|f args IH|q vs b IH] using formula_ind'; intros r lp rp Hl Hr Ha Hlp Hrp.
  - exists 1, true, (mv_add lp (vid v) r), rp. cbn.
    assert ((match r with FVar vr => var_eqb v vr | _ => false end) = false) as ->.
    { destruct r as [w|? ?|? ? ?]; auto. apply Nat.eqb_neq. apply Ha; apply occurs_var. }
    rewrite maybe_get_None by (apply Hlp; exists v; split; [apply occurs_var|reflexivity]).
    split; [reflexivity|split; [reflexivity|split; [|auto]]].
    intros i Hi. unfold mv_add in Hi. rewrite map_app, in_app_iff in Hi. destruct Hi as [?|[<-|[]]]; auto.
    right. exists v. split; [apply occurs_var|reflexivity].
  - destruct r as [v|fr ar|q' vs' b'].
    + exists 1, true, lp, (mv_add rp (vid v) (FFun f args)). cbn.
      rewrite maybe_get_None by (apply Hrp; exists v; split; [apply occurs_var|reflexivity]).
      split; [reflexivity|split; [reflexivity|split; [auto|]]].
      intros i Hi. unfold mv_add in Hi. rewrite map_app, in_app_iff in Hi. destruct Hi as [?|[<-|[]]]; auto.
      right. exists v. split; [apply occurs_var|reflexivity].
    + destruct (fsym_eqb f fr && Nat.eqb (length args) (length ar)) eqn:Ef.
      2:{ exists 1, false, lp, rp. cbn. rewrite Ef. split; [reflexivity|split; [|auto]].
          intros (s & g & H1 & H2). inversion H1 as [|? ? gs Hgs]; subst. inversion H2 as [|? ? gs' Hgs']; subst.
          exfalso. apply andb_false_iff in Ef as [Ef|Ef].
          - match type of Ef with fsym_eqb ?c ?c = _ => assert (fsym_eqb c c = true) by (apply fsym_eqb_eq; reflexivity); congruence end.
          - apply Nat.eqb_neq in Ef. apply Ef. apply Forall2_length in Hgs, Hgs'. congruence. }
      apply andb_true_iff in Ef as [Ef El]. apply fsym_eqb_eq in Ef. apply Nat.eqb_eq in El. subst fr.
      assert (Hgo : forall la ra, length la = length ra ->
        (forall a, In a la -> In a args) ->
        (exists pre, args = pre ++ la) -> (exists pre, ar = pre ++ ra) ->
        forall lp rp,
        (forall i, ids_ofs la i -> ~ In i (map fst lp)) ->
        (forall i, ids_ofs ra i -> ~ In i (map fst rp)) ->
        exists n b lp' rp', all_args (aux n) la ra (lp, rp) = Some (b, (lp', rp')) /\
          ((exists s gs, Forall2 (inst s) la gs /\ Forall2 (inst s) ra gs) -> b = true) /\
          (forall i, In i (map fst lp') -> In i (map fst lp) \/ ids_ofs la i) /\
          (forall i, In i (map fst rp') -> In i (map fst rp) \/ ids_ofs ra i)).
      { induction la as [|a la IHl]; intros [|c ra] Hlen Hsub (pl & Epl) (pr & Epr) lp' rp' Hlp' Hrp'; try discriminate.
        - exists 1, true, lp', rp'. cbn. auto.
        - assert (Hka : nth_error args (length pl) = Some a) by (rewrite Epl, nth_error_app2, Nat.sub_diag by lia; reflexivity).
          assert (Hkc : nth_error ar (length pr) = Some c) by (rewrite Epr, nth_error_app2, Nat.sub_diag by lia; reflexivity).
          rewrite Forall_forall in IH.
          destruct (IH a (nth_error_In _ _ Hka) c lp' rp') as (n1 & b1 & lp1 & rp1 & Haux & Hu1 & Hd1 & Hd1').
          { exact (linear_arg _ _ _ _ Hl Hka). }
          { exact (linear_arg _ _ _ _ Hr Hkc). }
          { intros v w Hv Hw. apply Ha; eapply occurs_fun; eauto; eapply nth_error_In; eauto. }
          { intros i Hi. apply Hlp'. exists a. split; [cbn; auto|auto]. }
          { intros i Hi. apply Hrp'. exists c. split; [cbn; auto|auto]. }
          destruct b1.
          + destruct (IHl ra) with (lp := lp1) (rp := rp1) as (n2 & b2 & lp2 & rp2 & Haux2 & Hu2 & Hd2 & Hd2').
            { cbn in Hlen; lia. }
            { intros x Hx; apply Hsub; cbn; auto. }
            { exists (pl ++ [a]). rewrite <- app_assoc. exact Epl. }
            { exists (pr ++ [c]). rewrite <- app_assoc. exact Epr. }
            { intros i (x & Hx & Hi) Hin. apply Hd1 in Hin as [Hin|Hin].
              - revert Hin. apply Hlp'. exists x. split; [cbn; auto|auto].
              - apply In_nth_error in Hx as (k & Hk).
                assert (length pl = length (pl ++ [a]) + k) as E; [|rewrite app_length in E; cbn in E; lia].
                eapply (linear_disjoint f args _ _ a x i); eauto.
                replace args with ((pl ++ [a]) ++ la) by (rewrite <- app_assoc; auto).
                rewrite nth_error_app2 by lia. rewrite <- Hk. f_equal. lia. }
            { intros i (x & Hx & Hi) Hin. apply Hd1' in Hin as [Hin|Hin].
              - revert Hin. apply Hrp'. exists x. split; [cbn; auto|auto].
              - apply In_nth_error in Hx as (k & Hk).
                assert (length pr = length (pr ++ [c]) + k) as E; [|rewrite app_length in E; cbn in E; lia].
                eapply (linear_disjoint f ar _ _ c x i); eauto.
                replace ar with ((pr ++ [c]) ++ ra) by (rewrite <- app_assoc; auto).
                rewrite nth_error_app2 by lia. rewrite <- Hk. f_equal. lia. }
            exists (n1 + n2), b2, lp2, rp2. cbn.
            rewrite (aux_mono n1 (n1 + n2) _ _ _ _ Haux) by lia.
            split; [|split; [|split]].
            * eapply all_args_mono; [|exact Haux2]. intros. eapply aux_mono; eauto. lia.
            * intros (s & gs & H1 & H2). inversion H1; subst; inversion H2; subst. apply Hu2. exists s, l'. auto.
            * intros i Hi. apply Hd2 in Hi as [Hi|(x & Hx & Hi)].
              -- apply Hd1 in Hi as [Hi|Hi]; [auto|right; exists a; split; [cbn; auto|auto]].
              -- right. exists x. split; [cbn; auto|auto].
            * intros i Hi. apply Hd2' in Hi as [Hi|(x & Hx & Hi)].
              -- apply Hd1' in Hi as [Hi|Hi]; [auto|right; exists c; split; [cbn; auto|auto]].
              -- right. exists x. split; [cbn; auto|auto].
          + exists n1, false, lp1, rp1. cbn. rewrite Haux. split; [reflexivity|split; [|split]].
            * intros (s & gs & H1 & H2). inversion H1; subst; inversion H2; subst. apply Hu1. exists s, y. auto.
            * intros i Hi. apply Hd1 in Hi as [Hi|Hi]; [auto|right; exists a; split; [cbn; auto|auto]].
            * intros i Hi. apply Hd1' in Hi as [Hi|Hi]; [auto|right; exists c; split; [cbn; auto|auto]]. }
      destruct (Hgo args ar El) with (lp := lp) (rp := rp) as (n & bb & lp' & rp' & H1 & H2 & H3 & H4); auto.
      { exists []; reflexivity. } { exists []; reflexivity. }
      { intros i (x & Hx & (v & Hv & E)). apply Hlp. exists v. split; [eapply occurs_fun; eauto|auto]. }
      { intros i (x & Hx & (v & Hv & E)). apply Hrp. exists v. split; [eapply occurs_fun; eauto|auto]. }
      exists (S n), bb, lp', rp'. cbn. rewrite El, Nat.eqb_refl.
      replace (fsym_eqb f f) with true by (symmetry; apply fsym_eqb_eq; reflexivity). cbn.
      split; [exact H1|split; [|split]].
      * intros (s & g & Hi1 & Hi2). inversion Hi1; subst; inversion Hi2; subst. apply H2. eauto.
      * intros i Hi. apply H3 in Hi as [?|(x & Hx & (v & Hv & E))]; auto. right. exists v. split; [eapply occurs_fun; eauto|auto].
      * intros i Hi. apply H4 in Hi as [?|(x & Hx & (v & Hv & E))]; auto. right. exists v. split; [eapply occurs_fun; eauto|auto].
    + exists 1, false, lp, rp. cbn. split; [reflexivity|split; [|auto]].
      intros (s & g & _ & H). inversion H.
  - destruct r as [v|fr ar|q' vs' b'].
    + exists 1, true, lp, (mv_add rp (vid v) (FQ q vs b)). cbn.
      rewrite maybe_get_None by (apply Hrp; exists v; split; [apply occurs_var|reflexivity]).
      split; [reflexivity|split; [reflexivity|split; [auto|]]].
      intros i Hi. unfold mv_add in Hi. rewrite map_app, in_app_iff in Hi. destruct Hi as [?|[<-|[]]]; auto.
      right. exists v. split; [apply occurs_var|reflexivity].
    + exists 1, false, lp, rp. cbn. split; [reflexivity|split; [|auto]]. intros (s & g & H & _). inversion H.
    + exists 1, false, lp, rp. cbn. split; [reflexivity|split; [|auto]]. intros (s & g & H & _). inversion H.
Qed.

Lemma mgu_linear l r : linear l -> linear r -> vars_apart l r ->
    exists n ans, (forall m, n <= m -> mgu m l r = Some ans) /\ (unifiable l r -> ans <> None).
Proof.
  intros Hl Hr Ha.
  destruct (linear_complete l r [] [] Hl Hr Ha) as (n & b & lp & rp & H & Hu & _ & _); auto.
  exists n, (if b then Some (lp, rp) else None). split.
  - intros m Hm. unfold mgu. rewrite (aux_mono n m _ _ _ _ H Hm). destruct b; reflexivity.
  - intros HU. rewrite (Hu HU). discriminate.
Qed.

(** ** Matching against a term without variables *)
Lemma no_vars_arg f args a : no_vars (FFun f args) -> In a args -> no_vars a.
Proof. intros H Ha v Hv. apply (H v). eapply occurs_fun; eauto. Qed.

Lemma ground_aux : forall r l st, no_vars l -> no_vars r ->
    exists n b, aux n l r st = Some (b, st) /\ ((exists s g, inst s l g /\ inst s r g) -> b = true).
Proof.
  induction r as [v|f args IH|q vs b IH] using formula_ind'; intros l [lp rp] Hl Hr.
  - exfalso. apply (Hr v), occurs_var.
  - destruct l as [v|fl al|q vs b].
    + exfalso. apply (Hl v), occurs_var.
    + destruct (fsym_eqb fl f && Nat.eqb (length al) (length args)) eqn:Ef.
      2:{ exists 1, false. cbn. rewrite Ef. split; [reflexivity|].
          intros (s & g & H1 & H2). inversion H1 as [|? ? gs Hgs]; subst. inversion H2 as [|? ? gs' Hgs']; subst.
          exfalso. apply andb_false_iff in Ef as [Ef|Ef].
          - match type of Ef with fsym_eqb ?c ?c = _ => assert (fsym_eqb c c = true) by (apply fsym_eqb_eq; reflexivity); congruence end.
          - apply Nat.eqb_neq in Ef. apply Ef. apply Forall2_length in Hgs, Hgs'. congruence. }
      assert (Hgo : forall ra la, Forall (fun r => forall l st, no_vars l -> no_vars r ->
           exists n b, aux n l r st = Some (b, st) /\ ((exists s g, inst s l g /\ inst s r g) -> b = true)) ra ->
         Forall no_vars la -> Forall no_vars ra ->
         exists n b, all_args (aux n) la ra (lp, rp) = Some (b, (lp, rp)) /\
           ((exists s gs, Forall2 (inst s) la gs /\ Forall2 (inst s) ra gs) -> b = true)).
      { induction ra as [|c ra IHr]; intros [|a la] HI Hla Hra; try (exists 1, true; cbn; auto; fail).
        inversion HI; inversion Hla; inversion Hra; subst.
        destruct (H1 a (lp, rp)) as (n1 & b1 & Ha1 & Hu1); auto.
        destruct b1.
        - destruct (IHr la) as (n2 & b2 & Ha2 & Hu2); auto.
          exists (n1 + n2), b2. cbn. rewrite (aux_mono n1 (n1 + n2) _ _ _ _ Ha1) by lia. split.
          + eapply all_args_mono; [|exact Ha2]. intros; eapply aux_mono; eauto; lia.
          + intros (s & gs & Hi1 & Hi2). inversion Hi1; subst; inversion Hi2; subst. apply Hu2. eauto.
        - exists n1, false. cbn. rewrite Ha1. split; [reflexivity|].
          intros (s & gs & Hi1 & Hi2). inversion Hi1; subst; inversion Hi2; subst. apply Hu1. eauto. }
      destruct (Hgo args al) as (n & b & H1 & H2); auto.
      { apply Forall_forall. intros a Ha. exact (no_vars_arg _ _ _ Hl Ha). }
      { apply Forall_forall. intros a Ha. exact (no_vars_arg _ _ _ Hr Ha). }
      exists (S n), b. cbn. rewrite Ef. split; [exact H1|].
      intros (s & g & Hi1 & Hi2). inversion Hi1; subst; inversion Hi2; subst. apply H2. eauto.
    + exists 1, false. cbn. split; [reflexivity|]. intros (s & g & H & _). inversion H.
  - destruct l as [v|fl al|q' vs' b'].
    + exfalso. apply (Hl v), occurs_var.
    + exists 1, false. cbn. split; [reflexivity|]. intros (s & g & _ & H). inversion H.
    + exists 1, false. cbn. split; [reflexivity|]. intros (s & g & _ & H). inversion H.
Qed.

Lemma ground_right : forall l r lp rp, no_vars r -> Forall (fun p => no_vars (snd p)) lp ->
    exists n b lp', aux n l r (lp, rp) = Some (b, (lp', rp)) /\
      Forall (fun p => no_vars (snd p)) lp' /\
      (forall s g, inst s l g -> inst s r g -> (forall i t, In (i, t) lp -> inst s t (s i)) ->
         b = true /\ (forall i t, In (i, t) lp' -> inst s t (s i))).
Proof.
  induction l as [v|f args IH|q vs b IH] using formula_ind'; intros r lp rp Hr Hlp.
  - assert (Hnv : (match r with FVar vr => var_eqb v vr | _ => false end) = false).
    { destruct r as [w|? ?|? ? ?]; auto. exfalso. apply (Hr w), occurs_var. }
    destruct (maybe_get lp (vid v)) as [nl|] eqn:Eg.
    + pose proof (maybe_get_In _ _ _ Eg) as Hin.
      assert (Hnl : no_vars nl) by (rewrite Forall_forall in Hlp; apply (Hlp _ Hin)).
      destruct (ground_aux r nl (lp, rp) Hnl Hr) as (n & b & Ha & Hu).
      exists (S n), b, lp. split; [|split; [auto|]].
      * cbn. rewrite Hnv, Eg. destruct nl as [w|? ?|? ? ?]; [|exact Ha|exact Ha].
        exfalso. apply (Hnl w), occurs_var.
      * intros s g H1 H2 H3. split; [|auto]. apply Hu. exists s, (s (vid v)).
        split; [apply H3; auto|]. inversion H1; subst; auto.
    + exists 1, true, (mv_add lp (vid v) r). cbn. rewrite Hnv, Eg. split; [reflexivity|split].
      * unfold mv_add. apply Forall_app. split; auto.
      * intros s g H1 H2 H3. split; [reflexivity|]. intros i t Hin. unfold mv_add in Hin.
        apply in_app_iff in Hin as [Hin|[E|[]]]; [auto|]. injection E as <- <-. inversion H1; subst; auto.
  - destruct r as [v|fr ar|q' vs' b'].
    + exfalso. apply (Hr v), occurs_var.
    + destruct (fsym_eqb f fr && Nat.eqb (length args) (length ar)) eqn:Ef.
      2:{ exists 1, false, lp. cbn. rewrite Ef. split; [reflexivity|split; [auto|]].
          intros s g H1 H2. inversion H1 as [|? ? gs Hgs]; subst. inversion H2 as [|? ? gs' Hgs']; subst.
          exfalso. apply andb_false_iff in Ef as [Ef|Ef].
          - match type of Ef with fsym_eqb ?c ?c = _ => assert (fsym_eqb c c = true) by (apply fsym_eqb_eq; reflexivity); congruence end.
          - apply Nat.eqb_neq in Ef. apply Ef. apply Forall2_length in Hgs, Hgs'. congruence. }
      assert (Hra : Forall no_vars ar) by (apply Forall_forall; intros a Ha; exact (no_vars_arg _ _ _ Hr Ha)).
      assert (Hgo : forall ra, Forall no_vars ra -> forall lp, Forall (fun p => no_vars (snd p)) lp ->
         exists n b lp', all_args (aux n) args ra (lp, rp) = Some (b, (lp', rp)) /\
           Forall (fun p => no_vars (snd p)) lp' /\
           (forall s gs, Forall2 (inst s) args gs -> Forall2 (inst s) ra gs ->
              (forall i t, In (i, t) lp -> inst s t (s i)) ->
              b = true /\ (forall i t, In (i, t) lp' -> inst s t (s i)))).
      { clear Ef Hra Hlp Hr. induction IH as [|a la Ha _ IHl]; intros [|c ra] Hra lp1 Hlp1;
          try (exists 1, true, lp1; cbn; split; [reflexivity|split; auto]; fail).
        inversion Hra; subst.
        destruct (Ha c lp1 rp) as (n1 & b1 & lp2 & Ha1 & Hg1 & Hu1); auto.
        destruct b1.
        - destruct (IHl ra H2 lp2 Hg1) as (n2 & b2 & lp3 & Ha2 & Hg2 & Hu2).
          exists (n1 + n2), b2, lp3. cbn. rewrite (aux_mono n1 (n1 + n2) _ _ _ _ Ha1) by lia. split; [|split; [auto|]].
          + eapply all_args_mono; [|exact Ha2]. intros; eapply aux_mono; eauto; lia.
          + intros s gs Hi1 Hi2 Hl. inversion Hi1; subst; inversion Hi2; subst.
            destruct (Hu1 s y) as [_ Hl2]; auto. eapply Hu2; eauto.
        - exists n1, false, lp2. cbn. rewrite Ha1. split; [reflexivity|split; [auto|]].
          intros s gs Hi1 Hi2 Hl. inversion Hi1; subst; inversion Hi2; subst. eapply Hu1; eauto. }
      destruct (Hgo ar Hra lp Hlp) as (n & b & lp' & H1 & H2 & H3).
      exists (S n), b, lp'. cbn. rewrite Ef. split; [exact H1|split; [auto|]].
      intros s g Hi1 Hi2 Hl. inversion Hi1; subst; inversion Hi2; subst. eapply H3; eauto.
    + exists 1, false, lp. cbn. split; [reflexivity|split; [auto|]]. intros s g _ H. inversion H.
  - destruct r as [v|fr ar|q' vs' b'].
    + exfalso. apply (Hr v), occurs_var.
    + exists 1, false, lp. cbn. split; [reflexivity|split; [auto|]]. intros s g H. inversion H.
    + exists 1, false, lp. cbn. split; [reflexivity|split; [auto|]]. intros s g H. inversion H.
Qed.

Lemma mgu_ground_right l r : no_vars r ->
    exists n ans, (forall m, n <= m -> mgu m l r = Some ans) /\ (unifiable l r -> ans <> None).
Proof.
  intros Hr. destruct (ground_right l r [] [] Hr (Forall_nil _)) as (n & b & lp & H & _ & Hu).
  exists n, (if b then Some (lp, []) else None). split.
  - intros m Hm. unfold mgu. rewrite (aux_mono n m _ _ _ _ H Hm). destruct b; reflexivity.
  - intros (s & g & H1 & H2). destruct (Hu s g H1 H2) as [-> _]; [intros i t []|discriminate].
Qed.

(** ** Counterexamples *)
Definition cst (i : nat) : formula := FFun (Fuser i) [].
Definition mv (i : nat) : formula := FVar (mkVar i SMessage).
Definition f2 (a b : formula) : formula := FFun (Fuser 10) [a; b].

(** f(a, a) against f(x, x). *)
Lemma mgu_diverges fuel : mgu fuel (f2 (cst 0) (cst 0)) (f2 (mv 1) (mv 1)) = None.
Proof.
  unfold mgu. destruct fuel as [|n]; [reflexivity|].
  destruct n as [|n]; [reflexivity|].
  cbn -[aux].
  change (aux (S (S n)) (f2 (cst 0) (cst 0)) (f2 (mv 1) (mv 1)) ([], [])) with
    (all_args (aux (S n)) [cst 0; cst 0] [mv 1; mv 1] ([], [])).
  cbn [all_args].
  change (aux (S n) (cst 0) (mv 1) ([], [])) with (Some (true, (@nil (nat * formula), [(1, cst 0)]))).
  cbv iota beta. unfold mv.
  rewrite (line164_diverges (S n) (cst 0) (mkVar 1 SMessage) [] [(1, cst 0)]); reflexivity.
Qed.

Lemma diverging_pair_unifiable : unifiable (f2 (cst 0) (cst 0)) (f2 (mv 1) (mv 1)).
Proof.
  exists (fun _ => G (Fuser 0) []), (G (Fuser 10) [G (Fuser 0) []; G (Fuser 0) []]).
  split; constructor; repeat constructor.
Qed.

(** f(x, x) against f(y, g(z)). *)
Definition missed_l : formula := f2 (mv 1) (mv 1).
Definition missed_r : formula := f2 (mv 2) (FFun (Fuser 11) [mv 3]).

Lemma missed_unifiable : unifiable missed_l missed_r.
Proof.
  set (g := G (Fuser 11) [G (Fuser 0) []]).
  exists (fun i => if Nat.eqb i 3 then G (Fuser 0) [] else g), (G (Fuser 10) [g; g]).
  assert (Hv : forall i, inst (fun i => if Nat.eqb i 3 then G (Fuser 0) [] else g) (mv i)
                           (if Nat.eqb i 3 then G (Fuser 0) [] else g)) by (intros i; exact (inst_var (fun i => if Nat.eqb i 3 then G (Fuser 0) [] else g) (mkVar i SMessage))).
  split; apply inst_fun; apply Forall2_cons.
  - apply (Hv 1).
  - apply Forall2_cons; [apply (Hv 1)|apply Forall2_nil].
  - apply (Hv 2).
  - apply Forall2_cons; [|apply Forall2_nil]. apply inst_fun. apply Forall2_cons; [apply (Hv 3)|apply Forall2_nil].
Qed.

Lemma missed_none : forall fuel, 3 <= fuel -> mgu fuel missed_l missed_r = Some None.
Proof. intros fuel H. do 3 (destruct fuel as [|fuel]; [lia|]). reflexivity. Qed.

Lemma apart_check l r :
  (forall v, occurs v l -> vid v <= 1) -> (forall v, occurs v r -> 1 < vid v) -> vars_apart l r.
Proof. intros H1 H2 v w Hv Hw. specialize (H1 v Hv). specialize (H2 w Hw). lia. Qed.
