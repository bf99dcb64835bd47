(** Proofs about the utility containers. *)
From Coq Require Import List Arith Bool Lia Permutation.
From Verif Require Import Utils_Model Utils_Spec.
Import ListNotations.

(** ** Iterators *)
Section Deque.
  Context {S T : Type} (next back : S -> option (option T * S)) (hint : S -> nat).
  (** A simulation: [R s l] when state [s] holds [l]. *)
  Lemma is_deque_sim (R : S -> list T -> Prop) :
    (forall s l, R s l -> hint s = length l) ->
    (forall s x l, R s (x :: l) -> exists s', next s = Some (Some x, s') /\ R s' l) ->
    (forall s x l, R s (l ++ [x]) -> exists s', back s = Some (Some x, s') /\ R s' l) ->
    (forall s, R s [] -> (exists s', next s = Some (None, s') /\ R s' []) /\ (exists s', back s = Some (None, s') /\ R s' [])) ->
    forall s l, R s l -> is_deque next back hint s l.
  Proof.
    intros Hh Hn Hb He s l HR ops. revert s l HR. induction ops as [|o ops IH]; intros s l HR.
    - exists [], s, l. repeat split; auto. constructor.
    - destruct l as [|x l].
      + assert (exists s', (if o then back else next) s = Some (None, s') /\ R s' []) as (s' & E & HR').
        { destruct (He s HR) as [A B]. destruct o; auto. }
        destruct (IH s' [] HR') as (rs & s'' & l' & H1 & H2 & H3 & H4).
        exists (None :: rs), s'', l'. cbn. rewrite E, H1. repeat split; auto. constructor. exact H3.
      + destruct o.
        * destruct (exists_last (l := x :: l)) as (l0 & y & E0); [discriminate|]. rewrite E0 in *.
          destruct (Hb s y l0 HR) as (s' & E & HR').
          destruct (IH s' l0 HR') as (rs & s'' & l' & H1 & H2 & H3 & H4).
          exists (Some y :: rs), s'', l'. cbn. rewrite E, H1. repeat split; auto. constructor. exact H3.
        * destruct (Hn s x l HR) as (s' & E & HR').
          destruct (IH s' l HR') as (rs & s'' & l' & H1 & H2 & H3 & H4).
          exists (Some x :: rs), s'', l'. cbn. rewrite E, H1. repeat split; auto. constructor. exact H3.
  Qed.
End Deque.

Lemma slice_next_back_app {T} (l : list T) x : slice_next_back (l ++ [x]) = (Some x, l).
Proof. induction l as [|y l IH]; [reflexivity|]. cbn. rewrite IH. reflexivity. Qed.

(** The state [it] holds [l]. *)
Definition arc_holds {T} (it : arc_iter T) (l : list T) : Prop :=
  match it with
  | ArcEmpty => l = []
  | ArcIter data i e => i <= e /\ e <= length data /\ l = firstn (e - i) (skipn i data)
  end.

Lemma arc_holds_len {T} (it : arc_iter T) l : arc_holds it l -> arc_size_hint it = length l.
Proof.
  destruct it as [|data i e]; cbn; [intros ->; reflexivity|].
  intros (H1 & H2 & ->). rewrite firstn_length, skipn_length. lia.
Qed.

Lemma skipn_skipn {T} (l : list T) : forall a b, skipn a (skipn b l) = skipn (a + b) l.
Proof.
  induction l as [|x l IH]; intros a [|b]; rewrite ?skipn_nil, ?Nat.add_0_r; try reflexivity.
  rewrite Nat.add_succ_r. cbn. apply IH.
Qed.

Lemma skipn_nth {T} (l : list T) i x : nth_error l i = Some x -> skipn i l = x :: skipn (S i) l.
Proof.
  revert i. induction l as [|y l IH]; intros [|i] H; cbn in *; try discriminate.
  - injection H as ->. reflexivity.
  - rewrite (IH i H). reflexivity.
Qed.

Lemma nth_error_in_range {T} (l : list T) i : i < length l -> exists x, nth_error l i = Some x.
Proof.
  intros H. destruct (nth_error l i) eqn:E; eauto. apply nth_error_None in E. lia.
Qed.

Lemma arc_step {T} (it : arc_iter T) x l : arc_holds it (x :: l) ->
  exists it', arc_next it = Some (Some x, it') /\ arc_holds it' l.
Proof.
  destruct it as [|data i e]; cbn; [discriminate|]. intros (H1 & H2 & H).
  destruct (Nat.eqb_spec i e) as [->|Hne].
  { replace (e - e) with 0 in H by lia. discriminate. }
  cbn. destruct (nth_error_in_range data i) as (y & Ey); [lia|]. rewrite Ey.
  rewrite (skipn_nth _ _ _ Ey) in H. replace (e - i) with (S (e - (i + 1))) in H by lia. cbn [firstn] in H. injection H as -> ->.
  eexists. split; [reflexivity|]. cbn [arc_holds]. replace (i + 1) with (S i) by lia. repeat split; lia.
Qed.

Lemma arc_step_back {T} (it : arc_iter T) x l : arc_holds it (l ++ [x]) ->
  exists it', arc_next_back it = Some (Some x, it') /\ arc_holds it' l.
Proof.
  destruct it as [|data i e]; cbn; [intros H; destruct l; discriminate|]. intros (H1 & H2 & H).
  destruct (Nat.eqb_spec i e) as [->|Hne].
  { replace (e - e) with 0 in H by lia. destruct l; discriminate. }
  cbn. destruct e as [|e]; [lia|].
  destruct (nth_error_in_range data e) as (y & Ey); [lia|]. rewrite Ey.
  assert (H' : l ++ [x] = firstn (e - i) (skipn i data) ++ [y]).
  { rewrite H. rewrite <- (firstn_skipn (e - i) (firstn (S e - i) (skipn i data))).
    rewrite firstn_firstn, Nat.min_l by lia. f_equal.
    replace (S e - i) with (S (e - i)) by lia. rewrite skipn_firstn_comm.
    replace (S (e - i) - (e - i)) with 1 by lia. rewrite skipn_skipn. replace (e - i + i) with e by lia.
    rewrite (skipn_nth _ _ _ Ey). reflexivity. }
  apply app_inj_tail in H' as [-> ->]. eexists. split; [reflexivity|]. cbn. repeat split; lia.
Qed.

Lemma arc_end {T} (it : arc_iter T) : arc_holds it [] ->
  arc_next it = Some (None, ArcEmpty) /\ arc_next_back it = Some (None, ArcEmpty).
Proof.
  destruct it as [|data i e]; cbn; [auto|]. intros (H1 & H2 & H).
  assert (i = e) as ->.
  { apply (f_equal (@length T)) in H. rewrite firstn_length, skipn_length in H. cbn in H. lia. }
  rewrite Nat.eqb_refl. auto.
Qed.

Lemma arc_holds_deque {T} (it : arc_iter T) l : arc_holds it l -> is_deque arc_next arc_next_back arc_size_hint it l.
Proof.
  apply is_deque_sim.
  - intros; apply arc_holds_len; auto.
  - apply arc_step.
  - apply arc_step_back.
  - intros s H. destruct (arc_end s H) as [-> ->]. split; eexists; split; cbn; reflexivity.
Qed.

Lemma arc_from_holds {T} (data : list T) : arc_holds (arc_from data) data.
Proof. cbn. rewrite Nat.sub_0_r, firstn_all. repeat split; lia. Qed.

Lemma arc_from_ref_holds {T} (data : list T) : arc_holds (arc_from_ref data) data.
Proof.
  unfold arc_from_ref. destruct (Nat.eqb_spec (length data) 0) as [H|H].
  - destruct data; [reflexivity|discriminate].
  - apply arc_from_holds.
Qed.

(** [collect] at any point gives what is left. *)
Lemma arc_calls_holds {T} (it : arc_iter T) l : arc_holds it l -> forall ops rs it', calls arc_next arc_next_back ops it = Some (rs, it') ->
  arc_holds it' (arc_collect it') /\ deque l (combine ops rs) (arc_collect it').
Proof.
  intros H ops. revert it l H. induction ops as [|o ops IH]; intros it l H rs it' E; cbn in E.
  - injection E as <- <-. assert (arc_collect it = l) as ->.
    { destruct it; cbn in *; [auto|]. destruct H as (_ & _ & ->). reflexivity. }
    split; [exact H|constructor].
  - destruct l as [|x l].
    + destruct (arc_end it H) as [E1 E2]. replace ((if o then arc_next_back else arc_next) it) with (Some (@None T, @ArcEmpty T)) in E
        by (destruct o; auto).
      destruct (calls arc_next arc_next_back ops ArcEmpty) as [[rs0 s0]|] eqn:E0; [|discriminate]. injection E as <- <-.
      destruct (IH ArcEmpty [] eq_refl _ _ E0) as [A B]. split; [exact A|]. cbn. constructor. exact B.
    + destruct o.
      * destruct (exists_last (l := x :: l)) as (l0 & y & El); [discriminate|]. rewrite El in *.
        destruct (arc_step_back it y l0 H) as (it1 & E1 & H1). rewrite E1 in E.
        destruct (calls arc_next arc_next_back ops it1) as [[rs0 s0]|] eqn:E0; [|discriminate]. injection E as <- <-.
        destruct (IH it1 l0 H1 _ _ E0) as [A B]. split; [exact A|]. cbn. constructor. exact B.
      * destruct (arc_step it x l H) as (it1 & E1 & H1). rewrite E1 in E.
        destruct (calls arc_next arc_next_back ops it1) as [[rs0 s0]|] eqn:E0; [|discriminate]. injection E as <- <-.
        destruct (IH it1 l H1 _ _ E0) as [A B]. split; [exact A|]. cbn. constructor. exact B.
Qed.

Definition iv_holds {T} (it : iter_vecref T) (l : list T) : Prop :=
  match it with
  | IOwnedVec a => arc_holds a l
  | IVec l0 | IRef l0 => l = l0
  | ISingle x => l = [x]
  | IEmpty => l = []
  end.

Lemma iv_step {T} (it : iter_vecref T) x l : iv_holds it (x :: l) ->
  exists it', iv_next it = Some (Some x, it') /\ iv_holds it' l.
Proof.
  destruct it as [a|l0|l0|y|]; cbn; try (intros <-; cbn; eexists; split; reflexivity); try discriminate.
  - intros H. destruct (arc_step a x l H) as (a' & -> & H'). eexists. split; [reflexivity|exact H'].
  - intros H. injection H as -> ->. eexists. split; reflexivity.
Qed.

Lemma iv_step_back {T} (it : iter_vecref T) x l : iv_holds it (l ++ [x]) ->
  exists it', iv_next_back it = Some (Some x, it') /\ iv_holds it' l.
Proof.
  destruct it as [a|l0|l0|y|]; cbn.
  - intros H. destruct (arc_step_back a x l H) as (a' & -> & H'). eexists. split; [reflexivity|exact H'].
  - intros <-. rewrite slice_next_back_app. eexists. split; reflexivity.
  - intros <-. rewrite slice_next_back_app. eexists. split; reflexivity.
  - intros H. change [y] with ([] ++ [y]) in H. apply app_inj_tail in H as [-> ->]. eexists. split; reflexivity.
  - intros H. destruct l; discriminate.
Qed.

Lemma iv_end {T} (it : iter_vecref T) : iv_holds it [] ->
  (exists s', iv_next it = Some (None, s') /\ iv_holds s' []) /\
  (exists s', iv_next_back it = Some (None, s') /\ iv_holds s' []).
Proof.
  destruct it as [a|l0|l0|y|]; cbn; try discriminate.
  - intros H. destruct (arc_end a H) as [-> ->]. split; eexists; split; reflexivity.
  - intros <-. split; eexists; split; reflexivity.
  - intros <-. split; eexists; split; reflexivity.
  - intros _. split; eexists; split; reflexivity.
Qed.

Lemma iv_len {T} (it : iter_vecref T) l : iv_holds it l -> iv_size_hint it = length l.
Proof. destruct it; cbn; try (intros ->; reflexivity). apply arc_holds_len. Qed.

Lemma iv_deque {T} (it : iter_vecref T) l : iv_holds it l -> is_deque iv_next iv_next_back iv_size_hint it l.
Proof.
  apply is_deque_sim; [apply iv_len|apply iv_step|apply iv_step_back|]. intros s H. apply iv_end; auto.
Qed.

Lemma vr_iter_holds {T} (v : vecref T) : iv_holds (vr_iter v) (vr_elems v).
Proof. destruct v; reflexivity. Qed.
Lemma vr_into_iter_holds {T} (v : vecref T) : iv_holds (vr_into_iter v) (vr_elems v).
Proof. destruct v; try reflexivity. apply arc_from_holds. Qed.
Lemma vc_iter_holds {T} (v : vecref_clone T) : iv_holds (vc_iter v) (vc_elems v).
Proof. destruct v; try reflexivity. apply vr_iter_holds. Qed.

Definition ic_holds {T} (it : into_iter_clone T) (l : list T) : Prop :=
  match it with JVecRef a => iv_holds a l | JVec a => arc_holds a l | JOne x => l = [x] end.

Lemma vc_into_iter_holds {T} (v : vecref_clone T) : ic_holds (vc_into_iter v) (vc_elems v).
Proof. destruct v; try reflexivity; [apply vr_into_iter_holds|apply arc_from_holds]. Qed.

Lemma ic_deque {T} (it : into_iter_clone T) l : ic_holds it l -> is_deque ic_next ic_next_back ic_size_hint it l.
Proof.
  apply is_deque_sim.
  - intros [a|a|x] l0; cbn; [apply iv_len|apply arc_holds_len|intros ->; reflexivity].
  - intros [a|a|y] x l0; cbn.
    + intros H. destruct (iv_step a x l0 H) as (a' & -> & H'). eexists. split; [reflexivity|exact H'].
    + intros H. destruct (arc_step a x l0 H) as (a' & -> & H'). eexists. split; [reflexivity|exact H'].
    + intros H. injection H as -> ->. eexists. split; reflexivity.
  - intros [a|a|y] x l0; cbn.
    + intros H. destruct (iv_step_back a x l0 H) as (a' & -> & H'). eexists. split; [reflexivity|exact H'].
    + intros H. destruct (arc_step_back a x l0 H) as (a' & -> & H'). eexists. split; [reflexivity|exact H'].
    + intros H. change [y] with ([] ++ [y]) in H. apply app_inj_tail in H as [-> ->]. eexists. split; reflexivity.
  - intros [a|a|y]; cbn; [|intros H; destruct (arc_end a H) as [-> ->]; split; eexists; split; reflexivity|discriminate].
    intros H. destruct (iv_end a H) as [(s1 & -> & H1) (s2 & -> & H2)]. split; eexists; split; try reflexivity; assumption.
Qed.

(** ** C60, C61 *)
Lemma c60_iter {T} (v : vecref T) :
  is_deque iv_next iv_next_back iv_size_hint (vr_iter v) (vr_elems v) /\
  is_deque iv_next iv_next_back iv_size_hint (vr_into_iter v) (vr_elems v) /\
  (forall i, vr_get v i = nth_error (vr_elems v) i).
Proof.
  split; [apply iv_deque, vr_iter_holds|split; [apply iv_deque, vr_into_iter_holds|]].
  intros i. destruct v; cbn; try reflexivity; [destruct i as [|[|i]]; reflexivity|destruct i; reflexivity].
Qed.

Lemma c60_clone_iter {T} (v : vecref_clone T) :
  is_deque iv_next iv_next_back iv_size_hint (vc_iter v) (vc_elems v) /\
  is_deque ic_next ic_next_back ic_size_hint (vc_into_iter v) (vc_elems v) /\
  (forall i, vc_get v i = nth_error (vc_elems v) i).
Proof.
  split; [apply iv_deque, vc_iter_holds|split; [apply ic_deque, vc_into_iter_holds|]].
  intros i. destruct v; cbn; [apply c60_iter|reflexivity|destruct i as [|[|i]]; reflexivity].
Qed.

Lemma eqb_len_nil {T} (l : list T) : Nat.eqb (length l) 0 = true <-> l = [].
Proof. destruct l; cbn; split; congruence. Qed.

Lemma c60_len {T} (v : vecref T) : (forall x, v <> VSingle x) ->
  vr_len v = length (vr_elems v) /\ (vr_is_empty v = true <-> vr_elems v = []).
Proof.
  intros H. destruct v; try (split; [reflexivity|apply eqb_len_nil]).
  - exfalso. eapply H. reflexivity.
  - split; [reflexivity|split; reflexivity].
Qed.

Lemma c60_clone_len {T} (v : vecref_clone T) : (forall x, v <> CVecRef (VSingle x)) ->
  vc_len v = length (vc_elems v) /\ (vc_is_empty v = true <-> vc_elems v = []).
Proof.
  intros H. destruct v as [v|l|x]; cbn.
  - apply c60_len. intros x ->. eapply H. reflexivity.
  - split; [reflexivity|apply eqb_len_nil].
  - split; [reflexivity|split; discriminate].
Qed.

Lemma c61 {T} (data : list T) (it : arc_iter T) : (it = arc_from data \/ it = arc_from_ref data) ->
  is_deque arc_next arc_next_back arc_size_hint it data /\
  (forall ops rs it', calls arc_next arc_next_back ops it = Some (rs, it') -> deque data (combine ops rs) (arc_collect it')).
Proof.
  intros H. assert (Hh : arc_holds it data) by (destruct H as [->| ->]; [apply arc_from_holds|apply arc_from_ref_holds]).
  split; [apply arc_holds_deque; exact Hh|]. intros ops rs it' E. apply (arc_calls_holds it data Hh ops rs it' E).
Qed.

(** ** C62 *)
Lemma pc_fold_none fields : pc_fold None fields = None.
Proof. induction fields; cbn; auto. Qed.

Lemma pc_fold_decided c fields : c <> Eq -> Forall (fun f => f <> None) fields -> pc_fold (Some c) fields = Some c.
Proof.
  intros Hc H. induction H as [|[f|] l Hf _ IH]; [reflexivity| |congruence].
  cbn. destruct c; [congruence| |]; exact IH.
Qed.

Lemma partial_order_lex f1 fields : Forall (fun f => f <> None) (f1 :: fields) ->
  lexicographic (f1 :: fields) (partial_order f1 fields).
Proof.
  intros H. unfold partial_order. inversion H as [|? ? Hf Hr]; subst. destruct f1 as [c|]; [|congruence].
  clear H Hf. destruct c.
  - apply lex_eq. induction Hr as [|[c|] l Hf Hl IH]; [constructor| |congruence].
    cbn. destruct c.
    + apply lex_eq. exact IH.
    + rewrite pc_fold_decided by (auto; discriminate). apply lex_decide. discriminate.
    + rewrite pc_fold_decided by (auto; discriminate). apply lex_decide. discriminate.
  - rewrite pc_fold_decided by (auto; discriminate). apply lex_decide. discriminate.
  - rewrite pc_fold_decided by (auto; discriminate). apply lex_decide. discriminate.
Qed.

Lemma partial_order_none f1 fields : In None (f1 :: fields) -> partial_order f1 fields = None.
Proof.
  unfold partial_order. intros [->|H]; [apply pc_fold_none|]. revert f1.
  induction fields as [|f l IH]; intros f1; [destruct H|]. destruct H as [->|H].
  - destruct f1; cbn; apply pc_fold_none.
  - cbn. apply IH. exact H.
Qed.

Lemma lexicographic_fun l r r' : lexicographic l r -> lexicographic l r' -> r = r'.
Proof.
  intros H. revert r'. induction H as [|l r H IH|c l H]; intros r' H'; inversion H'; subst; auto; congruence.
Qed.

Lemma partial_order_not_lex : exists f1 fields r, lexicographic (f1 :: fields) r /\ partial_order f1 fields <> r.
Proof. exists (Some Lt), [None], (Some Lt). split; [apply lex_decide; discriminate|discriminate]. Qed.

Lemma inf_cmp_spec x y : match inf_cmp x y with
                         | Eq => x = y
                         | Lt => inf_le x y /\ x <> y
                         | Gt => inf_le y x /\ x <> y
                         end.
Proof.
  destruct x as [|a|], y as [|b|]; cbn; try (split; [constructor|discriminate]); try reflexivity.
  destruct (Nat.compare_spec a b); subst; [reflexivity| |].
  - split; [constructor; lia|]. intros E. injection E. lia.
  - split; [constructor; lia|]. intros E. injection E. lia.
Qed.

Lemma inf_le_refl x : inf_le x x.
Proof. destruct x; constructor; lia. Qed.
Lemma inf_le_trans x y z : inf_le x y -> inf_le y z -> inf_le x z.
Proof. intros H1 H2. destruct x, y, z; inversion H1; inversion H2; subst; try constructor; lia. Qed.
Lemma inf_le_antisym x y : inf_le x y -> inf_le y x -> x = y.
Proof. intros H1 H2. destruct x, y; inversion H1; inversion H2; subst; try reflexivity. f_equal. lia. Qed.
Lemma inf_le_total x y : inf_le x y \/ inf_le y x.
Proof.
  destruct x as [|a|], y as [|b|]; try (left; constructor; fail); try (right; constructor; fail).
  destruct (Nat.le_ge_cases a b); [left|right]; constructor; auto.
Qed.

Lemma inf_leb_iff x y : inf_leb x y = true <-> inf_le x y.
Proof.
  unfold inf_leb. pose proof (inf_cmp_spec x y) as H. destruct (inf_cmp x y).
  - subst. split; [intros _; apply inf_le_refl|reflexivity].
  - split; [intros _; apply H|reflexivity].
  - split; [discriminate|]. intros H'. exfalso. apply H. apply inf_le_antisym; tauto.
Qed.

Lemma c62_infinity :
  (forall x y, match inf_cmp x y with
               | Eq => x = y | Lt => inf_le x y /\ x <> y | Gt => inf_le y x /\ x <> y end) /\
  (forall x, inf_le x x) /\ (forall x y z, inf_le x y -> inf_le y z -> inf_le x z) /\
  (forall x y, inf_le x y -> inf_le y x -> x = y) /\ (forall x y, inf_le x y \/ inf_le y x) /\
  (forall lo hi x, range_contains lo hi x = true <-> inf_le lo x /\ inf_le x hi).
Proof.
  repeat (split; [first [exact inf_cmp_spec|exact inf_le_refl|exact inf_le_trans|exact inf_le_antisym|exact inf_le_total]|]).
  intros lo hi x. unfold range_contains. rewrite andb_true_iff, !inf_leb_iff. reflexivity.
Qed.

Lemma sort2_spec {A} (cmp : A -> A -> option comparison) (le : A -> A -> Prop) :
  (forall a b, cmp a b = Some Lt -> le a b) ->
  (forall a b, cmp a b <> Some Lt -> le b a) ->
  forall a b, let (x, y) := sort2 cmp a b in le x y /\ Permutation [a; b] [x; y].
Proof.
  intros H1 H2 a b. unfold sort2, sort_by. destruct (cmp a b) as [[| |]|] eqn:E; cbn;
    (split; [first [apply H1; exact E|apply H2; rewrite E; discriminate]|]); try apply Permutation_refl; apply perm_swap.
Qed.

(** ** C63 *)
Fixpoint bags_elems {U} (l : list (bag U)) : list U :=
  match l with [] => [] | b :: l' => bag_elems b ++ bags_elems l' end.

Lemma bag_elems_eq {U} (top : list U) lower : bag_elems (Bag top lower) = top ++ bags_elems lower.
Proof. cbn. f_equal. induction lower; cbn; congruence. Qed.

Fixpoint bag_size {U} (b : bag U) : nat :=
  match b with
  | Bag top lower => S (length top + (fix go l := match l with [] => 0 | b :: l' => bag_size b + go l' end) lower)
  end.
Fixpoint bags_size {U} (l : list (bag U)) : nat :=
  match l with [] => 0 | b :: l' => bag_size b + bags_size l' end.
Lemma bag_size_eq {U} (top : list U) lower : bag_size (Bag top lower) = S (length top + bags_size lower).
Proof. cbn. repeat f_equal. induction lower; cbn; congruence. Qed.

Lemma bags_size_app {U} (l l' : list (bag U)) : bags_size (l ++ l') = bags_size l + bags_size l'.
Proof. induction l; cbn; lia. Qed.
Lemma bags_size_rev {U} (l : list (bag U)) : bags_size (rev l) = bags_size l.
Proof. induction l; cbn; [reflexivity|]. rewrite bags_size_app. cbn. lia. Qed.
Lemma bags_elems_app {U} (l l' : list (bag U)) : bags_elems (l ++ l') = bags_elems l ++ bags_elems l'.
Proof. induction l; cbn; [reflexivity|]. rewrite IHl, app_assoc. reflexivity. Qed.
Lemma bags_elems_rev {U} (l : list (bag U)) : Permutation (bags_elems (rev l)) (bags_elems l).
Proof.
  induction l; cbn; [constructor|]. rewrite bags_elems_app. cbn. rewrite app_nil_r.
  rewrite Permutation_app_comm. apply Permutation_app_head. exact IHl.
Qed.

Lemma bag_next_spec {U} : forall fuel (current : list U) pile, length current + bags_size pile < fuel ->
  (exists x it', bag_next fuel (current, pile) = Some (Some x, it') /\
     length (fst it') + bags_size (snd it') < length current + bags_size pile /\
     Permutation (current ++ bags_elems pile) (x :: fst it' ++ bags_elems (snd it'))) \/
  (bag_next fuel (current, pile) = Some (None, ([], [])) /\ current ++ bags_elems pile = []).
Proof.
  induction fuel as [|fuel IH]; intros current pile Hf; [lia|].
  destruct current as [|x current]; [destruct pile as [|[top lower] pile]|].
  - right. split; reflexivity.
  - cbn [bag_next]. cbn [bags_size length] in Hf. rewrite bag_size_eq in Hf.
    destruct (IH top (rev lower ++ pile)) as [(x & it' & E & Hs & Hp)|[E Hn]].
    + rewrite bags_size_app, bags_size_rev. lia.
    + left. exists x, it'. split; [exact E|]. rewrite bags_size_app, bags_size_rev in Hs.
      cbn [length bags_size]. rewrite bag_size_eq. split; [lia|]. cbn [bags_elems List.app]. rewrite bag_elems_eq, <- Hp.
      rewrite bags_elems_app, <- app_assoc. apply Permutation_app_head. apply Permutation_app_tail.
      symmetry. apply bags_elems_rev.
    + right. split; [exact E|]. cbn [bags_elems List.app]. rewrite bag_elems_eq.
      rewrite bags_elems_app in Hn. apply app_eq_nil in Hn as [-> Hn]. apply app_eq_nil in Hn as [Hn ->].
      assert (bags_elems lower = []) as ->.
      { apply Permutation_nil. rewrite <- Hn. apply bags_elems_rev. }
      reflexivity.
  - left. exists x, (current, pile). split; [reflexivity|]. cbn. split; [lia|apply Permutation_refl].
Qed.

Lemma bag_collect_spec {U} : forall n (current : list U) pile, length current + bags_size pile < n ->
  exists out, (forall m, n <= m -> bag_collect m (current, pile) = Some out) /\
              Permutation out (current ++ bags_elems pile).
Proof.
  intros n. induction n as [|n IH]; intros current pile Hn; [lia|].
  destruct (bag_next_spec (S n) current pile Hn) as [(x & [c' p'] & E & Hs & Hp)|[E Hnil]].
  - cbn [fst snd] in *. destruct (IH c' p') as (out & Ho & Hperm); [lia|]. exists (x :: out). split.
    + intros [|m] Hm; [lia|]. cbn [bag_collect].
      assert (Em : bag_next (S m) (current, pile) = Some (Some x, (c', p'))).
      { revert E. clear - Hm. generalize (S n) (S m) Hm. clear. intros n m H. revert m H current pile.
        induction n as [|n IHn]; intros [|m] H current pile E; try discriminate; [lia|]. cbn in *.
        destruct current; [|exact E]. destruct pile as [|[t l] p]; [discriminate|]. apply IHn; [lia|exact E]. }
      rewrite Em, Ho by lia. reflexivity.
    + rewrite Hp. constructor. exact Hperm.
  - exists []. split; [|rewrite Hnil; constructor].
    intros [|m] Hm; [lia|]. cbn [bag_collect].
    assert (Em : bag_next (S m) (current, pile) = Some (None, ([], []))).
    { revert E. clear - Hm. generalize (S n) (S m) Hm. clear. intros n m H. revert m H current pile.
      induction n as [|n IHn]; intros [|m] H current pile E; try discriminate; [lia|]. cbn in *.
      destruct current; [|discriminate]. destruct pile as [|[t l] p]; [reflexivity|]. apply IHn; [lia|exact E]. }
    rewrite Em. reflexivity.
Qed.

Lemma c63 {U} (b : bag U) : exists n out,
  (forall m, n <= m -> bag_collect m (bag_start b) = Some out) /\ Permutation out (bag_elems b).
Proof.
  destruct b as [top lower]. cbn [bag_start].
  destruct (bag_collect_spec (S (length top + bags_size (rev lower))) top (rev lower)) as (out & H1 & H2); [lia|].
  eexists. exists out. split; [exact H1|]. rewrite H2, bag_elems_eq. apply Permutation_app_head, bags_elems_rev.
Qed.

Lemma bag_fused {U} : forall fuel (it it' : @bag_iter U), bag_next fuel it = Some (None, it') ->
  forall m, bag_next (S m) it' = Some (None, it').
Proof.
  induction fuel as [|fuel IH]; intros [c p] it' E m; [discriminate|]. cbn in E.
  destruct c as [|x c]; [|discriminate]. destruct p as [|[t l] p].
  - injection E as <-. reflexivity.
  - exact (IH _ _ E m).
Qed.

(** ** C59, C67 *)
Lemma mapO_Forall2 {A B} (f : A -> option B) l l' : mapO f l = Some l' <-> Forall2 (fun a b => f a = Some b) l l'.
Proof.
  split.
  - revert l'. induction l as [|a l IH]; intros l' H; cbn in H; [injection H as <-; constructor|].
    destruct (f a) eqn:E; [|discriminate]. destruct (mapO f l) eqn:E2; [|discriminate]. injection H as <-.
    constructor; auto.
  - intros H. induction H as [|a b l l' H _ IH]; [reflexivity|]. cbn. rewrite H, IH. reflexivity.
Qed.

Lemma mapO_total {A B} (f : A -> option B) l : (forall a, In a l -> exists b, f a = Some b) -> exists l', mapO f l = Some l'.
Proof.
  intros H. induction l as [|a l IH]; [exists []; reflexivity|].
  destruct (H a) as (b & E); [left; reflexivity|]. destruct IH as (l' & E'); [intros; apply H; right; auto|].
  exists (b :: l'). cbn. rewrite E, E'. reflexivity.
Qed.

Lemma F2_nth {A B} (P : A -> B -> Prop) l l' : Forall2 P l l' -> forall i a, nth_error l i = Some a ->
  exists b, nth_error l' i = Some b /\ P a b.
Proof.
  intros H. induction H as [|x y l l' Hp _ IH]; intros [|i] a E; cbn in *; try discriminate; eauto.
  injection E as <-. eauto.
Qed.

Lemma nth_seq n i : i < n -> nth_error (seq 0 n) i = Some i.
Proof.
  intros H. rewrite (nth_error_nth' _ 0) by (rewrite seq_length; lia). f_equal. apply seq_nth. lia.
Qed.

Lemma merge_all_covers {U} n (args : list (aoov U)) : Forall (covers n) args -> forall acc,
  (acc = Any tt \/ acc = All n) ->
  merge_all acc (map shape_of args) = Some (Any tt) /\ acc = Any tt /\ Forall (fun x => exists u, x = Any u) args \/
  merge_all acc (map shape_of args) = Some (All n).
Proof.
  intros H. induction H as [|x l Hx _ IH]; intros acc Hacc; cbn [map merge_all].
  - destruct Hacc as [->| ->]; [left; repeat split; constructor|right; reflexivity].
  - destruct x as [l0|u|i u]; cbn in Hx; [| |destruct Hx].
    + cbn [shape_of]. right. assert (try_merge acc (All (length l0)) = Some (All n)) as ->.
      { destruct Hacc as [->| ->]; cbn; rewrite Hx; [reflexivity|]. rewrite Nat.eqb_refl. reflexivity. }
      destruct (IH (All n) (or_intror eq_refl)) as [(_ & E & _)|E]; [discriminate|exact E].
    + destruct Hacc as [->| ->]; cbn.
      * destruct (IH (Any tt) (or_introl eq_refl)) as [(E & _ & F)|E]; [left|right; exact E].
        repeat split; auto. constructor; eauto.
      * right. destruct (IH (All n) (or_intror eq_refl)) as [(_ & E & _)|E]; [discriminate|exact E].
Qed.

Lemma covers_get {U} n (x : aoov U) i : covers n x -> i < n -> exists u, aget x i = Some u.
Proof.
  destruct x as [l|u|j u]; cbn; intros H Hi; [|eauto|destruct H].
  apply nth_error_in_range. lia.
Qed.

Lemma transpose_pointwise {U} n (args : list (aoov U)) : Forall (covers n) args -> exists r,
  transpose_iter args = Some r /\ covers n r /\
  forall i, i < n -> exists l, aget r i = Some l /\ Forall2 (fun x y => aget x i = Some y) args l.
Proof.
  intros H. unfold transpose_iter.
  destruct (merge_all_covers n args H (Any tt) (or_introl eq_refl)) as [(E & _ & F)|E]; rewrite E.
  - destruct (mapO_total (fun x : aoov U => owned_get x 0) args) as (l & El).
    { intros a Ha. rewrite Forall_forall in F. destruct (F a Ha) as (u & ->). cbn. eauto. }
    rewrite El. eexists. split; [reflexivity|]. split; [exact I|]. intros i Hi. exists l. split; [reflexivity|].
    apply mapO_Forall2 in El. clear - El F. revert F. induction El as [|a b l l' Hab _ IH]; intros F; [constructor|].
    inversion F as [|? ? (u & ->) F']; subst. constructor; auto.
  - destruct (mapO_total (fun i => mapO (fun x : aoov U => aget x i) args) (seq 0 n)) as (l & El).
    { intros i Hi. apply in_seq in Hi. apply mapO_total. intros a Ha. rewrite Forall_forall in H.
      apply (covers_get n); [auto|lia]. }
    rewrite El. eexists. split; [reflexivity|]. apply mapO_Forall2 in El. split.
    + cbn. rewrite <- (seq_length n 0). clear - El. induction El; cbn; lia.
    + intros i Hi. destruct (F2_nth _ _ _ El i i (nth_seq n i Hi)) as (li & H1 & H2). exists li. split; [exact H1|].
      apply mapO_Forall2. exact H2.
Qed.

Lemma merge_all_one {U} (args : list (aoov U)) : (exists i u, In (One i u) args) -> forall acc,
  (forall i, acc <> One i tt) -> merge_all acc (map shape_of args) = None.
Proof.
  intros (i & u & H). induction args as [|x l IH]; [destruct H|]. intros acc Hacc. cbn [map merge_all].
  destruct H as [->|H].
  - cbn. destruct acc as [|[]|j []]; [reflexivity|reflexivity|]. exfalso. eapply Hacc. reflexivity.
  - destruct (try_merge acc (shape_of x)) as [a|] eqn:E; [|reflexivity]. apply IH; [exact H|].
    intros j ->. destruct acc as [k|[]|k []]; [| |eapply Hacc; reflexivity]; destruct (shape_of x); cbn in E; try discriminate.
    destruct (Nat.eqb k l0); discriminate.
Qed.

Lemma transpose_one_panics {U} (args : list (aoov U)) : (exists i u, In (One i u) args) -> transpose_iter args = None.
Proof.
  intros H. unfold transpose_iter. rewrite (merge_all_one args H (Any tt)); [reflexivity|]. intros i E. discriminate.
Qed.

Lemma combine_seq_nth {A} (l : list A) : forall k i a, nth_error l i = Some a ->
  nth_error (combine (seq k (length l)) l) i = Some (k + i, a).
Proof.
  induction l as [|x l IH]; intros k [|i] a H; cbn in *; try discriminate.
  - injection H as ->. rewrite Nat.add_0_r. reflexivity.
  - rewrite (IH (S k) i a H), Nat.add_succ_r. reflexivity.
Qed.

Lemma F2_len {A B} (P : A -> B -> Prop) l l' : Forall2 P l l' -> length l = length l'.
Proof. intros H. induction H; cbn; lia. Qed.

Lemma bind_pointwise {U U2} n (x : aoov U) (f : U -> option (aoov U2)) :
  covers n x -> (forall u, exists r, f u = Some r /\ covers n r) -> exists r,
  abind x f = Some r /\ covers n r /\
  forall i u, i < n -> aget x i = Some u -> exists y, f u = Some y /\ aget r i = aget y i.
Proof.
  intros Hx Hf. destruct x as [l|u|j u]; cbn in Hx; [| |destruct Hx].
  - subst n. cbn.
    destruct (mapO_total (fun p : nat * U => match f (snd p) with None => None | Some y => owned_get y (fst p) end)
                (combine (seq 0 (length l)) l)) as (l' & El).
    { intros [i u] Hin. cbn. destruct (Hf u) as (r & -> & Hr). apply (covers_get (length l)); [exact Hr|].
      apply in_combine_l in Hin. apply in_seq in Hin. lia. }
    rewrite El. eexists. split; [reflexivity|]. apply mapO_Forall2 in El. split.
    + cbn. rewrite <- (F2_len _ _ _ El), combine_length, seq_length. lia.
    + intros i u Hi Hu. destruct (Hf u) as (y & Ey & _). exists y. split; [exact Ey|].
      destruct (F2_nth _ _ _ El i (0 + i, u) (combine_seq_nth l 0 i u Hu)) as (b & Hb & Hb'). cbn in Hb'. rewrite Ey in Hb'.
      cbn. rewrite Hb. symmetry. exact Hb'.
  - cbn. destruct (Hf u) as (r & Er & Hr). rewrite Er. exists r. split; [|split; [exact Hr|]].
    + destruct r; [reflexivity|reflexivity|destruct Hr].
    + intros i u' Hi E. injection E as <-. exists r. auto.
Qed.

Lemma bind_right {U} (x : aoov U) : abind x (fun u => Some (apure u)) = Some x.
Proof.
  destruct x as [l|u|i u]; [|reflexivity|reflexivity]. cbn.
  assert (mapO (fun p : nat * U => Some (snd p)) (combine (seq 0 (length l)) l) = Some l) as ->; [|reflexivity].
  generalize 0. induction l as [|a l IH]; intros k; [reflexivity|]. cbn. rewrite IH. reflexivity.
Qed.

Lemma bind_left {U U2} (u : U) (f : U -> option (aoov U2)) y : f u = Some y -> (forall i z, y <> One i z) ->
  abind (apure u) f = Some y.
Proof. intros E H. cbn. rewrite E. destruct y; auto. exfalso. eapply H. reflexivity. Qed.

Lemma abind_get {U U2} (x : aoov U) (f : U -> option (aoov U2)) r i : abind x f = Some r ->
  forall v, aget r i = Some v ->
  exists u y, aget x i = Some u /\ f u = Some y /\ aget y i = Some v.
Proof.
  intros E v Hv. destruct x as [l|u|j u]; cbn in E.
  - destruct (mapO _ _) as [l'|] eqn:El; [|discriminate]. injection E as <-. cbn in Hv. apply mapO_Forall2 in El.
    assert (Hi : i < length l).
    { assert (i < length l') by (apply nth_error_Some; congruence).
      apply F2_len in El. rewrite combine_length, seq_length in El. lia. }
    destruct (nth_error_in_range l i Hi) as (u & Hu). exists u.
    destruct (F2_nth _ _ _ El i (0 + i, u) (combine_seq_nth l 0 i u Hu)) as (b & Hb & Hb'). cbn in Hb'.
    destruct (f u) as [y|] eqn:Ef; [|discriminate]. exists y. rewrite Hv in Hb. injection Hb as <-. auto.
  - destruct (f u) as [y|] eqn:Ef; [|discriminate]. assert (y = r) as -> by (destruct y; congruence).
    exists u, r. auto.
  - destruct (f u) as [y|] eqn:Ef; [|discriminate]. destruct (owned_get y j) as [z|] eqn:Ez; [|discriminate]. injection E as <-.
    cbn in Hv. destruct (Nat.eqb_spec i j) as [->|]; [|discriminate]. injection Hv as <-.
    exists u, y. cbn. rewrite Nat.eqb_refl. auto.
Qed.

Lemma nth_error_ext {A} : forall (l l' : list A), length l = length l' -> (forall i, nth_error l i = nth_error l' i) -> l = l'.
Proof.
  intros l. induction l as [|a l IH]; intros [|b l'] HL H; cbn in HL; try discriminate; [reflexivity|].
  pose proof (H 0) as H0. injection H0 as ->. f_equal. apply IH; [lia|]. intros i. exact (H (S i)).
Qed.

Lemma abind_assoc {U V W} (x : aoov U) (f : U -> option (aoov V)) (g : V -> option (aoov W)) y z w :
  abind x f = Some y -> abind y g = Some z ->
  abind x (fun u => match f u with None => None | Some v => abind v g end) = Some w -> z = w.
Proof.
  intros E1 E2 E3. destruct x as [l|u|j u].
  - assert (exists ly, y = All ly /\ length ly = length l) as (ly & -> & L1).
    { cbn in E1. destruct (mapO _ _) as [l'|] eqn:El; [|discriminate]. injection E1 as <-. exists l'. split; [reflexivity|].
      apply mapO_Forall2, F2_len in El. rewrite combine_length, seq_length in El. lia. }
    assert (exists lz, z = All lz /\ length lz = length l) as (lz & -> & L2).
    { cbn in E2. destruct (mapO _ _) as [l'|] eqn:El; [|discriminate]. injection E2 as <-. exists l'. split; [reflexivity|].
      apply mapO_Forall2, F2_len in El. rewrite combine_length, seq_length in El. lia. }
    assert (exists lw, w = All lw /\ length lw = length l) as (lw & -> & L3).
    { cbn in E3. destruct (mapO _ _) as [l'|] eqn:El; [|discriminate]. injection E3 as <-. exists l'. split; [reflexivity|].
      apply mapO_Forall2, F2_len in El. rewrite combine_length, seq_length in El. lia. }
    f_equal. apply nth_error_ext; [lia|]. intros i.
    destruct (nth_error lz i) as [vz|] eqn:Hz, (nth_error lw i) as [vw|] eqn:Hw.
    + f_equal. destruct (abind_get _ _ _ i E2 vz Hz) as (u2 & y2 & A1 & A2 & A3).
      destruct (abind_get _ _ _ i E1 u2 A1) as (u1 & y1 & B1 & B2 & B3).
      destruct (abind_get _ _ _ i E3 vw Hw) as (u3 & y3 & C1 & C2 & C3).
      rewrite B1 in C1. injection C1 as <-. rewrite B2 in C2.
      destruct (abind_get _ _ _ i C2 vw C3) as (u4 & y4 & D1 & D2 & D3).
      rewrite B3 in D1. injection D1 as <-. congruence.
    + exfalso. apply nth_error_None in Hw. assert (i < length lz) by (apply nth_error_Some; congruence). lia.
    + exfalso. apply nth_error_None in Hz. assert (i < length lw) by (apply nth_error_Some; congruence). lia.
    + reflexivity.
  - cbn in E1, E3. destruct (f u) as [y'|]; [|discriminate].
    assert (y' = y) as -> by (destruct y'; congruence). rewrite E2 in E3. destruct z; congruence.
  - cbn in E1, E3. destruct (f u) as [y'|]; [|discriminate].
    destruct (owned_get y' j) as [v|] eqn:Ev; [|discriminate]. injection E1 as <-. cbn in E2.
    destruct (abind y' g) as [r|] eqn:Er; [|discriminate]. destruct (owned_get r j) as [q|] eqn:Eq; [|discriminate].
    injection E3 as <-. destruct (abind_get _ _ _ j Er q Eq) as (u4 & y4 & D1 & D2 & D3).
    unfold owned_get in Ev. rewrite Ev in D1. injection D1 as <-. rewrite D2 in E2. unfold owned_get in E2. rewrite D3 in E2.
    injection E2 as <-. reflexivity.
Qed.

Lemma bind_left_fails : exists (u : nat) (f : nat -> option (aoov nat)), abind (apure u) f <> f u.
Proof. exists 0, (fun u => Some (One 1 u)). discriminate. Qed.

(** ** C68 *)
Lemma collect_exact_spec {U} n (items arr : list U) :
  (collect_exact n items = inl arr <-> length items = n /\ arr = items) /\
  (collect_exact n items = inr TooMany <-> n < length items) /\
  (collect_exact n items = inr NotEnough <-> length items < n).
Proof.
  unfold collect_exact. rewrite firstn_length. destruct (Nat.eqb_spec (Nat.min n (length items)) n) as [H|H].
  - destruct (skipn n items) as [|x r] eqn:E.
    + assert (length items = n).
      { apply (f_equal (@length U)) in E. rewrite skipn_length in E. cbn in E. lia. }
      subst n. rewrite firstn_all. repeat split; try discriminate; try lia; try congruence.
      intros [_ ->]. reflexivity.
    + assert (n < length items).
      { apply (f_equal (@length U)) in E. rewrite skipn_length in E. cbn in E. lia. }
      repeat split; try discriminate; try lia.
  - repeat split; try discriminate; try lia.
Qed.

Lemma take_collect_ok {U E} n (us : list U) : take_collect (E:=E) n (map inl us) = (inl (firstn n us), map inl (skipn n us)).
Proof. revert us. induction n as [|n IH]; intros [|u us]; cbn; try reflexivity. rewrite IH. reflexivity. Qed.

Lemma oks_ok {U E} (us : list U) : oks (E:=E) (map inl us) = us.
Proof. unfold oks. induction us as [|u us IH]; cbn; [reflexivity|]. rewrite IH. reflexivity. Qed.

Lemma collect_exact_result_ok {U E} n (us : list U) :
  collect_exact_result (E:=E) n (map inl us) =
  match collect_exact n us with inl a => inl (inl a) | inr e => inr e end.
Proof.
  unfold collect_exact_result, collect_exact. rewrite take_collect_ok, oks_ok.
  destruct (Nat.eqb _ _); [|reflexivity]. destruct (skipn n us); reflexivity.
Qed.

Lemma oks_none {U E} (l : list (U + E)) : (forall u, ~ In (inl u) l) -> oks l = [].
Proof.
  intros H. unfold oks. induction l as [|[u|e] l IH]; cbn; [reflexivity|destruct (H u); left; reflexivity|]. apply IH. intros u Hu. apply (H u). right. exact Hu.
Qed.
Lemma oks_some {U E} (l : list (U + E)) : (exists u, In (inl u) l) -> exists u us, oks l = u :: us.
Proof.
  intros (u & H). unfold oks. induction l as [|[v|e] l IH]; cbn; [destruct H|eauto|]. destruct H as [H|H]; [discriminate H|]. exact (IH H).
Qed.
Lemma take_collect_enough {U E} (us : list U) (rest : list (U + E)) : take_collect (length us) (map inl us ++ rest) = (inl us, rest).
Proof. induction us as [|u us IH]; cbn; [reflexivity|]. rewrite IH. reflexivity. Qed.
Lemma take_collect_error {U E} (us : list U) e (rest : list (U + E)) : forall n, length us < n -> take_collect n (map inl us ++ inr e :: rest) = (inr e, rest).
Proof. induction us as [|u us IH]; intros [|n] H; cbn in *; try lia; [reflexivity|]. rewrite IH by lia. reflexivity. Qed.
Lemma collect_fallible {U E} n (us : list U) (rest : list (U + E)) :
    (length us = n -> (forall u, ~ In (inl u) rest) -> collect_exact_result n (map inl us ++ rest) = inl (inl us)) /\
    (length us = n -> (exists u, In (inl u) rest) -> collect_exact_result n (map inl us ++ rest) = inr TooMany) /\
    (forall e, length us < n -> (forall u, ~ In (inl u) rest) -> collect_exact_result n (map inl us ++ inr e :: rest) = inl (inr e)) /\
    (forall e, length us < n -> (exists u, In (inl u) rest) -> collect_exact_result n (map inl us ++ inr e :: rest) = inr TooMany).
Proof.
  unfold collect_exact_result. split; [|split; [|split]].
  - intros <- H. rewrite take_collect_enough, (oks_none _ H), Nat.eqb_refl. reflexivity.
  - intros <- H. rewrite take_collect_enough, Nat.eqb_refl. destruct (oks_some _ H) as (u & r & ->). reflexivity.
  - intros e L H. rewrite take_collect_error, (oks_none _ H) by exact L. reflexivity.
  - intros e L H. rewrite take_collect_error by exact L. destruct (oks_some _ H) as (u & r & ->). reflexivity.
Qed.

Lemma atranspose_spec {U} (x : aoov (option U)) :
    (forall r, atranspose x = Some r -> shape_of r = shape_of x /\ forall i, aget x i = option_map Some (aget r i)) /\
    (atranspose x = None <-> exists i, aget x i = Some None).
Proof.
  destruct x as [l|[a|]|i [a|]]; cbn.
  - assert (H : match mapO (fun o => o) l with Some l' => l = map Some l' | None => In None l end).
    { induction l as [|[a|] l IH]; cbn; [reflexivity| |left; reflexivity]. destruct (mapO (fun o => o) l) as [l'|]; [cbn; congruence|right; exact IH]. }
    destruct (mapO (fun o => o) l) as [l'|].
    + split.
      * intros r [= <-]. rewrite H. cbn. rewrite map_length. split; [reflexivity|]. intros i. clear. revert i. induction l' as [|a l IH]; intros [|i]; cbn; auto.
      * split; [discriminate|]. intros (i & Hi). apply nth_error_In in Hi. rewrite H in Hi. apply in_map_iff in Hi as (a & E & _). discriminate E.
    + split; [discriminate|]. split; [|reflexivity]. intros _. apply In_nth_error. exact H.
  - split; [intros r [= <-]; split; reflexivity|]. split; [discriminate|]. intros (i & H). discriminate H.
  - split; [discriminate|]. split; [intros _; exists 0; reflexivity|reflexivity].
  - split.
    + intros r [= <-]. split; [reflexivity|]. intros j. cbn. destruct (Nat.eqb j i); reflexivity.
    + split; [discriminate|]. intros (j & H). destruct (Nat.eqb j i); discriminate H.
  - split; [discriminate|]. split; [intros _; exists i; rewrite Nat.eqb_refl; reflexivity|reflexivity].
Qed.

Lemma collect_exact_result_bad :
  collect_exact_result 2 [inr 7; inl 1] = inr TooMany /\ collect_exact_result 1 [inl 1; inr 7] = inl (inl [1]).
Proof. split; reflexivity. Qed.

Lemma merge_all_sizes {U} (args : list (aoov U)) : forall acc r, merge_all acc (map shape_of args) = Some r ->
  (forall i, acc <> One i tt) ->
  exists n, (forall m, acc = All m -> m = n) /\ Forall (covers n) args.
Proof.
  induction args as [|x l IH]; intros acc r H Hacc.
  - destruct acc as [m|u|i u]; [exists m|exists 0|exists 0]; split; try constructor; congruence.
  - cbn [map merge_all] in H. destruct (try_merge acc (shape_of x)) as [a|] eqn:E; [|discriminate].
    destruct x as [lx|u|j u].
    + assert (a = All (length lx) /\ forall m, acc = All m -> m = length lx) as [-> Hm].
      { destruct acc as [m|u|i []]; cbn in E; [|injection E as <-; split; congruence|exfalso; eapply Hacc; reflexivity].
        destruct (Nat.eqb_spec m (length lx)) as [->|]; [|discriminate]. injection E as <-. split; congruence. }
      destruct (IH _ _ H) as (n & H1 & H2); [discriminate|]. exists n. specialize (H1 _ eq_refl). split.
      * intros m Em. rewrite (Hm m Em). exact H1.
      * constructor; auto.
    + assert (a = acc) as ->.
      { destruct acc as [m|[]|i []]; cbn in E; congruence. }
      destruct (IH _ _ H Hacc) as (n & H1 & H2). exists n. split; [exact H1|]. constructor; [exact I|exact H2].
    + exfalso. destruct acc as [m|[]|i []]; cbn in E; try discriminate. eapply Hacc; reflexivity.
Qed.

Lemma transpose_sizes {U} (args : list (aoov U)) r : transpose_iter args = Some r -> exists n, Forall (covers n) args.
Proof.
  unfold transpose_iter. destruct (merge_all (Any tt) (map shape_of args)) as [s|] eqn:E; [|discriminate]. intros _.
  destruct (merge_all_sizes args _ _ E) as (n & _ & H); [discriminate|]. exists n. exact H.
Qed.
