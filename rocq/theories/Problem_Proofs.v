(** Proofs for problems. *)
From Coq Require Import List Arith Bool Lia Permutation Sorting.Sorted.
From Verif Require Import Syntax_Model Semantics_Spec Semantics_Proofs Problem_Model Problem_Spec.
Import ListNotations.
Local Arguments Nat.ltb : simpl never.

(** ** Lemmas *)
Lemma yielded_with_lemmas : forall ls asns q k, k < List.length ls ->
  yielded k (mkIter (mkProblem asns ls q) WithLemma) =
  Some (mkProblem (asns ++ q :: firstn k ls) (skipn (S k) ls) (nth k ls q)).
Proof.
  induction ls as [|l ls IH]; intros asns q k Hk; [cbn in Hk; lia|]. destruct k as [|k]; cbn [yielded pbl_next it_state it_pbl pb_lemmas pb_assertions pb_query fst].
  - reflexivity.
  - cbn in Hk. rewrite IH by lia. cbn [firstn skipn nth]. rewrite <- app_assoc. cbn [List.app]. f_equal. f_equal. apply nth_indep. lia.
Qed.

Lemma yielded_past : forall ls asns q k, List.length ls <= k -> yielded k (mkIter (mkProblem asns ls q) WithLemma) = None.
Proof.
  induction ls as [|l ls IH]; intros asns q k Hk; [destruct k; reflexivity|]. destruct k as [|k]; cbn in Hk; [lia|]. cbn. apply IH. lia.
Qed.

Lemma iterate_lemmas p k : k <= List.length (pb_lemmas p) ->
  yielded k (pbl_new p true) =
  Some (mkProblem (pb_assertions p ++ TRUE :: firstn k (pb_lemmas p)) (skipn (S k) (pb_lemmas p ++ [pb_query p])) (nth k (pb_lemmas p ++ [pb_query p]) TRUE)).
Proof.
  intros Hk. unfold pbl_new. rewrite yielded_with_lemmas by (rewrite app_length; cbn; lia). rewrite firstn_app.
  replace (k - List.length (pb_lemmas p)) with 0 by lia. cbn [firstn]. rewrite app_nil_r. reflexivity.
Qed.

Lemma holds_true (M : structure) (rho : env M) : holds TRUE rho.
Proof. unfold holds. cbn. apply dtest_inj. Qed.

Lemma chain (K : structure -> Prop) ls asns q :
  (forall k, k < List.length ls -> follows K (asns ++ q :: firstn k ls) (nth k ls q)) ->
  forall (M : structure), K M -> forall rho : env M, (forall a, In a asns -> holds a rho) -> holds q rho -> forall l, In l ls -> holds l rho.
Proof.
  revert asns q. induction ls as [|l ls IH]; intros asns q H M HM rho Ha Hq x Hx; [destruct Hx|].
  assert (Hl : holds l rho).
  { apply (H 0 ltac:(cbn; lia) M HM rho). cbn. intros a Hin. apply in_app_or in Hin. destruct Hin as [Hin|[<-|[]]]; auto. }
  destruct Hx as [<-|Hx]; [assumption|]. apply (IH (asns ++ [q]) l) with (M := M); try assumption.
  - intros k Hk. specialize (H (S k) ltac:(cbn; lia)). cbn [firstn nth] in H. rewrite <- app_assoc. cbn [List.app].
    rewrite (nth_indep ls l q Hk). exact H.
  - intros a Hin. apply in_app_or in Hin. destruct Hin as [Hin|[<-|[]]]; auto.
Qed.

Lemma lemmas_sound (K : structure -> Prop) p :
  (forall k pk, yielded k (pbl_new p true) = Some pk -> follows K (pb_assertions pk) (pb_query pk)) ->
  forall l, In l (pb_lemmas p ++ [pb_query p]) -> follows K (pb_assertions p) l.
Proof.
  intros H l Hl M HM rho Ha.
  apply (chain K (pb_lemmas p ++ [pb_query p]) (pb_assertions p) TRUE) with (M := M); [|assumption|assumption|apply holds_true|assumption].
  intros k Hk. specialize (H k). unfold pbl_new in H. rewrite yielded_with_lemmas in H by assumption. exact (H _ eq_refl).
Qed.

Section Run.
  Context {X R E : Type} (run : X -> problem -> X * (R + E)).

  Lemma auto_run_lemmas : forall ls asns q x, exists n out, forall m, n <= m ->
    auto_run run m x (mkIter (mkProblem asns ls q) WithLemma) = Some out /\
    match out with
    | inl rs => List.length rs = List.length ls /\
                forall k, k < List.length ls -> exists pk y r, yielded k (mkIter (mkProblem asns ls q) WithLemma) = Some pk /\
                                                             snd (run y pk) = inl r /\ nth_error rs k = Some r
    | inr e => exists k pk y, yielded k (mkIter (mkProblem asns ls q) WithLemma) = Some pk /\ snd (run y pk) = inr e /\
                 forall j, j < k -> exists pj y r, yielded j (mkIter (mkProblem asns ls q) WithLemma) = Some pj /\ snd (run y pj) = inl r
    end.
  Proof.
    induction ls as [|l ls IH]; intros asns q x.
    - exists 1, (inl []). intros [|m] Hm; [lia|]. split; [reflexivity|]. split; [reflexivity|]. cbn. intros k Hk. lia.
    - set (p := mkProblem (asns ++ [q]) ls l). destruct (run x p) as [x' [r|e]] eqn:Er.
      + destruct (IH (asns ++ [q]) l x') as (n & out & Hn).
        exists (S n), (match out with inl rs => inl (r :: rs) | inr e => inr e end). intros [|m] Hm; [lia|].
        destruct (Hn m ltac:(lia)) as [H1 H2]. cbn [auto_run pbl_next it_state it_pbl pb_lemmas pb_assertions pb_query]. fold p. rewrite Er.
        unfold p. rewrite H1. split; [destruct out; reflexivity|]. destruct out as [rs|e].
        * destruct H2 as [H2 H3]. split; [cbn; congruence|]. intros [|k] Hk.
          -- exists p, x, r. cbn. repeat split. rewrite Er. reflexivity.
          -- cbn in Hk. destruct (H3 k ltac:(lia)) as (pk & y & r' & F1 & F2 & F3). exists pk, y, r'. cbn. auto.
        * destruct H2 as (k & pk & y & F1 & F2 & F3). exists (S k), pk, y. split; [exact F1|]. split; [assumption|]. intros [|j] Hj.
          -- exists p, x, r. split; [reflexivity|]. rewrite Er. reflexivity.
          -- apply (F3 j). lia.
      + exists 1, (inr e). intros [|m] Hm; [lia|]. cbn [auto_run pbl_next it_state it_pbl pb_lemmas pb_assertions pb_query]. fold p. rewrite Er.
        split; [reflexivity|]. exists 0, p, x. split; [reflexivity|]. split; [rewrite Er; reflexivity|]. intros j Hj. lia.
  Qed.
End Run.

(** ** Declarations *)
Section Declarations.
  Context {F : Type} (builtin always_datatype term_algebra : F -> bool) (outsort : F -> option nat) (symbolic : bool).
  Notation part := (partition_functions builtin always_datatype term_algebra outsort symbolic).
  Definition is_cons (f : F) : bool := always_datatype f || (term_algebra f && symbolic).

  Lemma add_constructor_perm s (f : F) m : Permutation (flat_map snd (add_constructor s f m)) (f :: flat_map snd m).
  Proof.
    induction m as [|[k l] m IH]; cbn; [reflexivity|]. destruct (s =? k); cbn; [rewrite <- app_assoc; symmetry; apply Permutation_middle|].
    destruct (s <? k); cbn; [reflexivity|]. rewrite IH. symmetry. apply Permutation_middle.
  Qed.

  Lemma add_constructor_sorted s (f : F) m : StronglySorted lt (map fst m) -> StronglySorted lt (map fst (add_constructor s f m)) /\
    forall k, In k (map fst (add_constructor s f m)) <-> k = s \/ In k (map fst m).
  Proof.
    induction m as [|[k l] m IH]; cbn; intros H; [split; [repeat constructor|intuition]|]. inversion H as [|? ? H1 H2]; subst.
    destruct (s =? k) eqn:E1; [apply Nat.eqb_eq in E1; subst; cbn; split; [constructor; assumption|intuition]|].
    destruct (s <? k) eqn:E2; cbn.
    - apply Nat.ltb_lt in E2. split; [|intuition]. constructor; [assumption|]. constructor; [assumption|].
      rewrite Forall_forall in H2 |- *. intros x Hx. specialize (H2 x Hx). lia.
    - apply Nat.eqb_neq in E1. apply Nat.ltb_ge in E2. destruct (IH H1) as [I1 I2]. split.
      + constructor; [assumption|]. rewrite Forall_forall in H2 |- *. intros x Hx. apply I2 in Hx. destruct Hx as [->|Hx]; [lia|]. apply H2; assumption.
      + intros x. rewrite I2. intuition.
  Qed.

  Lemma add_constructor_in s (f : F) m k l : In (k, l) (add_constructor s f m) -> forall g, In g l -> (g = f /\ k = s) \/ exists l', In (k, l') m /\ In g l'.
  Proof.
    induction m as [|[k' l'] m IH]; cbn.
    - intros [[= <- <-]|[]] g [<-|[]]. auto.
    - destruct (s =? k') eqn:E.
      + apply Nat.eqb_eq in E. intros [[= <- <-]|H] g Hg; [|right; exists l; auto]. apply in_app_or in Hg. destruct Hg as [Hg|[<-|[]]]; [right; exists l'; auto|auto].
      + destruct (s <? k').
        * intros [[= <- <-]|H] g Hg; [destruct Hg as [<-|[]]; auto|]. right. exists l. auto.
        * intros [[= <- <-]|H] g Hg; [right; exists l'; auto|]. destruct (IH H g Hg) as [?|(l2 & ? & ?)]; [auto|]. right. exists l2. auto.
  Qed.

  Lemma partition_spec fs : forall m free m' free', part fs m free = Some (m', free') -> StronglySorted lt (map fst m) ->
    Permutation (free' ++ flat_map snd m') (free ++ flat_map snd m ++ filter (fun f => negb (builtin f)) fs) /\
    StronglySorted lt (map fst m') /\
    (forall f, In f free' -> In f free \/ is_cons f = false) /\
    (forall k l f, In (k, l) m' -> In f l -> (exists l', In (k, l') m /\ In f l') \/ (is_cons f = true /\ outsort f = Some k)).
  Proof.
    induction fs as [|f fs IH]; cbn; intros m free m' free' H Hs.
    - injection H as <- <-. rewrite app_nil_r. repeat split; auto. intros k l f H1 H2. left. exists l. auto.
    - destruct (builtin f) eqn:Eb; cbn; [apply IH; assumption|]. fold (is_cons f) in H. destruct (is_cons f) eqn:Ec.
      + destruct (outsort f) as [s|] eqn:Eo; [|discriminate]. destruct (add_constructor_sorted s f m Hs) as [Hs' _].
        destruct (IH _ _ _ _ H Hs') as (H1 & H2 & H3 & H4). split; [|split; [assumption|split; [assumption|]]].
        * rewrite H1. apply Permutation_app_head. rewrite add_constructor_perm. cbn. apply Permutation_middle.
        * intros k l g Hk Hg. destruct (H4 k l g Hk Hg) as [(l' & Hl' & Hg')|Hc]; [|auto].
          destruct (add_constructor_in s f m k l' Hl' g Hg') as [[-> ->]|?]; auto.
      + destruct (IH _ _ _ _ H Hs) as (H1 & H2 & H3 & H4). split; [|split; [assumption|split; [|assumption]]].
        * rewrite H1, <- app_assoc. apply Permutation_app_head. cbn. apply Permutation_middle.
        * intros g Hg. destruct (H3 g Hg) as [Hin|?]; [|auto]. apply in_app_or in Hin. destruct Hin as [?|[<-|[]]]; auto.
  Qed.

  Lemma partition_total fs : (forall f, In f fs -> builtin f = false -> is_cons f = true -> outsort f <> None) -> forall m free, part fs m free <> None.
  Proof.
    induction fs as [|f fs IH]; cbn; intros H m free; [discriminate|]. destruct (builtin f) eqn:Eb; [apply IH; auto|]. fold (is_cons f).
    destruct (is_cons f) eqn:Ec; [|apply IH; auto]. destruct (outsort f) eqn:Eo; [apply IH; auto|]. exfalso. apply (H f); auto.
  Qed.
End Declarations.

Section Sorting.
  Context {F : Type} (le : declaration F -> declaration F -> bool).
  Lemma insert_perm d l : Permutation (insert_decl le d l) (d :: l).
  Proof. induction l as [|e l IH]; cbn; [reflexivity|]. destruct (le d e); [reflexivity|]. rewrite IH. apply perm_swap. Qed.
  Lemma sort_perm l : Permutation (sort_decls le l) l.
  Proof. induction l as [|d l IH]; cbn; [reflexivity|]. rewrite insert_perm, IH. reflexivity. Qed.

  Context (Hle : forall d e, le d e = true -> rank d <= rank e) (Hgt : forall d e, le d e = false -> rank e <= rank d).
  Lemma insert_sorted d l : StronglySorted (fun a b => rank a <= rank b) l -> StronglySorted (fun a b => rank a <= rank b) (insert_decl le d l).
  Proof.
    induction 1 as [|e l Hs IH Hf]; cbn; [repeat constructor|]. destruct (le d e) eqn:E.
    - constructor; [constructor; assumption|]. apply Hle in E. constructor; [assumption|]. rewrite Forall_forall in Hf |- *.
      intros x Hx. specialize (Hf x Hx). lia.
    - constructor; [assumption|]. apply Hgt in E. rewrite Forall_forall in Hf |- *. intros x Hx.
      apply (Permutation_in _ (insert_perm d l)) in Hx. destruct Hx as [<-|Hx]; auto.
  Qed.
  Lemma sort_sorted l : StronglySorted (fun a b => rank a <= rank b) (sort_decls le l).
  Proof. induction l as [|d l IH]; cbn; [constructor|]. apply insert_sorted. assumption. Qed.
End Sorting.

Lemma flat_map_perm {A B} (f : A -> list B) l l' : Permutation l l' -> Permutation (flat_map f l) (flat_map f l').
Proof.
  induction 1 as [|x l l' _ IH|x y l|l l' l'' _ IH1 _ IH2]; cbn; [reflexivity|apply Permutation_app_head; assumption| |etransitivity; eassumption].
  rewrite !app_assoc. apply Permutation_app_tail, Permutation_app_comm.
Qed.

(** ** Protocols *)
Section Protocol.
  Context {S : Type} (is_init : S -> bool).
  Lemma position_some l i : position is_init l = Some i ->
    exists s, nth_error l i = Some s /\ is_init s = true /\ forall j s', j < i -> nth_error l j = Some s' -> is_init s' = false.
  Proof.
    revert i. induction l as [|s l IH]; cbn; intros i H; [discriminate|]. destruct (is_init s) eqn:E.
    - injection H as <-. exists s. split; [reflexivity|]. split; [assumption|]. intros j s' Hj. lia.
    - destruct (position is_init l) as [k|]; [|discriminate]. injection H as <-. destruct (IH k eq_refl) as (s' & H1 & H2 & H3).
      exists s'. cbn. split; [assumption|]. split; [assumption|]. intros [|j] x Hj Hx; [cbn in Hx; congruence|]. apply (H3 j); [lia|assumption].
  Qed.
  Lemma position_none l : position is_init l = None <-> forall s, In s l -> is_init s = false.
  Proof.
    induction l as [|s l IH]; cbn; [intuition|]. destruct (is_init s) eqn:E.
    - split; [discriminate|]. intros H. rewrite (H s (or_introl eq_refl)) in E. discriminate.
    - destruct (position is_init l) as [k|]; cbn.
      + split; [discriminate|]. intros H. assert (X : Some k = None) by (apply IH; auto). discriminate.
      + split; [|reflexivity]. intros _ x [<-|Hx]; [assumption|]. apply IH; auto.
  Qed.
  Lemma some_inj' {A} (x y : A) : Some x = Some y -> x = y.
  Proof. congruence. Qed.
  Lemma swap0_perm i (l l' : list S) : swap0 i l = Some l' -> Permutation l' l /\ nth_error l' 0 = nth_error l i.
  Proof.
    destruct i as [|j], l as [|a l]; cbn [swap0 nth_error]; intros H; try discriminate.
    - injection H as <-. split; reflexivity.
    - destruct (nth_error l j) as [b|] eqn:E; [|discriminate]. apply some_inj' in H. subst l'. split; [|cbn; congruence].
      destruct (nth_error_split l j E) as (l1 & l2 & -> & <-). rewrite firstn_app, firstn_all, Nat.sub_diag. cbn [firstn]. rewrite app_nil_r.
      rewrite skipn_app. rewrite skipn_all2 by lia. replace (Datatypes.S (length l1) - length l1) with 1 by lia. cbn [skipn List.app].
      rewrite <- !Permutation_middle. apply perm_swap.
  Qed.
  Lemma swap0_total i (l : list S) s : nth_error l i = Some s -> exists l', swap0 i l = Some l'.
  Proof.
    destruct i as [|j], l as [|a l]; cbn; intros H; try discriminate; [eexists; reflexivity|]. rewrite H. eexists. reflexivity.
  Qed.
End Protocol.
