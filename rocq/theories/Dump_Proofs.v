(** Proofs about the conversion of a whole Squirrel file. *)
From Coq Require Import List Arith Bool Lia String Ascii Permutation.
From Verif Require Import Syntax_Model Smt_Model Squirrel_Model Squirrel_Proofs Utils_Model Utils_Spec Utils_Proofs Convert_Model Convert_Spec Convert_Proofs
  Dump_Model Dump_Spec.
Import ListNotations.
Local Open Scope list_scope.

Lemma F2_impl {A B} (P Q : A -> B -> Prop) l m : (forall a b, P a b -> Q a b) -> Forall2 P l m -> Forall2 Q l m.
Proof. intros H F. induction F; constructor; auto. Qed.

Lemma F2_one {A B} (P : A -> B -> Prop) a m : Forall2 P [a] m -> exists b, m = [b] /\ P a b.
Proof. intros F. inversion F as [|? b ? r H F']; subst. inversion F'; subst. eauto. Qed.
Lemma F2_none {A B} (P : A -> B -> Prop) m : Forall2 P [] m -> m = [].
Proof. intros F. inversion F. reflexivity. Qed.

(** ** Hash maps *)

Lemma text_eqb_eq a b : text_eqb a b = true <-> a = b.
Proof. unfold text_eqb. destruct (list_eq_dec ascii_dec a b); split; congruence. Qed.
Lemma list_eqb_eq {A} (eqb : A -> A -> bool) : (forall a b, eqb a b = true <-> a = b) -> forall l m, list_eqb eqb l m = true <-> l = m.
Proof.
  intros H. induction l as [|a l IH]; intros [|b m]; cbn; try (split; congruence). rewrite andb_true_iff, H, IH. split; [intros (-> & ->); auto|].
  intros [= -> ->]. auto.
Qed.
Lemma path_eqb_eq p q : path_eqb p q = true <-> p = q.
Proof.
  unfold path_eqb. rewrite andb_true_iff, (list_eqb_eq text_eqb text_eqb_eq), text_eqb_eq. destruct p, q; cbn. split; [intros (-> & ->); auto|].
  intros [= -> ->]. auto.
Qed.
Lemma jvar_eqb_eq v w : jvar_eqb v w = true <-> v = w.
Proof.
  unfold jvar_eqb. rewrite andb_true_iff, text_eqb_eq, Nat.eqb_eq. destruct v, w; cbn. split; [intros (-> & ->); auto|]. intros [= -> ->]. auto.
Qed.

Lemma insert_in {A} p (a : A) l : forall q b, NoDup (map fst l) -> (In (q, b) (insert p a l) <-> (q = p /\ b = a) \/ (q <> p /\ In (q, b) l)).
Proof.
  induction l as [|[q' b'] l IH]; intros q b N; cbn [insert].
  - cbn. split; [intros [[= <- <-]|[]]; auto|]. intros [(-> & ->)|(_ & [])]. auto.
  - inversion N as [|? ? N1 N2]; subst. destruct (path_eqb p q') eqn:E.
    + apply path_eqb_eq in E. subst q'. cbn [In]. split.
      * intros [[= <- <-]|H]; [auto|]. right. split; [|auto]. intros ->. apply N1. apply in_map_iff. exists (p, b). auto.
      * intros [(-> & ->)|(H & [[= -> ->]|H1])]; auto. congruence.
    + assert (p <> q') by (intros ->; rewrite (proj2 (path_eqb_eq q' q') eq_refl) in E; discriminate). cbn [In]. rewrite IH by assumption.
      split; [intros [[= <- <-]|[K|(K & K')]]; auto|]. intros [K|(K & [[= <- <-]|K'])]; auto.
Qed.
Lemma insert_fst {A} p (a : A) l : map fst (insert p a l) = map fst l \/ (~ In p (map fst l) /\ map fst (insert p a l) = map fst l ++ [p]).
Proof.
  induction l as [|[q b] l IH]; cbn [insert]; [right; auto|]. destruct (path_eqb p q) eqn:E; cbn [map fst]; [left; reflexivity|].
  destruct IH as [->|(N & ->)]; [left; reflexivity|right]. split; [|reflexivity]. intros [->|H]; [|auto].
  cbn in E. rewrite (proj2 (path_eqb_eq p p) eq_refl) in E. discriminate.
Qed.
Lemma insert_nodup {A} p (a : A) l : NoDup (map fst l) -> NoDup (map fst (insert p a l)).
Proof.
  intros N. destruct (insert_fst p a l) as [->|(H & ->)]; [exact N|]. eapply Permutation_NoDup; [apply Permutation_cons_append|]. constructor; assumption.
Qed.
Lemma last_snoc {A} l p (a : A) q b : last_entry (l ++ [(p, a)]) q b <-> (q = p /\ b = a) \/ (q <> p /\ last_entry l q b).
Proof.
  split.
  - intros (l1 & l2 & E & N). destruct l2 as [|e l2 _] using rev_ind.
    + apply app_inj_tail in E. destruct E as (_ & [= <- <-]). auto.
    + rewrite app_comm_cons, app_assoc in E. apply app_inj_tail in E. destruct E as (E & <-). right. rewrite map_app, in_app_iff in N. cbn in N.
      split; [intros ->; tauto|]. exists l1, l2. tauto.
  - intros [(-> & ->)|(H & l1 & l2 & -> & N)]; [exists l, []; auto|]. exists l1, (l2 ++ [(p, a)]). split; [rewrite <- app_assoc; reflexivity|].
    rewrite map_app, in_app_iff. cbn. intros [?|[->|[]]]; auto.
Qed.
Lemma last_nil {A} p (a : A) : ~ last_entry [] p a.
Proof. intros ([|? ?] & l2 & E & _); discriminate. Qed.
Lemma hash_listing {A} (l : list (path * A)) : listing l (hash_map l).
Proof.
  induction l as [|[p a] l IH] using rev_ind; unfold listing, hash_map.
  - split; [constructor|]. intros q b. split; [intros []|]. intros H. destruct (last_nil _ _ H).
  - rewrite fold_left_app. cbn [fold_left fst snd]. fold (hash_map l). destruct IH as (N & H). split; [apply insert_nodup; exact N|].
    intros q b. rewrite insert_in, last_snoc by exact N. rewrite H. reflexivity.
Qed.
Lemma listing_perm {A} (l es es' : list (path * A)) : Permutation es' es -> listing l es -> listing l es'.
Proof.
  intros P (N & H). split; [eapply Permutation_NoDup; [|exact N]; apply Permutation_map, Permutation_sym; exact P|].
  intros p a. rewrite <- H. split; apply Permutation_in; [|apply Permutation_sym]; exact P.
Qed.
Lemma find_in {A} (l : list (path * A)) p a : NoDup (map fst l) -> (find_path l p = Some a <-> In (p, a) l).
Proof.
  induction l as [|[q b] l IH]; cbn [find_path map fst]; intros N; [split; [discriminate|intros []]|]. inversion N as [|? ? N1 N2]; subst.
  destruct (path_eqb p q) eqn:E.
  - apply path_eqb_eq in E. subst q. split; [intros [= ->]; left; reflexivity|]. intros [[= ->]|H]; [reflexivity|]. exfalso. apply N1.
    apply in_map_iff. exists (p, a). auto.
  - rewrite IH by assumption. split; [right; assumption|]. intros [[= -> ->]|H]; [|exact H]. rewrite (proj2 (path_eqb_eq p p) eq_refl) in E. discriminate.
Qed.
Lemma find_last {A} (l : list (path * A)) p a : find_path (hash_map l) p = Some a <-> last_entry l p a.
Proof. destruct (hash_listing l) as (N & H). rewrite find_in by exact N. apply H. Qed.
Lemma find_none {A} (l : list (path * A)) p : find_path (hash_map l) p = None <-> forall a, ~ last_entry l p a.
Proof.
  split.
  - intros E a H. apply find_last in H. congruence.
  - intros H. destruct (find_path (hash_map l) p) as [a|] eqn:E; [|reflexivity]. apply find_last in E. destruct (H _ E).
Qed.

(** ** Sections *)

Lemma section_mono {A B} (R R' : A -> list B -> Prop) l m : (forall x ys, In x l -> R x ys -> R' x ys) -> section R l m -> section R' l m.
Proof.
  intros H S. revert H. induction S as [|x ys l m Hx S IH]; intros H; constructor; [apply H; [left; reflexivity|exact Hx]|].
  apply IH. intros y zs Hy. apply H. right. exact Hy.
Qed.
Lemma section_flat {A B C} (R : C -> B -> Prop) (f : A -> list C) l m :
  Forall2 R (flat_map f l) m -> section (fun x ys => Forall2 R (f x) ys) l m.
Proof.
  revert m. induction l as [|x l IH]; intros m F; cbn [flat_map] in F; [inversion F; constructor|].
  apply Forall2_app_inv_l in F. destruct F as (m1 & m2 & F1 & F2 & ->). constructor; auto.
Qed.
Lemma section_map {A B C} (R : C -> B -> Prop) (f : A -> C) l m :
  Forall2 R (map f l) m -> section (fun x ys => exists y, ys = [y] /\ R (f x) y) l m.
Proof.
  revert m. induction l as [|x l IH]; intros m F; cbn [map] in F; inversion F as [|? y ? m' Hy F']; subst; [constructor|].
  change (y :: m') with ([y] ++ m'). constructor; [eauto|auto].
Qed.
Lemma flat_map_app' {A B} (f : A -> list B) l m : flat_map f (l ++ m) = flat_map f l ++ flat_map f m.
Proof. induction l as [|x l IH]; cbn; [reflexivity|]. rewrite IH. apply app_assoc. Qed.
Lemma flat_map_map {A B C} (f : A -> B) (g : B -> list C) l : flat_map g (map f l) = flat_map (fun x => g (f x)) l.
Proof. induction l as [|x l IH]; cbn; [reflexivity|]. rewrite IH. reflexivity. Qed.
Lemma map_flat_map {A B C} (f : A -> list B) (g : B -> C) l : map g (flat_map f l) = flat_map (fun x => map g (f x)) l.
Proof. induction l as [|x l IH]; cbn; [reflexivity|]. rewrite map_app, IH. reflexivity. Qed.
Lemma couples_all {A} (l : list A) : couples l (combinations l).
Proof. induction l as [|x l IH]; cbn; constructor. exact IH. Qed.

(** ** The parts *)

Lemma kind_eqb_eq a b : kind_eqb a b = true <-> a = b.
Proof. destruct a, b; cbn; split; congruence. Qed.
Lemma contains_in k l : contains k l = true <-> In k l.
Proof.
  unfold contains. rewrite existsb_exists. split; [intros (x & H & E); apply kind_eqb_eq in E; subst; exact H|]. intros H. exists k. split; [exact H|].
  apply kind_eqb_eq. reflexivity.
Qed.
Lemma can_be_index_spec k : can_be_index k = true <-> indexable k.
Proof. unfold can_be_index, indexable. rewrite orb_true_iff, andb_true_iff, !contains_in. reflexivity. Qed.

(** Alternative [k] of a result. *)
Definition at_ {U} (k : nat) (r : outcome (aoov U)) (v : U) : Prop := exists y, r = OOk y /\ aget y k = Some v.
Lemma at_pure {U} k (u v : U) : at_ k (rpure u) v <-> v = u.
Proof. unfold at_, rpure. split; [intros (y & [= <-] & [= <-]); reflexivity|]. intros ->. eexists. split; reflexivity. Qed.
Lemma at_err {U} k (v : U) : ~ at_ k OErr v.
Proof. intros (y & E & _). discriminate. Qed.
Lemma at_bind {U V} k (r : outcome (aoov U)) (f : U -> outcome (aoov V)) v : at_ k (rbind r f) v -> exists u, at_ k r u /\ at_ k (f u) v.
Proof. intros (x & E & H). destruct (rbind_get _ _ _ _ _ E H) as (s & u & y & Es & Hu & Ef & Hy). exists u. split; eexists; eauto. Qed.
Lemma at_args {U V A} k (conv : A -> outcome (aoov U)) args (f : list U -> outcome (aoov V)) v :
  at_ k (andthen (mapR conv args) (fun l => transposed l f)) v -> exists m, Forall2 (fun t b => at_ k (conv t) b) args m /\ at_ k (f m) v.
Proof. intros (x & E & H). destruct (args_get _ _ _ _ _ _ E H) as (m & y & F & Ef & Hy). exists m. split; [exact F|eexists; eauto]. Qed.
Lemma at_transposed {U V} k (l : list (aoov U)) (f : list U -> outcome (aoov V)) v :
  at_ k (transposed l f) v -> exists m, Forall2 (fun a b => aget a k = Some b) l m /\ at_ k (f m) v.
Proof. intros (x & E & H). destruct (transposed_get _ _ _ _ _ E H) as (m & y & F & Ef & Hy). exists m. split; [exact F|eexists; eauto]. Qed.
Lemma mapR_at {A U} k (f : A -> outcome (aoov U)) l ys m : mapR f l = OOk ys -> Forall2 (fun a b => aget a k = Some b) ys m ->
  Forall2 (fun t b => at_ k (f t) b) l m.
Proof.
  intros E F. apply mapR_ok in E. revert m F. induction E as [|a b l l' Hab _ IH]; intros m F; inversion F; subst; constructor; auto.
  eexists; eauto.
Qed.

Lemma filter_dummy l : filter (fun v => negb (is_dummy v)) l = real_inputs l.
Proof.
  unfold real_inputs, is_dummy, text_eqb. induction l as [|v l IH]; [reflexivity|]. cbn [filter]. rewrite IH.
  destruct (list_eq_dec ascii_dec (j_name v) dummy) as [E|E], (list_eq_dec ascii_dec (j_name v) (str "$dummy")) as [E'|E']; try reflexivity; contradiction.
Qed.

(** What [term_vars] lists. *)
Lemma concat_rev_in {A} (x : A) ls : In x (List.concat (rev ls)) <-> exists l, In l ls /\ In x l.
Proof. rewrite in_concat. split; intros (l & H & H'); exists l; (split; [|exact H']); [apply in_rev|apply in_rev in H]; auto. Qed.
Lemma vars_concat v l : (forall t, In t l -> (In v (term_vars t) <-> occurs v t)) ->
  (In v (List.concat (rev (map term_vars l))) <-> exists t, In t l /\ occurs v t).
Proof.
  intros H. rewrite concat_rev_in. split.
  - intros (vs & Hv & Hx). apply in_map_iff in Hv. destruct Hv as (t & <- & Ht). exists t. split; [exact Ht|]. apply H; assumption.
  - intros (t & Ht & Hx). exists (term_vars t). split; [apply in_map; exact Ht|]. apply H; assumption.
Qed.
Lemma term_vars_occurs t : forall v, In v (term_vars t) <-> occurs v t.
Proof.
  induction t as [t IH] using parts_ind. intros v.
  destruct t as [f args|p|p args|p args ts|p args|w|x dd b|l|id b|l|vars c s f|q vars b]; cbn [term_vars parts] in *.
  - rewrite in_app_iff, (vars_concat v args), (IH f) by (intros; try apply IH; cbn; auto). split.
    + intros [H|(t & H & H')]; [apply (oc_app v f args f)|apply (oc_app v f args t)]; cbn; auto.
    + intros H. inversion H as [|? ? t Ht H'| | | | | | | | |]; subst. destruct Ht as [<-|Ht]; eauto.
  - split; [intros []|]. intros H. inversion H.
  - rewrite (vars_concat v args) by (intros; apply IH; auto). split; [intros (t & H & H'); apply (oc_name v p args t); auto|].
    intros H. inversion H; subst; eauto.
  - rewrite in_app_iff, (vars_concat v args), (IH ts) by (intros; try apply IH; cbn; auto). split.
    + intros [H|(t & H & H')]; [apply (oc_macro v p args ts ts)|apply (oc_macro v p args ts t)]; cbn; auto.
    + intros H. inversion H as [| | | |? ? ? t Ht H'| | | | | |]; subst. destruct Ht as [<-|Ht]; eauto.
  - rewrite (vars_concat v args) by (intros; apply IH; auto). split; [intros (t & H & H'); apply (oc_action v p args t); auto|].
    intros H. inversion H; subst; eauto.
  - cbn. split; [intros [->|[]]; constructor|]. intros H. inversion H; auto.
  - rewrite in_app_iff, (IH b), (IH dd) by (cbn; auto). split.
    + intros [H|H]; eapply oc_let; [|exact H| |exact H]; cbn; auto.
    + intros H. inversion H as [| | | | |? ? ? t Ht H'| | | | |]; subst. destruct Ht as [<-|[<-|[]]]; auto.
  - rewrite (vars_concat v l) by (intros; apply IH; auto). split; [intros (t & H & H'); apply (oc_tuple v l t); auto|].
    intros H. inversion H; subst; eauto.
  - rewrite (IH b) by (cbn; auto). split; [apply oc_proj|]. intros H. inversion H; auto.
  - assert (E : map (fun d => match d with (_, t) => term_vars t end) l = map term_vars (map snd l)).
    { rewrite map_map. apply map_ext. intros []. reflexivity. }
    rewrite E, (vars_concat v (map snd l)) by (intros; apply IH; auto). split; [intros (t & H & H'); apply (oc_diff v l t); auto|].
    intros H. inversion H; subst; eauto.
  - rewrite !in_app_iff, (IH f), (IH s), (IH c) by (apply in_or_app; cbn; auto). split.
    + intros [H|[H|H]]; eapply oc_find; [|exact H| |exact H| |exact H]; cbn; auto.
    + intros H. inversion H as [| | | | | | | | |? ? ? ? t Ht H'|]; subst. destruct Ht as [<-|[<-|[<-|[]]]]; auto.
  - rewrite (IH b) by (apply in_or_app; cbn; auto). split; [apply oc_quant|]. intros H. inversion H; auto.
Qed.

Section Parts.
  Context (wide : text -> bool) (table : nat -> jsort) (shuffle : forall A, list A -> list A) (fuel : nat) (d : dump).
  Hypothesis shuffled : forall A (l : list A), Permutation (shuffle A l) l.
  Notation csort := (csort wide table d).
  Notation conv := (conv wide table d).
  Notation binds := (binds wide table d).

  Lemma csort_spec n s : csort n = Some s <-> sort_name wide d (table n) s.
  Proof.
    unfold Dump_Model.csort. destruct (table n) as [| | | |p| | |]; cbn [convert_jsort];
      try (split; [intros [= <-]; constructor|intros H; inversion H; reflexivity]).
    - unfold p_types. destruct (find_path (hash_map (d_types d)) p) as [k|] eqn:E; cbn [option_map].
      + apply find_last in E. destruct (can_be_index k) eqn:Ek; cbn [negb].
        * apply can_be_index_spec in Ek. split.
          -- intros [= <-]. apply sn_base. intros k' Hk. apply find_last in Hk. apply find_last in E. congruence.
          -- intros H. inversion H as [| | | | | |? k' Hk N|]; subst; [|reflexivity]. apply find_last in Hk. apply find_last in E. congruence.
        * assert (N : ~ indexable k) by (rewrite <- can_be_index_spec; congruence). split.
          -- intros [= <-]. eapply sn_large; eassumption.
          -- intros H. inversion H as [| | | | | | |? K]; subst; [reflexivity|]. destruct (N (K _ E)).
      + pose proof (proj1 (find_none _ _) E) as E'. split.
        * intros [= <-]. apply sn_base. intros k Hk. destruct (E' _ Hk).
        * intros H. inversion H as [| | | | | |? k' Hk N|]; subst; [|reflexivity]. destruct (E' _ Hk).
  Qed.
  Lemma names_spec p f : names d p = Some f <-> last_entry (d_names d) p f.
  Proof. apply find_last. Qed.
  Lemma operators_spec p f : operators d p = Some f <-> exists o, last_entry (d_operators d) p o /\ f = op_fun o.
  Proof.
    unfold operators. split.
    - destruct (find_path (p_operators d) p) as [o|] eqn:E; [|discriminate]. cbn. intros [= <-]. exists o. split; [|reflexivity]. apply find_last. exact E.
    - intros (o & H & ->). apply find_last in H. unfold p_operators. rewrite H. reflexivity.
  Qed.
  Lemma macros_spec p m : macros d p = Some m <-> exists a, last_entry (d_macros d) p a /\ m = macro_kind a.
  Proof.
    unfold macros. split.
    - destruct (find_path (p_macros d) p) as [o|] eqn:E; [|discriminate]. cbn. intros [= <-]. exists o. split; [|reflexivity]. apply find_last. exact E.
    - intros (o & H & ->). apply find_last in H. unfold p_macros. rewrite H. reflexivity.
  Qed.
  Lemma position_spec l c : by_position shuffle d l = Some c -> exists x, x_action x = c /\ a_action c = l /\
    last_entry (map (fun x => (a_name (x_action x), x)) (d_actions d)) (a_name c) x.
  Proof.
    unfold by_position. intros H.
    assert (G : forall (es : list (path * jaction)) acc, fold_left (fun acc a => if list_eqb (item_eqb var_list_eqb) l (a_action (x_action (snd a))) then Some (x_action (snd a)) else acc) es acc = Some c ->
      acc = Some c \/ exists p x, In (p, x) es /\ x_action x = c /\ a_action c = l).
    { clear H. induction es as [|[p x] es IH]; intros acc H; [left; exact H|]. cbn [fold_left fst snd] in H.
      apply IH in H. destruct H as [H|(p' & x' & H & H')]; [|right; exists p', x'; split; [right; exact H|exact H']].
      destruct (list_eqb _ l _) eqn:E; [|left; exact H]. injection H as H. right. exists p, x. split; [left; reflexivity|]. split; [exact H|].
      symmetry. rewrite <- H. revert E. apply list_eqb_eq. intros a b. unfold item_eqb. rewrite !andb_true_iff, !Nat.eqb_eq.
      unfold var_list_eqb. rewrite !(list_eqb_eq jvar_eqb jvar_eqb_eq). destruct a as [[a1 a2] [a3 a4]], b as [[b1 b2] [b3 b4]]; cbn.
      split; [intros ((-> & ->) & (-> & ->)); reflexivity|]. intros [= -> -> -> ->]. auto. }
    destruct (G _ _ H) as [G'|(p & x & Hi & E & E')]; [discriminate|]. exists x. split; [exact E|]. split; [exact E'|].
    apply (Permutation_in _ (shuffled _ _)) in Hi. apply hash_listing in Hi.
    assert (p = a_name (x_action x)) as ->.
    { destruct Hi as (l1 & l2 & El & _). assert (In (p, x) (map (fun x => (a_name (x_action x), x)) (d_actions d))) as Hm by (rewrite El; apply in_elt).
      apply in_map_iff in Hm. destruct Hm as (y & [= <- <-] & _). reflexivity. }
    rewrite <- E. exact Hi.
  Qed.

  Lemma at_type k t s : at_ k (convert_type csort t) s -> type_name wide table d t s.
  Proof.
    destruct t as [l|n]; cbn [convert_type]; [intros H; apply at_pure in H; subst; constructor|].
    destruct (csort n) as [s'|] eqn:E; [|intros H; destruct (at_err _ _ H)]. intros H. apply at_pure in H. subst. constructor. apply csort_spec. exact E.
  Qed.
  Lemma at_sort k n s : at_ k (convert_sort csort n) s -> sort_name wide d (table n) s.
  Proof. intros H. apply (at_type k (TPlain n)) in H. inversion H; assumption. Qed.
  Lemma at_var k v b : at_ k (typed_var wide csort v) b -> binds v b.
  Proof.
    intros H. apply at_bind in H. destruct H as (s & Hs & Hb). apply at_pure in Hb. subst. apply at_sort in Hs. split; [reflexivity|exact Hs].
  Qed.

  Lemma inputs_spec args : inputs args (match last args (TPlain 0) with TTuple es => es | _ => args end).
  Proof.
    destruct args as [|t args _] using rev_ind; [right; split; [intros [] es; discriminate|reflexivity]|]. rewrite last_last.
    destruct t as [es|n]; [left; eauto|]. right. split; [|reflexivity]. intros l' es E. apply app_inj_tail in E. destruct E as (_ & E). discriminate.
  Qed.
  Lemma at_declare k f args out v : at_ k (declare csort f args out) v ->
    exists ins l s, inputs args ins /\ Forall2 (type_name wide table d) ins l /\ at_ k out s /\ v = (f, l, s).
  Proof.
    intros H. apply at_bind in H. destruct H as (s & Hs & H). apply at_args in H. destruct H as (m & F & H). apply at_pure in H. subst.
    eexists _, m, s. split; [apply inputs_spec|]. split; [|auto]. eapply F2_impl; [|exact F]. intros a b Hab. eapply at_type. exact Hab.
  Qed.

  Lemma types_items k m : Forall2 (at_ k) (mk_types wide shuffle d) m -> exists es T, listing (d_types d) es /\ section (type_item wide) es T /\ m = T ++ [DType (str "index")].
  Proof.
    unfold mk_types. rewrite map_app. intros F. apply Forall2_app_inv_l in F. destruct F as (T & L & F1 & F2 & ->).
    exists (shuffle _ (p_types d)), T. split; [eapply listing_perm; [apply shuffled|]; apply hash_listing|]. split.
    - rewrite map_flat_map in F1. apply section_flat in F1. eapply section_mono; [|exact F1]. intros [p ks] ys _ F. cbn [fst snd] in *.
      destruct (can_be_index ks) eqn:E.
      + left. split; [apply can_be_index_spec; exact E|]. apply F2_one in F. destruct F as (y & -> & H). apply at_pure in H. subst. reflexivity.
      + right. split; [rewrite <- can_be_index_spec; cbn; congruence|]. inversion F. reflexivity.
    - apply F2_one in F2. destruct F2 as (y & -> & H). apply at_pure in H. subst. reflexivity.
  Qed.
  Lemma cells_items k m : Forall2 (at_ k) (mk_cells wide table shuffle d) m -> section (cell_item wide table d) (shuffle _ (p_macros d)) m.
  Proof.
    intros F. apply section_flat in F. eapply section_mono; [|exact F]. clear. intros [p x] ys _ F. unfold cell_item. cbn [fst snd] in *.
    destruct x as [| |s vars init|]; try (inversion F; reflexivity). apply F2_one in F. destruct F as (y & -> & H).
    apply at_bind in H. destruct H as (out & Ho & H). apply at_args in H. destruct H as (args & Fa & H). apply at_pure in H. subst.
    exists out, args. split; [eapply at_type; exact Ho|]. split; [|reflexivity]. eapply F2_impl; [|exact Fa]. intros a b Hab. eapply at_sort. exact Hab.
  Qed.
  Lemma funs_items k m : Forall2 (at_ k) (mk_funs wide table shuffle d) m -> exists N F, m = N ++ F /\
    section (name_item wide table d) (shuffle _ (p_names d)) N /\ section (operator_item wide table d) (shuffle _ (p_operators d)) F.
  Proof.
    unfold mk_funs. rewrite map_app, !map_flat_map. intros F. apply Forall2_app_inv_l in F. destruct F as (N & L & F1 & F2 & ->). exists N, L.
    split; [reflexivity|]. split.
    - apply section_flat in F1. eapply section_mono; [|exact F1]. clear - table. intros [p f] ys _ F. unfold name_item. cbn [fst snd] in *. unfold declare_name in F.
      destruct (f_poly f); [inversion F; reflexivity|]. cbn [map] in F. apply F2_one in F. destruct F as (y & -> & H).
      apply at_bind in H. destruct H as (v & Hv & H). apply at_declare in Hv. destruct Hv as (ins & l & s & Hi & Fl & Hs & ->).
      apply at_pure in H. apply at_pure in Hs. subst. exists ins, l. auto.
    - apply section_flat in F2. eapply section_mono; [|exact F2]. clear. intros [p o] ys _ F. unfold operator_item. cbn [fst snd] in *.
      unfold declare_operator in F. cbn [f_poly f_concrete f_args f_out op_fun] in F.
      destruct (existsb (text_eqb (path_text p)) (FORBIDDEN_FUNCTIONS ++ BUILTIN_FUNCTION)) eqn:E.
      + cbn [orb map] in F. assert (ys = []) as -> by (inversion F; reflexivity). destruct (op_def o); [|reflexivity]. right. left. split; [|reflexivity].
        apply existsb_exists in E. destruct E as (t & Ht & E). apply text_eqb_eq in E. subst t. unfold FORBIDDEN_FUNCTIONS, BUILTIN_FUNCTION, o_slash in Ht.
        unfold undeclared. rewrite !in_app_iff in Ht. rewrite in_app_iff. cbn [map In] in *. tauto.
      + assert (~ In (path_text p) undeclared) as Hn.
        { intros H. assert (existsb (text_eqb (path_text p)) (FORBIDDEN_FUNCTIONS ++ BUILTIN_FUNCTION) = true) as K; [|congruence]. apply existsb_exists.
          exists (path_text p). split; [|apply text_eqb_eq; reflexivity]. unfold FORBIDDEN_FUNCTIONS, BUILTIN_FUNCTION, o_slash.
          unfold undeclared in H. rewrite in_app_iff in H. rewrite !in_app_iff. cbn [map In] in *. tauto. }
        cbn [orb] in F. destruct (op_def o) as [def assoc|vars body]; [|inversion F; reflexivity]. cbn [orb] in F.
        destruct (op_poly o); [left; split; [reflexivity|]; inversion F; reflexivity|]. right. right. split; [reflexivity|]. split; [exact Hn|].
        cbn [map] in F. apply F2_one in F. destruct F as (y & -> & H).
        apply at_bind in H. destruct H as (v & Hv & H). apply at_declare in Hv. destruct Hv as (ins & l & s & Hi & Fl & Hs & ->).
        apply at_pure in H. subst. exists ins, l, s. split; [exact Hi|]. split; [exact Fl|]. split; [eapply at_type; exact Hs|reflexivity].
  Qed.
  Definition term_at k (t : jterm) (b : aterm) : Prop := at_ k (conv t) b.
  Lemma at_let k p args body v : at_ k (convert_let wide table d p args body) v -> let_item wide table d (term_at k) p args body [v].
  Proof.
    intros H. apply at_args in H. destruct H as (args' & F & H). apply at_bind in H. destruct H as (b & Hb & H). apply at_pure in H. subst.
    exists args', b. split; [|split; [exact Hb|reflexivity]]. eapply F2_impl; [|exact F]. intros x y Hxy. eapply at_var. exact Hxy.
  Qed.
  Lemma macros_items k m : Forall2 (at_ k) (mk_macros wide table shuffle d) m -> exists G K, m = G ++ K /\
    section (global_item wide table d (term_at k)) (shuffle _ (p_macros d)) G /\ section (defined_item wide table d (term_at k)) (shuffle _ (p_operators d)) K.
  Proof.
    unfold mk_macros. intros F. apply Forall2_app_inv_l in F. destruct F as (G & K & F1 & F2 & ->). exists G, K. split; [reflexivity|]. split.
    - apply section_flat in F1. eapply section_mono; [|exact F1]. clear. intros [p x] ys _ F. unfold global_item. cbn [fst snd] in *.
      destruct x as [| | |ins indices ts body]; try (inversion F; reflexivity). apply F2_one in F. destruct F as (y & -> & H).
      apply at_let in H. cbn [macro_inputs] in H. rewrite filter_dummy in H. exact H.
    - apply section_flat in F2. eapply section_mono; [|exact F2]. clear. intros [p o] ys _ F. unfold defined_item. cbn [fst snd] in *.
      destruct (op_def o) as [|vars body]; [inversion F; reflexivity|]. apply F2_one in F. destruct F as (y & -> & H). apply at_let in H. exact H.
  Qed.

  Notation prepare := (prepare_term wide csort (names d) (operators d) (macros d) (by_position shuffle d) (Any tt)).
  Definition input_of (c : action) : jterm :=
    JMacro (mkPath [] (str "input")) [] (JAction (a_name c) (map JVar (flat_map (fun i => snd (i_par i) ++ snd (i_sum i)) (a_action c)))).
  Lemma lets_snoc l x b : lets (l ++ [x]) b = lets l (ALet (fst x) (snd x) b).
  Proof. induction l as [|[y e] l IH]; cbn; [destruct x; reflexivity|]. rewrite IH. reflexivity. Qed.
  Lemma at_inputs k a vs : forall i acc b,
    at_ k (bind_inputs wide csort (names d) (operators d) (macros d) (by_position shuffle d) (Any tt) a i vs acc) b ->
    exists ds body, aget acc k = Some body /\ b = lets (rev ds) body /\ Forall2 (fun v e => binds v (fst e)) vs ds /\
      forall j e, nth_error ds j = Some e -> exists c, by_position shuffle d (firstn (i + j) (a_action a)) = Some c /\
        i + j <= List.length (a_action a) /\ term_at k (input_of c) (snd e).
  Proof.
    induction vs as [|v vs IH]; intros i acc b H.
    - destruct H as (y & [= <-] & Hb). exists [], b. repeat split; auto. intros [|j] e Hj; discriminate.
    - cbn [bind_inputs] in H. destruct H as (y & E & Hb).
      destruct (bind_input _ _ _ _ _ _ _ a i v acc) as [acc'| | |] eqn:Ei; try discriminate. cbn [andthen] in E.
      destruct (IH (S i) acc' b (ex_intro _ y (conj E Hb))) as (ds & body' & Ha & -> & F & K).
      unfold bind_input in Ei. destruct (Nat.ltb (List.length (a_action a)) i) eqn:El; [discriminate|]. apply Nat.ltb_ge in El.
      destruct (by_position shuffle d (firstn i (a_action a))) as [c|] eqn:Ec; [|discriminate].
      assert (A : at_ k (OOk acc') body') by (eexists; eauto). rewrite <- Ei in A.
      apply at_bind in A. destruct A as (body & (y' & [= <-] & Hbody) & A). apply at_bind in A. destruct A as (e & He & A).
      apply at_bind in A. destruct A as (s & Hs & A). apply at_pure in A. subst body'.
      exists ((var_text wide v, s, e) :: ds), body. split; [exact Hbody|]. split; [cbn [rev]; rewrite lets_snoc; reflexivity|]. split.
      + constructor; [|exact F]. split; [reflexivity|]. cbn [fst snd]. apply at_sort in Hs. exact Hs.
      + intros [|j] e' Hj.
        * injection Hj as <-. exists c. rewrite Nat.add_0_r. auto.
        * destruct (K j e' Hj) as (c' & K'). rewrite Nat.add_succ_r. exists c'. exact K'.
  Qed.

  Lemma first_global_spec l : match first_global d l with
    | Some m => exists l1 p l2 a, l = l1 ++ p :: l2 /\ (forall q m', In q l1 -> ~ last_entry (d_macros d) q m') /\ last_entry (d_macros d) p a /\ m = macro_kind a
    | None => forall q m', In q l -> ~ last_entry (d_macros d) q m' end.
  Proof.
    unfold first_global. induction l as [|p l IH]; cbn [flat_map]; [intros q m' []|].
    destruct (macros d p) as [m|] eqn:E; cbn [app hd_error].
    - apply macros_spec in E. destruct E as (a & Ha & ->). exists [], p, l, a. repeat split; auto.
    - assert (N : forall m', ~ last_entry (d_macros d) p m').
      { intros m' H. assert (macros d p = Some (macro_kind m')) by (apply macros_spec; eauto). congruence. }
      destruct (hd_error _) as [m|].
      + destruct IH as (l1 & q & l2 & a & -> & H1 & H2 & H3). exists (p :: l1), q, l2, a. repeat split; auto.
        intros q' m' [<-|Hq]; [apply N|apply H1; exact Hq].
      + intros q m' [<-|Hq]; [apply N|apply IH; exact Hq].
  Qed.
  Lemma at_prepare k x t b : at_ k (prepare (x_action x) t (first_global d (x_globals x))) b -> prepared wide table d (term_at k) x t b.
  Proof.
    intros H. apply at_bind in H. destruct H as (t' & Ht & H). apply at_inputs in H. destruct H as (ds & body & [= <-] & -> & F & K).
    pose proof (first_global_spec (x_globals x)) as G. exists (match first_global d (x_globals x) with Some m => macro_inputs m | None => [] end), ds, t'.
    split.
    - destruct (first_global d (x_globals x)) as [m|]; [left|right; auto]. destruct G as (l1 & p & l2 & a & E & H1 & H2 & ->). exists l1, p, l2, a.
      repeat split; auto. destruct a; try reflexivity. cbn [macro_kind macro_inputs]. apply filter_dummy.
    - split; [exact Ht|]. split; [reflexivity|]. split; [exact F|]. intros j e Hj. destruct (K j e Hj) as (c & Hc & Hl & He). cbn [Nat.add] in Hc, Hl.
      apply position_spec in Hc. destruct Hc as (x' & <- & Ea & La). exists x'. auto.
  Qed.

  Lemma at_update k a u g : at_ k (convert_update wide table d a u) g -> assigns wide table d (term_at k) (a_indices a) u g.
  Proof.
    intros (y & E & H). unfold convert_update in E. destruct (mapR (typed_var wide csort) _) as [fresh'| | |] eqn:Ef; try discriminate. cbn [andthen] in E.
    destruct (mapR conv (u_args u)) as [args'| | |] eqn:Ea; try discriminate. cbn [andthen] in E.
    assert (A : at_ k (transposed args' (fun args => transposed fresh' (fun fresh => rbind (conv (u_body u)) (fun b =>
      rpure (mkAssign (macro_text wide (u_symb u)) args (match fresh with [] => None | _ => Some fresh end) b))))) g) by (eexists; eauto).
    apply at_transposed in A. destruct A as (args & Fa & A). apply at_transposed in A. destruct A as (fresh & Ff & A).
    apply at_bind in A. destruct A as (b & Hb & A). apply at_pure in A. subst g. unfold assigns. cbn [g_cell g_args g_term g_fresh].
    split; [reflexivity|]. split; [eapply mapR_at; eassumption|]. split; [exact Hb|].
    exists (filter (fun v => negb (existsb (jvar_eqb v) (a_indices a))) (flat_map term_vars (u_args u))), fresh. split; [|split; [|split]].
    - intros v. rewrite filter_In, in_flat_map, negb_true_iff. split.
      + intros ((t & Ht & Hv) & N). split; [exists t; split; [exact Ht|apply term_vars_occurs; exact Hv]|]. intros Hi.
        assert (existsb (jvar_eqb v) (a_indices a) = true); [|congruence]. apply existsb_exists. exists v. split; [exact Hi|apply jvar_eqb_eq; reflexivity].
      + intros ((t & Ht & Hv) & N). split; [exists t; split; [exact Ht|apply term_vars_occurs; exact Hv]|].
        destruct (existsb (jvar_eqb v) (a_indices a)) eqn:Ex; [|reflexivity]. apply existsb_exists in Ex. destruct Ex as (w & Hw & Ew).
        apply jvar_eqb_eq in Ew. subst w. contradiction.
    - eapply F2_impl; [|eapply mapR_at; eassumption]. intros v b' Hv. eapply at_var. exact Hv.
    - intros En. destruct fresh as [|? ?]; [|discriminate]. inversion Ff; subst. apply mapR_ok in Ef. inversion Ef. reflexivity.
    - intros l El. destruct fresh as [|? ?]; [discriminate|]. congruence.
  Qed.
  Lemma steps_items k m : Forall2 (at_ k) (mk_steps wide table shuffle d) m -> section (step_item wide table d (term_at k)) (shuffle _ (p_actions d)) m.
  Proof.
    intros F. apply section_map in F. eapply section_mono; [|exact F]. intros [p x] ys _ (y & -> & (z & E & H)). unfold step_item. cbn [fst snd] in *.
    unfold convert_action in E.
    destruct (mapR (typed_var wide csort) _) as [args'| | |] eqn:Ea; try discriminate. cbn [andthen] in E.
    destruct (mapR (convert_update wide table d (x_action x)) _) as [ups'| | |] eqn:Eu; try discriminate. cbn [andthen] in E.
    destruct (x_cond_vars x) as [|]; [|discriminate]. split; [reflexivity|].
    match type of E with ?r = _ => assert (A : at_ k r y) by (eexists; eauto) end.
    apply at_bind in A. destruct A as (message & Hm & A). apply at_bind in A. destruct A as (cond & Hc & A).
    apply at_transposed in A. destruct A as (ups & Fu & A). apply at_transposed in A. destruct A as (args & Fa & A). apply at_pure in A. subst y.
    exists args, cond, message, ups. split; [eapply F2_impl; [|eapply mapR_at; eassumption]; intros v b' Hv; eapply at_var; exact Hv|].
    split; [apply at_prepare; exact Hc|]. split; [apply at_prepare; exact Hm|].
    split; [eapply F2_impl; [|eapply mapR_at; eassumption]; intros u g Hg; apply at_update; exact Hg|]. reflexivity.
  Qed.

  Definition order_item (c : action * action) (l : list ditem) : Prop :=
    (pair_lemma wide csort fuel (fst c) (snd c) = OOk None /\ l = []) \/
    exists o, pair_lemma wide csort fuel (fst c) (snd c) = OOk (Some o) /\ l = [DOrder o].
  Lemma orders_items k m : Forall2 (at_ k) (mk_orders wide table shuffle fuel d) m -> exists cs,
    couples (filter (fun a => if list_eq_dec ascii_dec (path_text (a_name a)) (str "init") then false else true)
      (map (fun e => x_action (snd e)) (shuffle _ (p_actions d)))) cs /\ section order_item cs m.
  Proof.
    intros F. eexists. split; [apply couples_all|]. apply section_flat in F.
    assert (E : filter (fun a => negb (is_init a)) (map (fun x => x_action (snd x)) (shuffle _ (p_actions d))) =
      filter (fun a => if list_eq_dec ascii_dec (path_text (a_name a)) (str "init") then false else true) (map (fun e => x_action (snd e)) (shuffle _ (p_actions d)))).
    { apply filter_ext. intros a. unfold is_init, text_eqb. destruct (list_eq_dec _ _ _); reflexivity. }
    rewrite <- E. eapply section_mono; [|exact F]. clear. intros [a b] ys _ F. unfold order_item. cbn [fst snd] in *.
    destruct (pair_lemma wide csort fuel a b) as [[o|]| | |]; try (apply F2_one in F; destruct F as (y & -> & (z & Hz & _)); discriminate).
    - apply F2_one in F. destruct F as (y & -> & H). apply at_pure in H. subst. right. eauto.
    - left. split; [reflexivity|]. inversion F. reflexivity.
  Qed.
  Lemma crypto_items k m : Forall2 (at_ k) (assert_crypto wide shuffle d) m -> exists P,
    section (crypto_item wide) (shuffle _ (p_operators d)) P /\
    m = [DCrypto (str "nonce") [] []; DCrypto (str "memory_cell") [] []; DCrypto (str "unfolding") [] []] ++ P.
  Proof.
    unfold assert_crypto. intros F. apply Forall2_app_inv_l in F. destruct F as (L & P & F1 & F2 & ->). exists P. split.
    - rewrite map_flat_map in F2. apply section_flat in F2. eapply section_mono; [|exact F2]. clear. intros [p o] ys _ F. unfold crypto_item. cbn [fst snd] in *.
      destruct (op_def o) as [df assoc|vars body]; [|inversion F; reflexivity]. destruct df; cbn [assert_operator] in F.
      + cbn [assert_euf map andthen app] in F. inversion F as [|? y ? r H F']; subst. apply F2_one in F'. destruct F' as (z & -> & H').
        apply at_pure in H. apply at_pure in H'. subst. reflexivity.
      + destruct assoc as [|dec l]; [apply F2_one in F; destruct F as (y & -> & (z & Hz & _)); discriminate|].
        apply F2_one in F. destruct F as (y & -> & H). apply at_pure in H. subst. exists dec, l. split; reflexivity.
      + destruct assoc as [|sign l]; [apply F2_one in F; destruct F as (y & -> & (z & Hz & _)); discriminate|].
        apply F2_one in F. destruct F as (y & -> & H). apply at_pure in H. subst. exists sign, l. split; [reflexivity|]. destruct l; reflexivity.
      + inversion F. reflexivity.
    - f_equal. cbn [map] in F1. inversion F1 as [|? y1 ? r1 H1 F1']; subst. inversion F1' as [|? y2 ? r2 H2 F2']; subst. apply F2_one in F2'.
      destruct F2' as (y3 & -> & H3). apply at_pure in H1. apply at_pure in H2. apply at_pure in H3. subst. reflexivity.
  Qed.
  Lemma assertions_items k m : Forall2 (at_ k) mk_assertions m -> m = map DAssert [projection n_fst "x"; projection n_snd "y"].
  Proof.
    intros F. inversion F as [|? y1 ? r1 H1 F1']; subst. apply F2_one in F1'. destruct F1' as (y2 & -> & H2).
    apply at_pure in H1. apply at_pure in H2. subst. reflexivity.
  Qed.

  Lemma dump_split k x l : convert_dump wide table shuffle fuel d = OOk x -> aget x k = Some l ->
    exists T C F G S O P q, Forall2 (at_ k) (mk_types wide shuffle d) T /\ Forall2 (at_ k) (mk_cells wide table shuffle d) C /\
      Forall2 (at_ k) (mk_funs wide table shuffle d) F /\ Forall2 (at_ k) (mk_macros wide table shuffle d) G /\
      Forall2 (at_ k) (mk_steps wide table shuffle d) S /\ Forall2 (at_ k) (mk_orders wide table shuffle fuel d) O /\
      Forall2 (at_ k) (assert_crypto wide shuffle d) P /\ at_ k (query_item wide table d) q /\
      l = T ++ C ++ F ++ G ++ map DAssert [projection n_fst "x"; projection n_snd "y"] ++ S ++ O ++ P ++ [q].
  Proof.
    intros E H. unfold convert_dump in E. destruct (mapR _ _) as [all| | |] eqn:Ea; try discriminate. cbn [andthen] in E.
    assert (A : at_ k (transposed all rpure) l) by (eexists; eauto). apply at_transposed in A. destruct A as (l' & Fl & A). apply at_pure in A. subst l'.
    pose proof (mapR_at _ _ _ _ _ Ea Fl) as F0. clear - F0.
    repeat match goal with
    | F0 : Forall2 _ (_ ++ _) _ |- _ => apply Forall2_app_inv_l in F0; let a := fresh "a" in let b := fresh "b" in let H := fresh "H" in
        destruct F0 as (a & b & H & F0 & ->)
    end.
    apply F2_one in F0. destruct F0 as (q & -> & Hq).
    match goal with H : Forall2 _ mk_assertions _ |- _ => apply assertions_items in H; subst end.
    eexists _, _, _, _, _, _, _, _. repeat (split; [eassumption|]). reflexivity.
  Qed.
End Parts.
