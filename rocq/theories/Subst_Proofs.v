From Coq Require Import List Arith Bool Lia.
From Verif Require Import Syntax_Model Syntax_Proofs Traversal_Model Traversal_Spec Traversal_Proofs
  Semantics_Spec Semantics_Proofs Subst_Model Subst_Spec.
Import ListNotations.

Lemma sapply_fun s g args :
  sapply s (FFun g args) = match mapM (sapply s) args with None => None | Some l => Some (FFun g l) end.
Proof.
  cbn. match goal with |- match ?A with _ => _ end = _ => assert (A = mapM (sapply s) args) as -> end; [|reflexivity].
  induction args as [|a l IH]; cbn; [reflexivity|]. rewrite IH. reflexivity.
Qed.

Lemma rmap_fun h g args :
  rmap h (FFun g args) = match mapM (rmap h) args with None => None | Some l => h (FFun g l) end.
Proof.
  cbn. match goal with |- match ?A with _ => _ end = _ => assert (A = mapM (rmap h) args) as -> end; [|reflexivity].
  induction args as [|a l IH]; cbn; [reflexivity|]. rewrite IH. reflexivity.
Qed.

Lemma mapM_Forall2 {A B} (f : A -> option B) l l' :
  mapM f l = Some l' <-> Forall2 (fun a b => f a = Some b) l l'.
Proof.
  revert l'. induction l as [|a l IH]; intros l'; cbn.
  - split; [intros [= <-]; constructor|inversion 1; reflexivity].
  - split.
    + destruct (f a) as [b|] eqn:E; [|discriminate]. destruct (mapM f l) as [bs|] eqn:E2; [|discriminate].
      intros [= <-]. constructor; [auto|]. apply IH. reflexivity.
    + inversion 1; subst. rewrite H2. apply IH in H4. rewrite H4. reflexivity.
Qed.

Lemma mapM_ext {A B} (f g : A -> option B) l : (forall a, In a l -> f a = g a) -> mapM f l = mapM g l.
Proof.
  induction l as [|a l IH]; intros H; cbn; [reflexivity|].
  rewrite (H a) by (cbn; auto). rewrite IH by (intros; apply H; cbn; auto). reflexivity.
Qed.

Lemma mapM_total {A B} (f : A -> option B) l : (forall a, In a l -> f a <> None) -> mapM f l <> None.
Proof.
  induction l as [|a l IH]; intros H; cbn; [discriminate|].
  destruct (f a) eqn:E; [|exfalso; apply (H a); cbn; auto].
  destruct (mapM f l) eqn:E2; [discriminate|]. exfalso. apply IH; auto. intros; apply H; cbn; auto.
Qed.

(** ** C04 *)
Lemma chain_apply : forall f a b,
    sapply (chain a b) f = match sapply a f with None => None | Some g => sapply b g end.
Proof.
  induction f as [v|g args IH|q vs body IH] using formula_ind'; intros a b.
  - reflexivity.
  - rewrite !sapply_fun.
    assert (E : mapM (sapply (chain a b)) args =
                match mapM (sapply a) args with None => None | Some l => mapM (sapply b) l end).
    { induction IH as [|x l Hx _ IHl]; cbn; [reflexivity|].
      rewrite Hx. destruct (sapply a x) as [y|]; [|reflexivity].
      rewrite IHl. destruct (mapM (sapply a) l) as [ys|]; cbn.
      - reflexivity.
      - destruct (sapply b y); reflexivity. }
    rewrite E. destruct (mapM (sapply a) args); [rewrite sapply_fun|]; reflexivity.
  - cbn. rewrite IH. destruct (sapply a body); reflexivity.
Qed.

Lemma occurs_fun v s args a : In a args -> occurs v a -> occurs v (FFun s args).
Proof.
  intros Ha (p & Hp). apply In_nth_error in Ha as (k & Hk). exists (k :: p). econstructor; eauto.
Qed.
Lemma occurs_quant v q vs b : occurs v b -> occurs v (FQ q vs b).
Proof. intros (p & Hp). exists (0 :: p). constructor; auto. Qed.
Lemma occurs_fun_inv v s args : occurs v (FFun s args) -> exists a, In a args /\ occurs v a.
Proof. intros (p & Hp). inversion Hp; subst. exists a. split; [eapply nth_error_In; eauto|exists p0; auto]. Qed.
Lemma occurs_quant_inv v q vs b : occurs v (FQ q vs b) -> occurs v b.
Proof. intros (p & Hp). inversion Hp; subst. eexists; eauto. Qed.
Lemma occurs_var v : occurs v (FVar v).
Proof. exists []. constructor. Qed.
Lemma occurs_var_inv v w : occurs v (FVar w) -> v = w.
Proof. intros (p & Hp). inversion Hp; auto. Qed.

Lemma sapply_ext : forall f s s', (forall v, occurs v f -> s v = s' v) -> sapply s f = sapply s' f.
Proof.
  induction f as [v|g args IH|q vs body IH] using formula_ind'; intros s s' H.
  - apply H, occurs_var.
  - rewrite !sapply_fun. rewrite (mapM_ext (sapply s) (sapply s')); [reflexivity|].
    rewrite Forall_forall in IH. intros a Ha. apply IH; auto. intros v Hv. apply H. eapply occurs_fun; eauto.
  - cbn. rewrite (IH s s'); [reflexivity|]. intros v Hv. apply H, occurs_quant, Hv.
Qed.

Lemma sapply_id : forall f s, (forall v, occurs v f -> s v = Some (FVar v)) -> sapply s f = Some f.
Proof.
  intros f s H. rewrite (sapply_ext f s (fun v => Some (FVar v))) by exact H. clear.
  induction f as [v|g args IH|q vs body IH] using formula_ind'.
  - reflexivity.
  - rewrite sapply_fun. assert (mapM (sapply (fun v => Some (FVar v))) args = Some args) as ->; [|reflexivity].
    apply mapM_Forall2. induction IH; constructor; auto.
  - cbn. rewrite IH. reflexivity.
Qed.

Lemma sapply_total : forall f s, (forall v, occurs v f -> s v <> None) -> exists g, sapply s f = Some g.
Proof.
  intros f s H. destruct (sapply s f) as [g|] eqn:E; [eauto|exfalso]. revert s H E.
  induction f as [v|g args IH|q vs body IH] using formula_ind'; intros s H E.
  - apply (H v); [apply occurs_var|exact E].
  - rewrite sapply_fun in E. destruct (mapM (sapply s) args) eqn:E2; [discriminate|].
    apply mapM_total in E2; auto. rewrite Forall_forall in IH. intros a Ha E3.
    apply (IH a Ha s); auto. intros v Hv. apply H. eapply occurs_fun; eauto.
  - cbn in E. destruct (sapply s body) eqn:E2; [discriminate|]. eapply IH; [|exact E2].
    intros v Hv. apply H, occurs_quant, Hv.
Qed.

Lemma sapply_replaces : forall f s g, sapply s f = Some g <-> replaces (fun v t => s v = Some t) f g.
Proof.
  induction f as [v|h args IH|q vs body IH] using formula_ind'; intros s g.
  - split; [intros H; constructor; exact H|inversion 1; auto].
  - rewrite sapply_fun. split.
    + destruct (mapM (sapply s) args) as [l|] eqn:E; [|discriminate]. intros [= <-]. constructor.
      apply mapM_Forall2 in E. clear -IH E. induction E as [|a b l1 l2 Hab _ IHl]; constructor; inversion IH; subst; auto.
      apply H1; auto.
    + inversion 1; subst. assert (mapM (sapply s) args = Some args') as ->; [|reflexivity].
      apply mapM_Forall2. clear -IH H3. induction H3 as [|a b l1 l2 Hab _ IHl]; constructor; inversion IH; subst; auto.
      apply H1; auto.
  - cbn. split.
    + destruct (sapply s body) eqn:E; [|discriminate]. intros [= <-]. constructor. apply IH; auto.
    + inversion 1; subst. apply IH in H4. rewrite H4. reflexivity.
Qed.

Lemma translate_zero f : translate_vars 0 f = Some f.
Proof. apply sapply_id. intros [i s] _. unfold translate; cbn. rewrite Nat.add_0_r. reflexivity. Qed.

Lemma translate_add f i j :
  match translate_vars i f with None => None | Some g => translate_vars j g end = translate_vars (i + j) f.
Proof.
  unfold translate_vars. rewrite <- chain_apply. apply sapply_ext. intros v _.
  unfold chain, translate; cbn. rewrite Nat.add_assoc. reflexivity.
Qed.

Lemma translate_total f i : exists g, translate_vars i f = Some g.
Proof. apply sapply_total. intros; discriminate. Qed.

(** ** C05 *)
Lemma maybe_get_first l v t :
  (match maybe_get l (vid v) with Some t => Some t | None => Some (FVar v) end = Some t) <-> first_listed l v t.
Proof.
  unfold first_listed. induction l as [|[i u] l IH]; cbn.
  - split.
    + intros [= <-]. right. auto.
    + intros [(l1 & l2 & E & _)|[_ ->]]; [destruct l1; discriminate|reflexivity].
  - destruct (Nat.eqb_spec i (vid v)) as [->|Hne].
    + split.
      * intros [= <-]. left. exists [], l. auto.
      * intros [(l1 & l2 & E & Hn)|[Hn _]]; [|exfalso; auto].
        destruct l1 as [|[j w] l1]; cbn in E; injection E; intros; subst; [reflexivity|].
        exfalso. apply Hn. cbn; auto.
    + rewrite IH. split.
      * intros [(l1 & l2 & -> & Hn)|[Hn ->]].
        -- left. exists ((i, u) :: l1), l2. split; [reflexivity|]. cbn. intros [?|?]; auto.
        -- right. split; [intros [?|?]; auto|reflexivity].
      * intros [(l1 & l2 & E & Hn)|[Hn ->]].
        -- destruct l1 as [|[j w] l1]; cbn in E; injection E; intros; subst; [congruence|].
           left. exists l1, l2. split; [reflexivity|]. intros Hin; apply Hn; cbn; auto.
        -- right. split; auto.
Qed.

Lemma multiple_spec l v t : multiple l v = Some t <-> first_listed l v t.
Proof. apply maybe_get_first. Qed.

Lemma find_maybe_get {T} (l : list (nat * T)) i :
  match find (fun o => Nat.eqb (fst o) i) l with Some o => Some (snd o) | None => None end = maybe_get l i.
Proof. induction l as [|[j u] l IH]; cbn; [reflexivity|]. destruct (Nat.eqb j i); auto. Qed.

Lemma find_fst {T} (l : list (nat * T)) i o : find (fun o => Nat.eqb (fst o) i) l = Some o -> fst o = i.
Proof. intros H. apply find_some in H as [_ H]. apply Nat.eqb_eq in H. exact H. Qed.

Lemma frozen_ov_multiple l v : frozen_ov l v = multiple l v.
Proof.
  unfold frozen_ov, multiple. rewrite <- find_maybe_get.
  destruct (find _ l) as [[i t]|] eqn:E; [|reflexivity]. apply find_fst in E; cbn in E; subst.
  unfold one_var; cbn. rewrite Nat.eqb_refl. reflexivity.
Qed.

Lemma frozen_var_multiple l v : frozen_var l v = multiple (map (fun p => (fst p, FVar (snd p))) l) v.
Proof.
  unfold frozen_var, multiple. induction l as [|[i t] l IH]; cbn; [reflexivity|].
  destruct (Nat.eqb i (vid v)); [reflexivity|exact IH].
Qed.

Lemma one_var_multiple i t v : one_var i t v = multiple [(i, t)] v.
Proof. unfold one_var, multiple; cbn. rewrite Nat.eqb_sym. destruct (Nat.eqb i (vid v)); reflexivity. Qed.

Lemma frozen_get_some : forall ids fs v t,
    frozen_get ids fs v = Some t -> multiple (combine ids fs) v = Some t.
Proof.
  unfold multiple. induction ids as [|i ids IH]; intros [|f fs] v t H; cbn in *; try discriminate; auto.
  destruct (Nat.eqb i (vid v)); auto.
Qed.

Lemma frozen_get_eq_len : forall ids fs v,
    length ids = length fs -> frozen_get ids fs v = multiple (combine ids fs) v.
Proof.
  unfold multiple. induction ids as [|i ids IH]; intros [|f fs] v H; cbn in *; try discriminate; auto.
  destruct (Nat.eqb i (vid v)); auto.
Qed.

Lemma position_nth : forall ids fs v t,
    match position (vid v) ids with Some i => nth_error fs i | None => Some (FVar v) end = Some t ->
    multiple (combine ids fs) v = Some t.
Proof.
  unfold multiple. induction ids as [|i ids IH]; intros fs v t H; cbn in *; [exact H|].
  destruct (Nat.eqb i (vid v)) eqn:E.
  - destruct fs as [|f fs]; [discriminate|]. cbn in *. rewrite E. exact H.
  - destruct fs as [|f fs]; cbn.
    + destruct (position (vid v) ids) as [k|]; [destruct k; discriminate|exact H].
    + rewrite E. apply IH. destruct (position (vid v) ids); exact H.
Qed.

Lemma position_nth_total : forall ids fs v,
    length ids <= length fs ->
    match position (vid v) ids with Some i => nth_error fs i | None => Some (FVar v) end <> None.
Proof.
  induction ids as [|i ids IH]; intros fs v H; cbn in *; [discriminate|].
  destruct fs as [|f fs]; cbn in H; [lia|].
  destruct (Nat.eqb i (vid v)); [discriminate|].
  specialize (IH fs v ltac:(lia)). destruct (position (vid v) ids); auto.
Qed.

Lemma rapply_sapply : forall t s, rapply s t = sapply s t.
Proof.
  unfold rapply. induction t as [v|g args IH|q vs b IH] using formula_ind'; intros s.
  - reflexivity.
  - rewrite sapply_fun, rmap_fun.
    rewrite (mapM_ext (rmap _) (sapply s)); [|rewrite Forall_forall in IH; intros; apply IH; auto].
    destruct (mapM (sapply s) args); reflexivity.
  - cbn. rewrite IH. destruct (sapply s b); reflexivity.
Qed.

Lemma replaces_mono (R R' : var -> formula -> Prop) : (forall v t, R v t -> R' v t) -> forall f g, replaces R f g -> replaces R' f g.
Proof.
  intros H. induction f as [v|h args IH|q vs body IH] using formula_ind'; intros g Hg; inversion Hg; subst.
  - constructor; auto.
  - constructor. clear -IH H3 H. induction H3; constructor; inversion IH; subst; auto.
  - constructor; auto.
Qed.

Lemma c05 : forall ids fs t,
    let l := combine ids fs in
    (forall g, apply_substitution ids fs t = Some g -> replaces (first_listed l) t g) /\
    (forall g, sapply (frozen ids fs) t = Some g -> replaces (first_listed l) t g) /\
    (forall g, sapply (multiple l) t = Some g <-> replaces (first_listed l) t g) /\
    (forall g, sapply (frozen_ov l) t = Some g <-> replaces (first_listed l) t g) /\
    (exists g, sapply (multiple l) t = Some g) /\
    (length ids = length fs ->
       apply_substitution ids fs t = sapply (multiple l) t /\ sapply (frozen ids fs) t = sapply (multiple l) t).
Proof.
  intros ids fs t l.
  assert (Hm : forall g, sapply (multiple l) t = Some g <-> replaces (first_listed l) t g).
  { intros g. rewrite sapply_replaces. split; apply replaces_mono; intros; apply multiple_spec; auto. }
  assert (Hex : exists g, sapply (multiple l) t = Some g).
  { apply sapply_total. intros v _. unfold multiple. destruct (maybe_get l (vid v)); discriminate. }
  assert (H1 : forall g, apply_substitution ids fs t = Some g -> replaces (first_listed l) t g).
  { intros g H. unfold apply_substitution in H. rewrite rapply_sapply, sapply_replaces in H.
    revert H. apply replaces_mono. intros v u Hu. apply multiple_spec, position_nth, Hu. }
  assert (H2 : forall g, sapply (frozen ids fs) t = Some g -> replaces (first_listed l) t g).
  { intros g H. rewrite sapply_replaces in H.
    revert H. apply replaces_mono. intros v u Hu. apply multiple_spec, frozen_get_some, Hu. }
  split; [exact H1|split; [exact H2|split; [exact Hm|split; [|split; [exact Hex|]]]]].
  - intros g. rewrite <- Hm. rewrite (sapply_ext t (frozen_ov l) (multiple l)); [reflexivity|].
    intros; apply frozen_ov_multiple.
  - intros Hlen. split.
    + unfold apply_substitution. rewrite rapply_sapply. apply sapply_ext. intros v _.
      destruct (match position (vid v) ids with Some i => nth_error fs i | None => Some (FVar v) end) eqn:E.
      * symmetry. apply position_nth. exact E.
      * exfalso. revert E. apply position_nth_total. lia.
    + apply sapply_ext. intros v _. apply frozen_get_eq_len, Hlen.
Qed.

Lemma c05_one : forall i t f g, sapply (one_var i t) f = Some g <-> replaces (first_listed [(i, t)]) f g.
Proof.
  intros. rewrite (sapply_ext f (one_var i t) (multiple [(i, t)])) by (intros; apply one_var_multiple).
  rewrite sapply_replaces. split; apply replaces_mono; intros; apply multiple_spec; auto.
Qed.

Lemma c05_vars : forall l f g,
    sapply (frozen_var l) f = Some g <-> replaces (first_listed (map (fun p => (fst p, FVar (snd p))) l)) f g.
Proof.
  intros. rewrite (sapply_ext f (frozen_var l) (multiple (map (fun p => (fst p, FVar (snd p))) l)))
    by (intros; apply frozen_var_multiple).
  rewrite sapply_replaces. split; apply replaces_mono; intros; apply multiple_spec; auto.
Qed.

(** [replaces first_listed] determines its result. *)
Lemma first_listed_fun l v t t' : first_listed l v t -> first_listed l v t' -> t = t'.
Proof. intros H H'. apply multiple_spec in H, H'. congruence. Qed.

(** ** C06 *)
Section Meaning.
  Variable M : structure.

  Lemma subst_meaning : forall f s g (rho rho' : env M),
      sapply s f = Some g ->
      no_capture s f ->
      (forall p v t, at_path f p (FVar v) -> ~ binds_above f p (vid v) -> s v = Some t ->
         rho' (vid v) = eval t rho) ->
      eval g rho = eval f rho'.
  Proof.
    induction f as [v|h args IH|q vs b IH] using formula_ind'; intros s g rho rho' Hs Hc Hr.
    - cbn in *. symmetry. eapply Hr with (p := []); [constructor| |exact Hs].
      intros H; inversion H.
    - rewrite sapply_fun in Hs. destruct (mapM (sapply s) args) as [l|] eqn:E; [|discriminate].
      injection Hs as <-. cbn. f_equal. apply mapM_Forall2 in E.
      assert (Hall : forall k a b, nth_error args k = Some a -> nth_error l k = Some b -> eval (M:=M) b rho = eval a rho').
      { intros k a b Ha Hb. rewrite Forall_forall in IH.
        apply (IH a (nth_error_In _ _ Ha) s b rho rho').
        - clear -E Ha Hb. revert k Ha Hb. induction E; intros [|k] Ha Hb; cbn in *; try discriminate.
          + congruence.
          + eauto.
        - intros p v Hp. destruct (Hc (k :: p) v) as [H1 H2]; [econstructor; eauto|]. split.
          + intros Hb'. apply H1. econstructor; eauto.
          + intros Hn t i Ht Hi Hbi. apply (H2 (fun Hb' => Hn ltac:(inversion Hb'; subst; congruence)) t i Ht Hi).
            econstructor; eauto.
        - intros p v t Hp Hn Ht. apply (Hr (k :: p) v t); auto; [econstructor; eauto|].
          intros Hb'. inversion Hb'; subst. apply Hn. congruence. }
      clear -E Hall. induction E as [|a b l1 l2 _ _ IHl]; cbn; [reflexivity|]. f_equal.
      + apply (Hall 0); reflexivity.
      + apply IHl. intros k x y Hx Hy. apply (Hall (S k)); auto.
    - cbn in Hs. destruct (sapply s b) as [b'|] eqn:E; [|discriminate]. injection Hs as <-. cbn. f_equal.
      set (keep := fun (r : env M) => forall i, ~ In i (map vid vs) -> r i = rho i).
      set (keep' := fun (r : env M) => forall i, ~ In i (map vid vs) -> r i = rho' i).
      assert (Hgen : forall ws r r',
        (forall w, In w ws -> In w vs) ->
        keep r -> keep' r' ->
        (forall i, In i (map vid vs) -> ~ In i (map vid ws) -> r i = r' i) ->
        quantify q ws r (fun rho0 => dtest M (eval b' rho0)) = quantify q ws r' (fun rho0 => dtest M (eval b rho0))).
      { induction ws as [|w ws IHw]; intros r r' Hws Hk Hk' Heq; cbn.
        - f_equal. apply (IH s b' r r'); auto.
          + intros p v Hp. destruct (Hc (0 :: p) v) as [H1 H2]; [constructor; auto|]. split.
            * intros Hb. apply H1. apply ba_quant; auto.
            * intros Hn t i Ht Hi.
              destruct (in_dec Nat.eq_dec (vid v) (map vid vs)) as [Hin|Hin].
              -- (* bound by this very quantifier: kept *)
                 apply in_map_iff in Hin as (w & Ew & Hw).
                 rewrite (H1 (ba_here _ _ _ _ _ w Hw Ew)) in Ht. injection Ht as <-.
                 destruct Hi as (p' & v' & Hp' & Ev' & _). inversion Hp'; subst. exact Hn.
              -- intros Hb. apply (H2 ltac:(intros Hb'; inversion Hb'; subst; [apply Hin; apply in_map_iff; eauto|auto]) t i Ht Hi).
                 apply ba_quant; auto.
          + intros p v t Hp Hn Ht.
            destruct (in_dec Nat.eq_dec (vid v) (map vid vs)) as [Hin|Hin].
            * destruct (Hc (0 :: p) v) as [H1 _]; [constructor; auto|].
              pose proof Hin as Hin'. apply in_map_iff in Hin' as (w & Ew & Hw).
              rewrite (H1 (ba_here _ _ _ _ _ w Hw Ew)) in Ht. injection Ht as <-. cbn.
              symmetry. apply Heq; auto.
            * rewrite Hk' by exact Hin.
              assert (Hnb : ~ binds_above (FQ q vs b) (0 :: p) (vid v)).
              { intros Hb'. inversion Hb'; subst; auto. apply Hin. apply in_map_iff; eauto. }
              rewrite (Hr (0 :: p) v t); auto; [|constructor; auto].
              apply eval_agree. intros i Hi. symmetry. apply Hk. intros Hiv.
              destruct (Hc (0 :: p) v) as [_ H2]; [constructor; auto|].
              apply (H2 Hnb t i Ht Hi). apply in_map_iff in Hiv as (w & Ew & Hw). eapply ba_here; eauto.
        - assert (Hd : forall d,
            quantify q ws (upd r (vid w) d) (fun rho0 => dtest M (eval b' rho0)) =
            quantify q ws (upd r' (vid w) d) (fun rho0 => dtest M (eval b rho0))).
          { intros d. assert (Hwin : In (vid w) (map vid vs)) by (apply in_map, Hws; cbn; auto).
            apply IHw.
            - intros x Hx. apply Hws. cbn; auto.
            - intros i Hi. unfold upd. destruct (Nat.eqb_spec i (vid w)); [subst; contradiction|apply Hk; auto].
            - intros i Hi. unfold upd. destruct (Nat.eqb_spec i (vid w)); [subst; contradiction|apply Hk'; auto].
            - intros i Hi Hn. unfold upd. destruct (Nat.eqb_spec i (vid w)); [reflexivity|].
              apply Heq; auto. cbn. intros [?|?]; auto. }
          destruct q; [apply ex_ext|apply all_ext]; intros d _; apply Hd. }
      apply Hgen; auto; try (intros i Hi; reflexivity). intros i Hi Hn. contradiction.
  Qed.
End Meaning.

(** ** C07 *)
Lemma fold_max_ge l : forall a, a <= fold_left Nat.max l a /\ (forall x, In x l -> x <= fold_left Nat.max l a).
Proof.
  induction l as [|b l IH]; intros a; cbn.
  - split; [lia|easy].
  - destruct (IH (Nat.max a b)) as [H1 H2]. split; [lia|]. intros x [<-|Hx]; [lia|auto].
Qed.

Lemma max_var_or_max_gt vs m : m < max_var_or_max vs m /\ forall v, In v vs -> vid v < max_var_or_max vs m.
Proof.
  unfold max_var_or_max, ids_max. destruct (map vid vs) as [|a l] eqn:E.
  - split; [lia|]. intros v Hv. apply (in_map vid) in Hv. rewrite E in Hv. destruct Hv.
  - destruct (fold_max_ge l a) as [H1 H2]. split; [lia|]. intros v Hv. apply (in_map vid) in Hv. rewrite E in Hv.
    destruct Hv as [<-|Hv]; [lia|]. specialize (H2 _ Hv). lia.
Qed.

Lemma used_with_runs fs : exists out,
    Runs used_step tt (rev (map (fun f => Next f tt) fs)) out /\
    (forall v, In v out <-> exists f, In f fs /\ occurs v f).
Proof.
  rewrite <- map_rev.
  assert (H : forall l, exists out, Runs used_step tt (map (fun f => Next f tt) l) out /\
     (forall v, In v out <-> exists f, In f l /\ occurs v f)).
  { induction l as [|f l (out & H1 & H2)]; cbn.
    - exists []. split; [constructor|]. intros v; split; [easy|intros (f & [] & _)].
    - exists (select sel_used (pos [] f) ++ out). split; [apply used_runs, H1|].
      intros v. rewrite in_app_iff, H2.
      destruct (used_vars_run f) as (n & o & Hn & Eo). rewrite <- Eo.
      rewrite (used_vars_in f n o v Hn). unfold occurs. split.
      + intros [H|(g & Hg & H)]; [exists f|exists g]; auto.
      + intros (g & [<-|Hg] & H); [left; auto|right; exists g; auto]. }
  destruct (H (rev fs)) as (out & H1 & H2). exists out. split; [exact H1|].
  intros v. rewrite H2. split; intros (f & Hf & Hv); exists f; (split; [apply in_rev; auto|auto]).
  rewrite rev_involutive; auto.
Qed.

Lemma problem_max_var_fresh fs : exists n m,
    (forall k, n <= k -> problem_max_var k fs = Some m) /\
    (forall f v, In f fs -> occurs v f -> vid v < m).
Proof.
  destruct (used_with_runs fs) as (out & Hr & Hin).
  destruct (Runs_collect _ _ _ _ Hr) as [n Hn].
  exists n, (max_var out). split.
  - intros k Hk. unfold problem_max_var, used_vars_with. rewrite Hn by exact Hk. reflexivity.
  - intros f v Hf Hv. apply max_var_or_max_gt. apply Hin. eauto.
Qed.

Lemma sapply_occurs : forall f s g v, sapply s f = Some g -> occurs v g ->
    exists w t, occurs w f /\ s w = Some t /\ occurs v t.
Proof.
  induction f as [w|h args IH|q vs b IH] using formula_ind'; intros s g v Hs Hv.
  - exists w, g. split; [apply occurs_var|auto].
  - rewrite sapply_fun in Hs. destruct (mapM (sapply s) args) as [l|] eqn:E; [|discriminate]. injection Hs as <-.
    apply mapM_Forall2 in E. apply occurs_fun_inv in Hv as (c & Hc & Hv).
    apply In_nth_error in Hc as (k & Hk).
    assert (exists a, nth_error args k = Some a /\ sapply s a = Some c) as (a & Ha & Hsa).
    { clear -E Hk. revert k Hk. induction E; intros [|k] Hk; cbn in *; try discriminate.
      - injection Hk as <-. eauto.
      - eauto. }
    rewrite Forall_forall in IH. pose proof (nth_error_In _ _ Ha) as Hina.
    destruct (IH a Hina s c v Hsa Hv) as (w & t & H1 & H2 & H3). exists w, t. split; [eapply occurs_fun; eauto|auto].
  - cbn in Hs. destruct (sapply s b) as [b'|] eqn:E; [|discriminate]. injection Hs as <-.
    apply occurs_quant_inv in Hv. destruct (IH s b' v E Hv) as (w & t & H1 & H2 & H3).
    exists w, t. split; [apply occurs_quant; auto|auto].
Qed.

Lemma translate_occurs f i g v : translate_vars i f = Some g -> occurs v g ->
    exists w, occurs w f /\ vid v = vid w + i /\ vsort v = vsort w.
Proof.
  intros H Hv. destruct (sapply_occurs _ _ _ _ H Hv) as (w & t & H1 & H2 & H3).
  injection H2 as <-. apply occurs_var_inv in H3. subst v. exists w. auto.
Qed.

Lemma translate_disjoint fs f : exists n m g,
    (forall k, n <= k -> problem_max_var k fs = Some m) /\
    translate_vars m f = Some g /\
    forall v w h, occurs v g -> In h fs -> occurs w h -> vid v <> vid w.
Proof.
  destruct (problem_max_var_fresh fs) as (n & m & H1 & H2).
  destruct (translate_total f m) as [g Hg]. exists n, m, g. split; [exact H1|split; [exact Hg|]].
  intros v w h Hv Hh Hw. destruct (translate_occurs _ _ _ _ Hg Hv) as (u & _ & E & _).
  specialize (H2 h w Hh Hw). lia.
Qed.

(** ** Expander *)
Section ExpanderProofs.
  Variable tq : nat -> ta_quant.

  Lemma edestruct_plain n f : no_ta_quant f ->
    edestruct tq (S n) (f, []) =
    Some (match f with FVar v => EVar v | FFun _ _ => EFun | FQ _ _ _ => EQuant end,
          map (fun a => (a, [])) (children f)).
  Proof.
    intros H. destruct f as [v|s args|q vs b]; cbn; try reflexivity.
    destruct s; try reflexivity. exfalso. eapply (H []). constructor.
  Qed.

  Lemma no_ta_children f a : no_ta_quant f -> In a (children f) -> no_ta_quant a.
  Proof.
    intros H Ha p k args Hp. destruct f as [v|s l|q vs b]; cbn in Ha.
    - destruct Ha.
    - apply In_nth_error in Ha as (i & Hi). apply (H (i :: p) k args). econstructor; eauto.
    - destruct Ha as [<-|[]]. apply (H (0 :: p) k args). constructor; auto.
  Qed.

  Lemma evars_cons n e rest :
    evars tq (S n) (e :: rest) =
    match edestruct tq (S n) e with
    | None => None
    | Some (h, cs) =>
        match evars tq n (rev cs ++ rest) with
        | None => None
        | Some vs => Some (match h with EVar v => v :: vs | _ => vs end)
        end
    end.
  Proof. reflexivity. Qed.

  Lemma evars_mono_plain : forall n m fs l, Forall no_ta_quant fs ->
      evars tq n (map (fun a => (a, [])) fs) = Some l -> n <= m -> evars tq m (map (fun a => (a, [])) fs) = Some l.
  Proof.
    induction n as [|n IH]; intros m fs l Hf H Hle; [discriminate|]. destruct m as [|m]; [lia|].
    destruct fs as [|f fs]; [exact H|]. cbn [map] in *. rewrite evars_cons in *.
    inversion Hf; subst. rewrite edestruct_plain in * by auto.
    rewrite <- map_rev, <- map_app in *.
    destruct (evars tq n (map (fun a => (a, [])) (rev (children f) ++ fs))) as [vs|] eqn:E; [|discriminate].
    rewrite (IH m _ vs); auto; [|lia].
    apply Forall_app. split; [|auto]. apply Forall_forall. intros a Ha. apply in_rev in Ha.
    eapply no_ta_children; eauto.
  Qed.

  Lemma evars_plain : forall f rest l, no_ta_quant f -> Forall no_ta_quant rest ->
      (exists n, evars tq n (map (fun a => (a, [])) rest) = Some l) ->
      exists n, evars tq n (map (fun a => (a, [])) (f :: rest)) = Some (select sel_used (pos [] f) ++ l).
  Proof.
    intros f. generalize (@nil var) as bv.
    induction f as [v|s args IH|q vs b IH] using formula_ind'; intros bv rest l Hf Hrest (n & Hn).
    - exists (S n). cbn [map]. rewrite evars_cons, edestruct_plain by auto. cbn [children map rev List.app].
      rewrite Hn. reflexivity.
    - assert (Hargs : exists m, evars tq m (map (fun a => (a, [])) (rev args ++ rest)) =
                                  Some (select sel_used (pos bv (FFun s args)) ++ l)).
      { assert (Ha : Forall no_ta_quant args) by (apply Forall_forall; intros a Hina; eapply no_ta_children; eauto).
        rewrite select_fun. cbn [sel_used pform fst snd]. rewrite app_nil_r. generalize 0.
        clear Hf. revert rest l Hrest n Hn. induction IH as [|a l' Hx _ IHl]; intros rest l Hrest n Hn k; [exists n; exact Hn|].
        inversion Ha; subst. rewrite select_poss_cons. cbn [rev]. rewrite <- !app_assoc.
        destruct (Hx bv rest l H1 Hrest (ex_intro _ n Hn)) as (n' & Hn').
        rewrite (select_pcons _ sel_used) by (intros [[??]?] _; reflexivity).
        eapply (IHl H2 (a :: rest) _); [constructor; auto|exact Hn']. }
      destruct Hargs as (m & Hm). exists (S m). cbn [map]. rewrite evars_cons, edestruct_plain by auto.
      cbn [children]. rewrite <- map_rev, <- map_app, Hm. reflexivity.
    - assert (Hb : no_ta_quant b) by (eapply no_ta_children; [exact Hf|cbn; auto]).
      destruct (IH (bv ++ vs) rest l Hb Hrest (ex_intro _ n Hn)) as (m & Hm).
      exists (S m). cbn [map]. rewrite evars_cons, edestruct_plain by auto. cbn [children map rev List.app].
      cbn [map] in Hm. unfold expander in *. rewrite Hm. rewrite select_quant. cbn [sel_used pform fst snd]. rewrite app_nil_r.
      rewrite (select_pcons _ sel_used) by (intros [[??]?] _; reflexivity). reflexivity.
  Qed.

  Lemma vars_iter_plain f : no_ta_quant f -> exists n out,
      (forall m, n <= m -> vars_iter tq m f = Some out) /\ (forall v, In v out <-> occurs v f).
  Proof.
    intros Hf. destruct (evars_plain f [] [] Hf (Forall_nil _)) as (n & Hn).
    { exists 1. reflexivity. }
    rewrite app_nil_r in Hn. exists n, (select sel_used (pos [] f)). split.
    - intros m Hm. apply (evars_mono_plain n m [f]); auto.
    - intros v. destruct (used_vars_run f) as (k & o & Hk & Eo). rewrite <- Eo. apply (used_vars_in f k o v Hk).
  Qed.

  Lemma formulas_max_plain fs max : Forall no_ta_quant fs -> exists n m,
      (forall k, n <= k -> formulas_max_var_or_max tq k fs max = Some m) /\
      max < m /\ (forall f v, In f fs -> occurs v f -> vid v < m).
  Proof.
    intros H.
    assert (Hex : exists n vss, (forall k, n <= k -> mapM (vars_iter tq k) fs = Some vss) /\
              (forall f v, In f fs -> occurs v f -> In v (concat vss))).
    { induction H as [|f fs Hf _ (n & vss & H1 & H2)].
      - exists 0, []. split; [reflexivity|easy].
      - destruct (vars_iter_plain f Hf) as (n' & o & Ho & Hin).
        exists (n + n'), (o :: vss). split.
        + intros k Hk. cbn. rewrite Ho by lia. rewrite H1 by lia. reflexivity.
        + intros g v [<-|Hg] Hv; cbn; apply in_app_iff; [left; apply Hin; auto|right; eauto]. }
    destruct Hex as (n & vss & H1 & H2). exists n, (max_var_or_max (concat vss) max).
    destruct (max_var_or_max_gt (concat vss) max) as [Hg Hv]. split; [|split; [exact Hg|]].
    - intros k Hk. unfold formulas_max_var_or_max. rewrite H1 by exact Hk. reflexivity.
    - intros f v Hf Hv'. apply Hv. eauto.
  Qed.
End ExpanderProofs.

(** The symbolic quantifier [exists y. p(x, y)], with [x] free, applied to [x], as the parser builds it. *)
Definition loop_tq (_ : nat) : ta_quant :=
  mkTaQuant [mkVar 1 SMessage] [mkVar 0 SMessage] [FFun (Fuser 0) [FVar (mkVar 0 SMessage); FVar (mkVar 1 SMessage)]].
Definition loop_formula : formula := FFun (Fquant 0) [FVar (mkVar 0 SMessage)].

Lemma loop_diverges fuel : vars_iter loop_tq fuel loop_formula = None.
Proof.
  unfold vars_iter, loop_formula.
  destruct fuel as [|fuel]; [reflexivity|]. rewrite evars_cons. cbn [edestruct map List.app rev].
  set (sub := combine (tq_free (loop_tq 0)) (tq_contents (loop_tq 0))).
  assert (H : forall n rest, evars loop_tq n ((FVar (mkVar 0 SMessage), sub) :: rest) = None).
  { induction n as [n IH] using lt_wf_ind. intros rest. destruct n as [|n]; [reflexivity|].
    rewrite evars_cons. destruct n as [|n]; [reflexivity|].
    change (edestruct loop_tq (S (S n)) (FVar (mkVar 0 SMessage), sub)) with
      (Some (EFun, [(FVar (mkVar 0 SMessage), sub); (FVar (mkVar 1 SMessage), sub)])).
    cbn [rev List.app]. rewrite evars_cons.
    destruct (edestruct loop_tq (S n) (FVar (mkVar 1 SMessage), sub)) as [[h cs]|] eqn:E; [|reflexivity].
    cbn in E. injection E as <- <-. cbn [rev List.app]. rewrite IH by lia. reflexivity. }
  cbn [List.app]. rewrite H. reflexivity.
Qed.

(** [find y such that true then x else empty], with [x] = variable 7. *)
Definition skip_tq (_ : nat) : ta_quant :=
  mkTaQuant [mkVar 8 SMessage] [mkVar 7 SMessage]
    [FFun (Fta TTrue) []; FVar (mkVar 7 SMessage); FFun (Fuser 3) []].
Definition skip_formula : formula := FFun (Fquant 0) [FVar (mkVar 7 SMessage)].

Lemma skip_not_fresh : forall fuel, 10 <= fuel -> formulas_max_var_or_max skip_tq fuel [skip_formula] 0 = Some 1.
Proof.
  intros fuel H. do 10 (destruct fuel as [|fuel]; [lia|]). reflexivity.
Qed.

(** ** Capture *)
(** exists x1. not (x0 = x1), with x0 replaced by x1. *)
Definition cap_f : formula :=
  FQ QExists [mkVar 1 SMessage] (fnot (meq (FVar (mkVar 0 SMessage)) (FVar (mkVar 1 SMessage)))).
Definition cap_g : formula :=
  FQ QExists [mkVar 1 SMessage] (fnot (meq (FVar (mkVar 1 SMessage)) (FVar (mkVar 1 SMessage)))).
Definition two : structure := finM 1 (fun _ _ => 0).

Lemma capture_changes_meaning : exists (M : structure) (id : nat) (t f g : formula) (rho : env M),
    sapply (one_var id t) f = Some g /\ eval g rho <> eval f (upd rho id (eval t rho)).
Proof.
  exists two, 0, (FVar (mkVar 1 SMessage)), cap_f, cap_g, (fun _ => 0).
  split; [reflexivity|]. vm_compute. discriminate.
Qed.

(** exists x1. x1 = x2, translated by 1: the binder still says x1. *)
Definition tr_f : formula := FQ QExists [mkVar 1 SMessage] (meq (FVar (mkVar 1 SMessage)) (FVar (mkVar 2 SMessage))).

Lemma translate_changes_meaning : exists (M : structure) (f g : formula) (i : nat) (rho rho' : env M),
    translate_vars i f = Some g /\ (forall j, rho (j + i) = rho' j) /\ eval g rho <> eval f rho'.
Proof.
  exists two, tr_f, (FQ QExists [mkVar 1 SMessage] (meq (FVar (mkVar 2 SMessage)) (FVar (mkVar 3 SMessage)))), 1,
    (fun j => if Nat.eqb j 3 then 1 else 0), (fun j => if Nat.eqb j 2 then 1 else 0).
  split; [reflexivity|split].
  - intros j. rewrite Nat.add_1_r. reflexivity.
  - vm_compute. discriminate.
Qed.

Lemma skip_refutes : exists tq f v,
    occurs v f /\ vid v = 7 /\ forall k, 10 <= k -> formulas_max_var_or_max tq k [f] 0 = Some 1.
Proof.
  exists skip_tq, skip_formula, (mkVar 7 SMessage). split; [|split; [reflexivity|exact skip_not_fresh]].
  exists [0]. econstructor; [reflexivity|constructor].
Qed.
