(** Proofs about declarations (C97). *)
From Coq Require Import List Arith Bool Lia.
From Verif Require Import Syntax_Model Syntax_Proofs Sort_Model Order_Model Macro_Model Parser_Model Parser_Spec Source_Model Source_Spec.
Import ListNotations.

(** ** Association lists *)
Lemma lookup_app {A} x (l l' : list (name * A)) : lookup x (l ++ l') = match lookup x l with Some a => Some a | None => lookup x l' end.
Proof. unfold lookup. induction l as [|[y a] l IH]; [reflexivity|]. cbn. destruct (Nat.eqb y x); [reflexivity|exact IH]. Qed.
Lemma lookup_cons {A} x y (a : A) l : lookup x ((y, a) :: l) = if Nat.eqb y x then Some a else lookup x l.
Proof. unfold lookup. cbn. destruct (Nat.eqb y x); reflexivity. Qed.
Lemma lookup_in {A} x (l : list (name * A)) a : lookup x l = Some a -> In (x, a) l.
Proof.
  induction l as [|[y b] l IH]; [discriminate|]. rewrite lookup_cons. destruct (Nat.eqb y x) eqn:E.
  - apply Nat.eqb_eq in E. subst. intros [= ->]. left. reflexivity.
  - intros H. right. auto.
Qed.
Lemma lookup_none {A} x (l : list (name * A)) : lookup x l = None <-> ~ In x (map fst l).
Proof.
  induction l as [|[y b] l IH]; [cbn; tauto|]. rewrite lookup_cons. cbn. destruct (Nat.eqb y x) eqn:E.
  - apply Nat.eqb_eq in E. split; [discriminate|]. intros H. elim H. auto.
  - apply Nat.eqb_neq in E. rewrite IH. tauto.
Qed.
Lemma in_lookup {A} x (l : list (name * A)) a : NoDup (map fst l) -> In (x, a) l -> lookup x l = Some a.
Proof.
  induction l as [|[y b] l IH]; [intros _ []|]. cbn [map fst]. intros N H. inversion N as [|? ? N1 N2]; subst. rewrite lookup_cons. destruct H as [[= -> ->]|H].
  - rewrite Nat.eqb_refl. reflexivity.
  - destruct (Nat.eqb y x) eqn:E; [|auto]. apply Nat.eqb_eq in E. subst y. elim N1. apply in_map_iff. exists (x, a). auto.
Qed.
Lemma lookup_some {A} x (l : list (name * A)) : lookup x l <> None <-> In x (map fst l).
Proof. rewrite lookup_none. destruct (in_dec Nat.eq_dec x (map fst l)); tauto. Qed.
Lemma lookup_map {A B} (f : A -> B) x (l : list (name * A)) : lookup x (map (fun e => (fst e, f (snd e))) l) = option_map f (lookup x l).
Proof. induction l as [|[y b] l IH]; [reflexivity|]. cbn [map fst snd]. rewrite !lookup_cons. destruct (Nat.eqb y x); [reflexivity|exact IH]. Qed.
Lemma mem_in x l : mem x l = true <-> In x l.
Proof. unfold mem. rewrite existsb_exists. split; [intros (y & H & E); apply Nat.eqb_eq in E; subst; exact H|intros H; exists x; split; [exact H|apply Nat.eqb_refl]]. Qed.
Lemma is_some_false {A} (o : option A) : is_some o = false <-> o = None.
Proof. destruct o; cbn; split; congruence. Qed.
Lemma contains_false d x : contains_name d x = false <-> ~ In x (map fst (d_funs d)) /\ ~ In x (d_used d).
Proof.
  unfold contains_name. rewrite orb_false_iff, is_some_false, lookup_none. rewrite <- (mem_in x (d_used d)). destruct (mem x (d_used d)); intuition congruence.
Qed.
Lemma macro_false d x : contains_macro d x = false <-> ~ In x (map fst (d_macros d)) /\ ~ In x (d_used_macros d).
Proof.
  unfold contains_macro. rewrite orb_false_iff, is_some_false, lookup_none. rewrite <- (mem_in x (d_used_macros d)). destruct (mem x (d_used_macros d)); intuition congruence.
Qed.

(** ** Types *)
Fixpoint number (k : nat) (l : list name) : list (name * sort) :=
  match l with [] => [] | x :: l' => (x, SIndex k) :: number (S k) l' end.
Lemma number_names l : forall k, map fst (number k l) = l.
Proof. induction l as [|x l IH]; intros k; [reflexivity|]. cbn. f_equal. apply IH. Qed.
Lemma number_in l : forall k x s, In (x, s) (number k l) -> exists j, s = SIndex j /\ k <= j.
Proof.
  induction l as [|y l IH]; intros k x s H; [destruct H|]. destruct H as [[= <- <-]|H]; [exists k; auto|]. apply IH in H as (j & -> & Hj). exists j. split; [reflexivity|lia].
Qed.
Lemma number_inj l : forall k x y s, In (x, s) (number k l) -> In (y, s) (number k l) -> x = y.
Proof.
  induction l as [|z l IH]; intros k x y s Hx Hy; [destruct Hx|]. destruct Hx as [[= <- <-]|Hx], Hy as [[= <-]|Hy]; auto.
  - apply number_in in Hy as (j & [= <-] & Hj). lia.
  - apply number_in in Hx as (j & -> & Hj). match goal with E : _ = SIndex j |- _ => injection E as <- end. lia.
  - eauto.
Qed.
Definition with_sorts (d : denv) (ss : list (name * sort)) : denv :=
  mkDenv (d_funs d) ss (d_macros d) (d_used d) (d_used_macros d) (d_shadowing d).
Lemma sorts_exact : forall l d,
  (NoDup (types_of l) /\ (forall x, In x (types_of l) -> ~ In x (map fst (d_sorts d))) ->
   declare_sorts d l = DOk (with_sorts d (d_sorts d ++ number (length (d_sorts d)) (types_of l)))) /\
  (forall d', declare_sorts d l = DOk d' -> NoDup (types_of l) /\ forall x, In x (types_of l) -> ~ In x (map fst (d_sorts d))).
Proof.
  induction l as [|i l IH]; intros d.
  { split; [intros _; cbn; rewrite app_nil_r; destruct d; reflexivity|]. intros d' _. split; [constructor|intros x []]. }
  assert (Other : types_of (i :: l) = types_of l -> declare_sorts d (i :: l) = declare_sorts d l ->
    (NoDup (types_of (i :: l)) /\ (forall x, In x (types_of (i :: l)) -> ~ In x (map fst (d_sorts d))) ->
     declare_sorts d (i :: l) = DOk (with_sorts d (d_sorts d ++ number (length (d_sorts d)) (types_of (i :: l))))) /\
    (forall d', declare_sorts d (i :: l) = DOk d' -> NoDup (types_of (i :: l)) /\ forall x, In x (types_of (i :: l)) -> ~ In x (map fst (d_sorts d)))).
  { intros -> ->. apply IH. }
  destruct i; try (apply Other; reflexivity). clear Other. change (types_of (IType n :: l)) with (n :: types_of l). cbn [declare_sorts].
  destruct (IH (add_sort d n (SIndex (length (d_sorts d))))) as [H1 H2]. cbn [add_sort d_sorts] in H1, H2. rewrite app_length, map_app in H1. rewrite map_app in H2. cbn [length map fst] in H1, H2. split.
  - intros [N F]. inversion N as [|? ? N1 N2]; subst. assert (E : lookup n (d_sorts d) = None) by (apply lookup_none; apply F; left; reflexivity). rewrite E. cbn [is_some].
    rewrite H1.
    + f_equal. unfold with_sorts, add_sort. cbn. f_equal. rewrite <- app_assoc. cbn. rewrite Nat.add_comm. reflexivity.
    + split; [exact N2|]. intros x Hx Hin. apply in_app_iff in Hin as [Hin|[<-|[]]]; [|contradiction]. revert Hin. apply F. right. exact Hx.
  - intros d' H. destruct (lookup n (d_sorts d)) eqn:E; [discriminate|]. cbn [is_some] in H. apply H2 in H as [N F]. apply lookup_none in E. split.
    + constructor; [|exact N]. intros Hin. apply (F n Hin). apply in_app_iff. right. left. reflexivity.
    + intros x [<-|Hx]; [exact E|]. intros Hin. apply (F x Hx). apply in_app_iff. left. exact Hin.
Qed.

(** ** Functions, cells, steps, macros *)
Lemma get_sorts_spec d l ss : get_sorts d l = Some ss <-> map (fun x => lookup x (d_sorts d)) l = map Some ss.
Proof.
  revert ss. induction l as [|x l IH]; intros ss; cbn [get_sorts map].
  - destruct ss; split; intros H; try discriminate; reflexivity.
  - destruct (lookup x (d_sorts d)) as [s|]; [|split; [discriminate|destruct ss; discriminate]]. destruct (get_sorts d l) as [ss'|].
    + split; [intros [= <-]; cbn; f_equal; apply IH; reflexivity|]. destruct ss as [|s' ss]; [discriminate|]. cbn. intros [= -> H]. apply IH in H. injection H as ->. reflexivity.
    + split; [discriminate|]. destruct ss as [|s' ss]; [discriminate|]. cbn. intros [= -> H]. apply IH in H. discriminate.
Qed.
Lemma get_sorts_some d l : (exists ss, get_sorts d l = Some ss) <-> forall x, In x l -> In x (map fst (d_sorts d)).
Proof.
  induction l as [|x l IH]; cbn [get_sorts]; [split; [intros _ y []|eauto]|]. split.
  - intros (ss & H) y [<-|Hy].
    + apply lookup_some. destruct (lookup x (d_sorts d)); [discriminate|discriminate H].
    + destruct (lookup x (d_sorts d)); [|discriminate]. destruct (get_sorts d l) as [ss'|] eqn:E; [|discriminate]. apply (proj1 IH); eauto.
  - intros H. assert (Hx : lookup x (d_sorts d) <> None) by (apply lookup_some; apply H; left; reflexivity). destruct (lookup x (d_sorts d)) as [s|]; [|elim Hx; reflexivity].
    destruct (proj2 IH) as (ss & ->); [intros y Hy; apply H; right; exact Hy|]. eauto.
Qed.

(** The entry that an item adds as the [k]-th one. *)
Definition entry_of (d : denv) (k : nat) (i : item) : option (name * entry) :=
  match i with
  | IFun n args out =>
      match lookup out (d_sorts d), get_sorts d args with
      | Some o, Some ss =>
          let o := user_bool_to_condition o in let ss := map user_bool_to_condition ss in
          if sort_eqb o SName then Some (n, EnFun (mkFc (Fname k) (SgFixed ss SName) (Some SMessage) None))
          else if is_term_algebra o then Some (n, EnFun (mkFc (Fuser k) (SgFixed ss o) None None)) else None
      | _, _ => None
      end
  | ICell n args _ => option_map (fun ss => (n, EnCell (mkFc (Fcell k) (SgFixed (ss ++ [SStep]) SMessage) None None) k ss)) (get_sorts d args)
  | IStep a => option_map (fun ss => let st := mkStep (combine (map fst (sa_params a)) ss) (sa_msg a) (sa_cond a) in
                                     (sa_name a, EnStep (mkFc (Fstep k) (SgFixed ss SStep) None (Some st)) st a)) (get_sorts d (map snd (sa_params a)))
  | _ => None
  end.
Definition is_decl (i : item) : bool := match i with IFun _ _ _ | ICell _ _ _ | IStep _ => true | _ => false end.
Definition macro_of (d : denv) (i : item) : option (name * macro_cache) :=
  match i with
  | ILet n params body => option_map (fun ss => (n, mkMac (combine (map fst params) ss) body)) (get_sorts d (map snd params))
  | _ => None
  end.
Definition init_ok (i : item) : bool :=
  match i with IStep a => negb (Nat.eqb (sa_name a) n_init) || Nat.eqb (length (sa_params a)) 0 | _ => true end.
Definition is_query (i : item) : bool := match i with IQuery _ => true | _ => false end.

(** One item, without the case of a second query. *)
Record item_ok (d : denv) (i : item) : Prop := mkItemOk {
  io_names : forall x, In x (names_of [i]) -> contains_name d x = false;
  io_macros : forall x, In x (macros_of [i]) -> contains_macro d x = false;
  io_entry : is_decl i = true -> entry_of d (length (d_funs d)) i <> None;
  io_macro : macros_of [i] <> [] -> macro_of d i <> None;
  io_init : init_ok i = true
}.
Definition opt_list {A} (o : option A) : list A := match o with Some a => [a] | None => [] end.
Definition env_after (d : denv) (i : item) : denv :=
  mkDenv (d_funs d ++ opt_list (entry_of d (length (d_funs d)) i)) (d_sorts d) (d_macros d ++ opt_list (macro_of d i)) (d_used d) (d_used_macros d) (d_shadowing d).
Definition fetched_after (f : fetched) (i : item) : fetched :=
  mkFetched (env_after (ft_env f) i) (ft_asserts f ++ asserts_of [i]) (ft_lemmas f ++ lemmas_of [i]) (ft_orders f ++ orders_of [i]) (ft_crypto f ++ cryptos_of [i])
    (match i, ft_query f with
     | IQuery t, Some None => Some (Some t)
     | IQuery t, _ => None
     | _, q => q
     end)
    (ft_init f || match i with IStep a => Nat.eqb (sa_name a) n_init | _ => false end).

Lemma env_same d : mkDenv (d_funs d ++ []) (d_sorts d) (d_macros d ++ []) (d_used d) (d_used_macros d) (d_shadowing d) = d.
Proof. rewrite !app_nil_r. destruct d; reflexivity. Qed.

Lemma fetch_item_exact f i : ft_query f <> None ->
  (item_ok (ft_env f) i -> fetch_item f i = DOk (fetched_after f i)) /\ (forall f', fetch_item f i = DOk f' -> item_ok (ft_env f) i).
Proof.
  intros Hq. destruct f as [d as_ le or cr q ini]. cbn [ft_query ft_env] in *. destruct q as [q|]; [|congruence]. unfold fetch_item, fetched_after, env_after. cbn [ft_query ft_env ft_asserts ft_lemmas ft_orders ft_crypto ft_init].
  assert (Triv : forall j, names_of [j] = [] -> macros_of [j] = [] -> is_decl j = false -> init_ok j = true -> item_ok d j).
  { intros j E1 E2 E3 E4. split; rewrite ?E1, ?E2, ?E3; try (intros x []); try congruence; try (intros []; reflexivity). }
  destruct i as [n|n args out|n args out|a|n ps body|t|t|t|o|c].
  - split; [intros _; rewrite !app_nil_r, orb_false_r, ?env_same; cbn; rewrite ?app_nil_r; destruct d; reflexivity|]. intros f' _. apply Triv; reflexivity.
  - unfold declare_function, on_env. split.
    + intros [H1 _ H3 _ _]. rewrite (H1 n) by (left; reflexivity). specialize (H3 eq_refl). cbn [entry_of] in H3 |- *. cbn [macro_of opt_list asserts_of lemmas_of orders_of cryptos_of flat_map app].
      destruct (lookup out (d_sorts d)) as [o|]; [|elim H3; reflexivity]. destruct (get_sorts d args) as [ss|]; [|elim H3; reflexivity]. cbv zeta in *.
      destruct (sort_eqb (user_bool_to_condition o) SName); [|destruct (is_term_algebra (user_bool_to_condition o)); [|elim H3; reflexivity]];
        cbn [opt_list]; unfold with_env, add_fun; cbn; rewrite !app_nil_r, orb_false_r; reflexivity.
    + intros f' H. destruct (contains_name d n) eqn:E; [discriminate|]. split; try reflexivity.
      * intros x [<-|[]]. exact E.
      * intros x [].
      * intros _. cbn [entry_of]. destruct (lookup out (d_sorts d)) as [o|]; [|discriminate]. destruct (get_sorts d args) as [ss|]; [|discriminate]. cbv zeta in *.
        destruct (sort_eqb (user_bool_to_condition o) SName); [discriminate|]. destruct (is_term_algebra (user_bool_to_condition o)); [discriminate|discriminate H].
      * intros X. elim X. reflexivity.
  - unfold declare_cell, on_env. split.
    + intros [H1 _ H3 _ _]. rewrite (H1 n) by (left; reflexivity). specialize (H3 eq_refl). cbn [entry_of] in H3 |- *. cbn [macro_of opt_list asserts_of lemmas_of orders_of cryptos_of flat_map app].
      destruct (get_sorts d args) as [ss|]; [|elim H3; reflexivity]. cbn [option_map opt_list]. unfold with_env, add_fun. cbn. rewrite !app_nil_r, orb_false_r. reflexivity.
    + intros f' H. destruct (contains_name d n) eqn:E; [discriminate|]. split; try reflexivity.
      * intros x [<-|[]]. exact E.
      * intros x [].
      * intros _. cbn [entry_of]. destruct (get_sorts d args) as [ss|]; [discriminate|discriminate].
      * intros X. elim X. reflexivity.
  - unfold declare_step. split.
    + intros [H1 _ H3 _ H5]. rewrite (H1 (sa_name a)) by (left; reflexivity). specialize (H3 eq_refl). cbn [entry_of] in H3 |- *. cbn [macro_of opt_list asserts_of lemmas_of orders_of cryptos_of flat_map app].
      destruct (get_sorts d (map snd (sa_params a))) as [ss|]; [|elim H3; reflexivity]. cbn [option_map opt_list]. cbn [init_ok] in H5. unfold with_env, add_fun. cbn. rewrite !app_nil_r.
      destruct (Nat.eqb (sa_name a) n_init); cbn in H5; [rewrite H5, orb_true_r|rewrite orb_false_r]; reflexivity.
    + intros f' H. destruct (contains_name d (sa_name a)) eqn:E; [discriminate|]. destruct (get_sorts d (map snd (sa_params a))) as [ss|] eqn:Eg; [|discriminate]. split.
      * intros x [<-|[]]. exact E.
      * intros x [].
      * intros _. cbn [entry_of]. rewrite Eg. discriminate.
      * intros X. elim X. reflexivity.
      * cbn [init_ok]. destruct (Nat.eqb (sa_name a) n_init); [|reflexivity]. cbn. destruct (Nat.eqb (length (sa_params a)) 0); [reflexivity|discriminate].
  - unfold declare_let, on_env. split.
    + intros [_ H2 _ H4 _]. rewrite (H2 n) by (left; reflexivity). cbn [macro_of] in H4 |- *. cbn [entry_of opt_list asserts_of lemmas_of orders_of cryptos_of flat_map app].
      destruct (get_sorts d (map snd ps)) as [ss|]; [|elim H4; [discriminate|reflexivity]]. cbn [option_map opt_list]. unfold with_env, add_macro. cbn. rewrite !app_nil_r, orb_false_r. reflexivity.
    + intros f' H. destruct (contains_macro d n) eqn:E; [discriminate|]. split; try reflexivity; try discriminate.
      * intros x [].
      * intros x [<-|[]]. exact E.
      * intros _. cbn [macro_of]. destruct (get_sorts d (map snd ps)); [discriminate|discriminate].
  - split; [intros _; cbn; rewrite ?app_nil_r, orb_false_r; destruct d; reflexivity|]. intros f' _. apply Triv; reflexivity.
  - split; [intros _; cbn; rewrite ?app_nil_r, orb_false_r; destruct d; reflexivity|]. intros f' _. apply Triv; reflexivity.
  - split; [intros _; cbn; rewrite ?app_nil_r, orb_false_r; destruct d; destruct q; reflexivity|]. intros f' _. apply Triv; reflexivity.
  - split; [intros _; cbn; rewrite ?app_nil_r, orb_false_r; destruct d; reflexivity|]. intros f' _. apply Triv; reflexivity.
  - split; [intros _; cbn; rewrite ?app_nil_r, orb_false_r; destruct d; reflexivity|]. intros f' _. apply Triv; reflexivity.
Qed.

(** ** All items *)
Fixpoint items_ok (d : denv) (l : list item) : Prop := match l with [] => True | i :: l' => item_ok d i /\ items_ok (env_after d i) l' end.
Definition all_after (f : fetched) (l : list item) : fetched := fold_left fetched_after l f.
Lemma fetch_stuck l : forall f, ft_query f = None -> fetch_items f l = DOk f.
Proof. induction l as [|i l IH]; intros f Hf; [reflexivity|]. cbn. unfold fetch_item. rewrite Hf. apply IH. exact Hf. Qed.
Lemma env_fetched f i : ft_env (fetched_after f i) = env_after (ft_env f) i. Proof. reflexivity. Qed.
Lemma fetch_items_good l : forall f, ft_query f <> None -> items_ok (ft_env f) l -> ft_query (all_after f l) <> None -> fetch_items f l = DOk (all_after f l).
Proof.
  induction l as [|i l IH]; intros f Hf Ho Hq; [reflexivity|]. destruct Ho as [H1 H2]. cbn [fetch_items all_after fold_left] in *.
  rewrite (proj1 (fetch_item_exact f i Hf) H1). apply IH.
  - intros E. apply Hq. clear -E. revert E. generalize (fetched_after f i). induction l as [|j l IH]; intros g E; [exact E|]. apply IH. cbn. rewrite E. destruct j; reflexivity.
  - exact H2.
  - exact Hq.
Qed.
Lemma fetch_items_only l : forall f f', ft_query f <> None -> fetch_items f l = DOk f' -> ft_query f' <> None -> items_ok (ft_env f) l /\ f' = all_after f l.
Proof.
  induction l as [|i l IH]; intros f f' Hf H Hq; [injection H as <-; cbn; auto|]. cbn [fetch_items] in H. destruct (fetch_item f i) as [| |f1] eqn:E; try discriminate.
  pose proof (proj2 (fetch_item_exact f i Hf) _ E) as Hi. rewrite (proj1 (fetch_item_exact f i Hf) Hi) in E. injection E as <-.
  destruct (ft_query (fetched_after f i)) eqn:Eq.
  - apply IH in H as [H1 ->]; [|congruence|exact Hq]. cbn. auto.
  - rewrite (fetch_stuck l _ Eq) in H. injection H as <-. congruence.
Qed.

(** The environment after all items. *)
Fixpoint entries (d : denv) (k : nat) (l : list item) : list (name * entry) :=
  match l with [] => [] | i :: l' => opt_list (entry_of d k i) ++ entries d (k + length (opt_list (entry_of d k i))) l' end.
Definition macros (d : denv) (l : list item) : list (name * macro_cache) := flat_map (fun i => opt_list (macro_of d i)) l.
Lemma get_sorts_ext d d' l : d_sorts d = d_sorts d' -> get_sorts d l = get_sorts d' l.
Proof. intros E. induction l as [|x l IH]; [reflexivity|]. cbn. rewrite E, IH. reflexivity. Qed.
Lemma entry_of_ext d d' k i : d_sorts d = d_sorts d' -> entry_of d k i = entry_of d' k i.
Proof. intros E. destruct i; cbn [entry_of]; rewrite ?(get_sorts_ext d d' _ E), ?E; reflexivity. Qed.
Lemma macro_of_ext d d' i : d_sorts d = d_sorts d' -> macro_of d i = macro_of d' i.
Proof. intros E. destruct i; cbn [macro_of]; rewrite ?(get_sorts_ext d d' _ E); reflexivity. Qed.
Lemma entries_ext d d' l : d_sorts d = d_sorts d' -> forall k, entries d k l = entries d' k l.
Proof. intros E. induction l as [|i l IH]; intros k; [reflexivity|]. cbn. rewrite (entry_of_ext d d' k i E), IH. reflexivity. Qed.
Lemma macros_ext d d' l : d_sorts d = d_sorts d' -> macros d l = macros d' l.
Proof. intros E. unfold macros. apply flat_map_ext. intros i. rewrite (macro_of_ext d d' i E). reflexivity. Qed.
Definition env_all (d : denv) (l : list item) : denv := fold_left env_after l d.
Lemma env_all_eq l : forall d, env_all d l =
  mkDenv (d_funs d ++ entries d (length (d_funs d)) l) (d_sorts d) (d_macros d ++ macros d l) (d_used d) (d_used_macros d) (d_shadowing d).
Proof.
  induction l as [|i l IH]; intros d; [cbn; rewrite !app_nil_r; destruct d; reflexivity|]. unfold env_all in *. cbn [fold_left]. rewrite IH. cbn [env_after d_funs d_sorts d_macros d_used d_used_macros d_shadowing entries].
  rewrite app_length, <- !app_assoc. rewrite (entries_ext (env_after d i) d) by reflexivity. rewrite (macros_ext (env_after d i) d) by reflexivity. reflexivity.
Qed.
Lemma env_all_after l : forall f, ft_env (all_after f l) = env_all (ft_env f) l.
Proof. induction l as [|i l IH]; intros f; [reflexivity|]. exact (IH (fetched_after f i)). Qed.

Lemma flat_map_cons {A B} (f : A -> list B) a l : flat_map f (a :: l) = flat_map f [a] ++ flat_map f l.
Proof. cbn. rewrite app_nil_r. reflexivity. Qed.
Lemma collected l : forall f,
  ft_asserts (all_after f l) = ft_asserts f ++ asserts_of l /\ ft_lemmas (all_after f l) = ft_lemmas f ++ lemmas_of l /\
  ft_orders (all_after f l) = ft_orders f ++ orders_of l /\ ft_crypto (all_after f l) = ft_crypto f ++ cryptos_of l.
Proof.
  induction l as [|i l IH]; intros f; [cbn; rewrite !app_nil_r; auto|]. destruct (IH (fetched_after f i)) as (H1 & H2 & H3 & H4).
  unfold asserts_of, lemmas_of, orders_of, cryptos_of in *. rewrite (flat_map_cons _ i l), (flat_map_cons _ i l), (flat_map_cons _ i l), (flat_map_cons _ i l), !app_assoc.
  repeat split; assumption.
Qed.
Definition with_query (q : option (option term)) (l : list term) : option (option term) :=
  match q, l with None, _ => None | Some None, [] => Some None | Some None, [t] => Some (Some t) | Some (Some t), [] => Some (Some t) | _, _ => None end.
Lemma query_after l : forall f, ft_query (all_after f l) = with_query (ft_query f) (queries_of l).
Proof.
  induction l as [|i l IH]; intros f; [cbn; destruct (ft_query f) as [[t|]|]; reflexivity|]. unfold all_after in *. cbn [fold_left]. rewrite IH.
  destruct i; cbn [fetched_after ft_query]; try (change (queries_of (_ :: l)) with (queries_of l); destruct (ft_query f) as [[?|]|]; reflexivity).
  change (queries_of (IQuery t :: l)) with (t :: queries_of l). destruct (ft_query f) as [[t'|]|], (queries_of l); reflexivity.
Qed.
Definition has_init (l : list item) : bool := existsb (fun i => match i with IStep a => Nat.eqb (sa_name a) n_init | _ => false end) l.
Lemma init_after l : forall f, ft_init (all_after f l) = ft_init f || has_init l.
Proof. induction l as [|i l IH]; intros f; [cbn; rewrite orb_false_r; reflexivity|]. unfold all_after in *. cbn [fold_left]. rewrite IH. cbn. rewrite orb_assoc. reflexivity. Qed.

(** When all items are accepted. *)
Lemma entry_name d k i e : entry_of d k i = Some e -> names_of [i] = [fst e] /\ is_decl i = true.
Proof.
  destruct i; cbn [entry_of]; try discriminate.
  - destruct (lookup out (d_sorts d)); [|discriminate]. destruct (get_sorts d args); [|discriminate]. cbv zeta. destruct (sort_eqb _ _); [intros [= <-]; auto|]. destruct (is_term_algebra _); [intros [= <-]; auto|discriminate].
  - destruct (get_sorts d args); [|discriminate]. intros [= <-]. auto.
  - destruct (get_sorts d _); [|discriminate]. intros [= <-]. auto.
Qed.
Lemma macro_name d i e : macro_of d i = Some e -> macros_of [i] = [fst e].
Proof. destruct i; cbn [macro_of]; try discriminate. destruct (get_sorts d _); [|discriminate]. intros [= <-]. reflexivity. Qed.
Lemma decl_names i : is_decl i = false -> names_of [i] = [].
Proof. destruct i; cbn; congruence. Qed.
Lemma entry_none_any d k k' i : entry_of d k i = None -> entry_of d k' i = None.
Proof.
  destruct i; cbn [entry_of]; auto.
  - destruct (lookup out (d_sorts d)); [|auto]. destruct (get_sorts d args); [|auto]. cbv zeta. destruct (sort_eqb _ _); [discriminate|]. destruct (is_term_algebra _); [discriminate|auto].
  - destruct (get_sorts d args); [discriminate|auto].
  - destruct (get_sorts d _); [discriminate|auto].
Qed.
Lemma entry_nodecl d k i : is_decl i = false -> entry_of d k i = None.
Proof. destruct i; cbn; congruence. Qed.
Lemma macro_nolet d i : macros_of [i] = [] -> macro_of d i = None.
Proof. destruct i; cbn; congruence. Qed.
Definition item_fits (d : denv) (i : item) : Prop :=
  (is_decl i = true -> entry_of d 0 i <> None) /\ (macros_of [i] <> [] -> macro_of d i <> None) /\ init_ok i = true.
Lemma item_fits_ext d d' i : d_sorts d = d_sorts d' -> item_fits d i -> item_fits d' i.
Proof. intros E. unfold item_fits. rewrite (entry_of_ext d d' 0 i E), (macro_of_ext d d' i E). auto. Qed.
Lemma ok_names d i : item_ok d i -> opt_list (entry_of d (length (d_funs d)) i) = [] /\ names_of [i] = [] \/ exists e, opt_list (entry_of d (length (d_funs d)) i) = [e] /\ names_of [i] = [fst e].
Proof.
  intros H. destruct (entry_of d (length (d_funs d)) i) as [e|] eqn:E; [right; exists e; split; [reflexivity|]; eapply entry_name; eauto|].
  left. split; [reflexivity|]. apply decl_names. destruct (is_decl i) eqn:D; [|reflexivity]. elim (io_entry _ _ H D E).
Qed.
Lemma ok_macros d i : item_ok d i -> opt_list (macro_of d i) = [] /\ macros_of [i] = [] \/ exists e, opt_list (macro_of d i) = [e] /\ macros_of [i] = [fst e].
Proof.
  intros H. destruct (macro_of d i) as [e|] eqn:E; [right; exists e; split; [reflexivity|]; eapply macro_name; eauto|].
  left. split; [reflexivity|]. destruct (macros_of [i]) eqn:D; [reflexivity|]. elim (io_macro _ _ H); [rewrite D; discriminate|exact E].
Qed.
Lemma item_ok_split d i :
  item_ok d i <-> (forall x, In x (names_of [i]) -> ~ In x (map fst (d_funs d)) /\ ~ In x (d_used d)) /\
                  (forall x, In x (macros_of [i]) -> ~ In x (map fst (d_macros d)) /\ ~ In x (d_used_macros d)) /\ item_fits d i.
Proof.
  split.
  - intros [H1 H2 H3 H4 H5]. split; [|split]; [| |split; [|split]]; auto.
    + intros x Hx. apply contains_false. auto.
    + intros x Hx. apply macro_false. auto.
    + intros D E. apply (H3 D). eapply entry_none_any; eauto.
  - intros (H1 & H2 & H3 & H4 & H5). split; auto.
    + intros x Hx. apply contains_false. auto.
    + intros x Hx. apply macro_false. auto.
    + intros D E. apply (H3 D). eapply entry_none_any; eauto.
Qed.
Lemma NoDup_app_iff {A} (l l' : list A) : NoDup (l ++ l') <-> NoDup l /\ NoDup l' /\ forall x, In x l -> ~ In x l'.
Proof.
  induction l as [|a l IH]; cbn; [split; [intros H; repeat split; [constructor|exact H|intros x []]|tauto]|]. split.
  - intros H. inversion H as [|? ? H1 H2]; subst. apply IH in H2 as (H2 & H3 & H4). rewrite in_app_iff in H1. repeat split; [constructor; tauto|exact H3|]. intros x [<-|Hx]; [tauto|auto].
  - intros (H1 & H2 & H3). inversion H1; subst. constructor; [rewrite in_app_iff; intros [?|?]; [contradiction|]; apply (H3 a); auto|]. apply IH. repeat split; auto.
Qed.
Lemma names_cons i l : names_of (i :: l) = names_of [i] ++ names_of l. Proof. apply flat_map_cons. Qed.
Lemma macros_cons i l : macros_of (i :: l) = macros_of [i] ++ macros_of l. Proof. apply flat_map_cons. Qed.
Lemma names_one i : NoDup (names_of [i]). Proof. destruct i; cbn; repeat constructor; auto. Qed.
Lemma macros_one i : NoDup (macros_of [i]). Proof. destruct i; cbn; repeat constructor; auto. Qed.
Lemma items_ok_split l : forall d,
  items_ok d l <-> (NoDup (names_of l) /\ forall x, In x (names_of l) -> ~ In x (map fst (d_funs d)) /\ ~ In x (d_used d)) /\
                   (NoDup (macros_of l) /\ forall x, In x (macros_of l) -> ~ In x (map fst (d_macros d)) /\ ~ In x (d_used_macros d)) /\
                   forall i, In i l -> item_fits d i.
Proof.
  induction l as [|i l IH]; intros d.
  { cbn. split; [|tauto]. intros _. repeat split; try constructor; try (intros _ []); contradiction. }
  cbn [items_ok]. rewrite names_cons, macros_cons, !NoDup_app_iff. split.
  - intros (H & Hl). apply IH in Hl as ((N & Hn) & (Nm & Hm) & Hf). cbn [env_after d_funs d_used d_macros d_used_macros] in *. rewrite map_app in *.
    assert (Hdis : forall x, In x (names_of [i]) -> ~ In x (names_of l)).
    { intros x Hx Hin. apply Hn in Hin as [Hin _]. apply Hin, in_app_iff. right. destruct (ok_names d i H) as [[_ E]|(e & E & E')]; [rewrite E in Hx; destruct Hx|]. rewrite E. rewrite E' in Hx. exact Hx. }
    assert (Hdism : forall x, In x (macros_of [i]) -> ~ In x (macros_of l)).
    { intros x Hx Hin. apply Hm in Hin as [Hin _]. apply Hin, in_app_iff. right. destruct (ok_macros d i H) as [[_ E]|(e & E & E')]; [rewrite E in Hx; destruct Hx|]. rewrite E. rewrite E' in Hx. exact Hx. }
    apply item_ok_split in H as (H1 & H2 & H3). split; [split; [split; [apply names_one|split; [exact N|exact Hdis]]|]|split; [split; [split; [apply macros_one|split; [exact Nm|exact Hdism]]|]|]].
    + intros x Hx. apply in_app_iff in Hx as [Hx|Hx]; [auto|]. apply Hn in Hx as [Hx Hx']. split; [|exact Hx']. intros Hin. apply Hx, in_app_iff. auto.
    + intros x Hx. apply in_app_iff in Hx as [Hx|Hx]; [auto|]. apply Hm in Hx as [Hx Hx']. split; [|exact Hx']. intros Hin. apply Hx, in_app_iff. auto.
    + intros j [<-|Hj]; [exact H3|]. apply (item_fits_ext (env_after d i) d); [reflexivity|auto].
  - intros (((_ & N & Hdis) & Hn) & ((_ & Nm & Hdism) & Hm) & Hf).
    assert (H : item_ok d i).
    { apply item_ok_split. split; [|split]; [intros x Hx; apply Hn, in_app_iff; auto|intros x Hx; apply Hm, in_app_iff; auto|apply Hf; left; reflexivity]. }
    split; [exact H|]. apply IH. cbn [env_after d_funs d_used d_macros d_used_macros]. rewrite !map_app. split; [split; [exact N|]|split; [split; [exact Nm|]|]].
    + intros x Hx. assert (Hx' : In x (names_of [i] ++ names_of l)) by (apply in_app_iff; auto). apply Hn in Hx' as [H1 H2]. split; [|exact H2]. intros Hin. apply in_app_iff in Hin as [Hin|Hin]; [auto|].
      destruct (ok_names d i H) as [[E _]|(e & E & E')]; rewrite E in Hin; [destruct Hin|]. apply (Hdis x); [rewrite E'; exact Hin|exact Hx].
    + intros x Hx. assert (Hx' : In x (macros_of [i] ++ macros_of l)) by (apply in_app_iff; auto). apply Hm in Hx' as [H1 H2]. split; [|exact H2]. intros Hin. apply in_app_iff in Hin as [Hin|Hin]; [auto|].
      destruct (ok_macros d i H) as [[E _]|(e & E & E')]; rewrite E in Hin; [destruct Hin|]. apply (Hdism x); [rewrite E'; exact Hin|exact Hx].
    + intros j Hj. apply (item_fits_ext d); [reflexivity|]. apply Hf. right. exact Hj.
Qed.

(** ** C97: which files are accepted *)
Lemma flat_unique {A B} (g : A -> list B) l : NoDup (flat_map g l) -> forall i j x, In i l -> In j l -> In x (g i) -> In x (g j) -> i = j.
Proof.
  induction l as [|a l IH]; cbn; [intros _ i j x []|]. intros N i j x Hi Hj Xi Xj. apply NoDup_app_iff in N as (_ & N & D).
  destruct Hi as [<-|Hi], Hj as [<-|Hj]; [reflexivity| | |eauto].
  - elim (D x Xi). apply in_flat_map. eauto.
  - elim (D x Xj). apply in_flat_map. eauto.
Qed.
Lemma names_in l x : In x (names_of l) <-> exists i, In i l /\ In x (names_of [i]).
Proof. unfold names_of at 1. rewrite in_flat_map. split; intros (i & Hi & Hx); exists i; (split; [exact Hi|]); unfold names_of in *; cbn in *; rewrite ?app_nil_r in *; exact Hx. Qed.
Lemma macros_in l x : In x (macros_of l) <-> exists i, In i l /\ In x (macros_of [i]).
Proof. unfold macros_of at 1. rewrite in_flat_map. split; intros (i & Hi & Hx); exists i; (split; [exact Hi|]); unfold macros_of in *; cbn in *; rewrite ?app_nil_r in *; exact Hx. Qed.
Lemma names_unique l i j x : NoDup (names_of l) -> In i l -> In j l -> In x (names_of [i]) -> In x (names_of [j]) -> i = j.
Proof. intros N Hi Hj Xi Xj. unfold names_of in *. cbn in Xi, Xj. rewrite app_nil_r in *. eapply flat_unique; eauto. Qed.
Lemma macros_unique l i j x : NoDup (macros_of l) -> In i l -> In j l -> In x (macros_of [i]) -> In x (macros_of [j]) -> i = j.
Proof. intros N Hi Hj Xi Xj. unfold macros_of in *. cbn in Xi, Xj. rewrite app_nil_r in *. eapply flat_unique; eauto. Qed.
Lemma has_init_spec l : has_init l = true <-> exists a, In (IStep a) l /\ sa_name a = 6.
Proof.
  unfold has_init. rewrite existsb_exists. split.
  - intros (i & Hi & H). destruct i; try discriminate. apply Nat.eqb_eq in H. eauto.
  - intros (a & Ha & E). exists (IStep a). split; [exact Ha|]. apply Nat.eqb_eq. exact E.
Qed.

Section Accepted.
  Variables (bs : list (name * sort)) (bf : list (name * fcache)) (kw : list name) (sh : bool) (l : list item).
  Hypothesis B : builtins bs bf kw.
  Definition typed_env : denv := with_sorts (new_env bs bf kw sh) (bs ++ number (length bs) (types_of l)).
  Lemma typed_names : map fst (d_sorts typed_env) = map fst bs ++ types_of l.
  Proof. unfold typed_env, with_sorts. cbn [d_sorts]. rewrite map_app, number_names. reflexivity. Qed.
  Lemma new_names : map fst (d_funs typed_env) = map fst bf.
  Proof. unfold typed_env, with_sorts, new_env. cbn [d_funs]. rewrite map_map. reflexivity. Qed.
  Lemma typed_sorts x s : lookup x (d_sorts typed_env) = Some s -> In (x, s) bs \/ In x (types_of l) /\ exists k, s = SIndex k.
  Proof.
    intros H. apply lookup_in in H. cbn [typed_env with_sorts d_sorts] in H. apply in_app_iff in H as [H|H]; [auto|]. right. split.
    - rewrite <- (number_names (types_of l) (length bs)). apply in_map_iff. exists (x, s). auto.
    - apply number_in in H as (j & -> & _). eauto.
  Qed.
  Lemma is_term_algebra_spec x s : In (x, s) bs \/ (exists k, s = SIndex k) ->
    (sort_eqb (user_bool_to_condition s) SName = true \/ is_term_algebra (user_bool_to_condition s) = true <-> In s [SBool; SCondition; SMessage; SName; SStep]).
  Proof.
    intros [H|(k & ->)].
    - apply (bi_kinds _ _ _ B) in H. cbn in H. repeat destruct H as [<-|H]; try destruct H; cbn; intuition congruence.
    - cbn. intuition congruence.
  Qed.
  Lemma get_sorts_typed xs : (exists ss, get_sorts typed_env xs = Some ss) <-> forall x, In x xs -> In x (map fst bs) \/ In x (types_of l).
  Proof. rewrite get_sorts_some. rewrite typed_names. split; intros H x Hx; [apply in_app_iff|apply in_app_iff]; auto. Qed.
  Lemma get_sorts_none xs : get_sorts typed_env xs <> None <-> forall x, In x xs -> In x (map fst bs) \/ In x (types_of l).
  Proof. rewrite <- get_sorts_typed. destruct (get_sorts typed_env xs); split; intros H; try congruence; eauto. destruct H; discriminate. Qed.

  Lemma fits_spec i : (forall x, In x (types_of l) -> ~ In x (map fst bs)) ->
    (item_fits typed_env i <-> (forall x, In x (types_used i) -> In x (map fst bs) \/ In x (types_of l)) /\
      (forall n args out, i = IFun n args out -> exists s, In (out, s) bs /\ In s [SBool; SCondition; SMessage; SName; SStep]) /\
      (forall a, i = IStep a -> sa_name a = 6 -> sa_params a = [])).
  Proof.
    intros Fr. unfold item_fits. destruct i as [n|n args out|n args out|a|n params body|t|t|t|o|c]; cbn [is_decl entry_of macro_of types_used init_ok].
    3: { split.
         - intros (H & _ & _). specialize (H eq_refl). split; [|split; discriminate]. apply get_sorts_none. destruct (get_sorts typed_env args); [discriminate|intros _; apply H; reflexivity].
         - intros (H & _ & _). apply get_sorts_none in H. split; [|split; [intros X; elim X; reflexivity|reflexivity]]. intros _. destruct (get_sorts typed_env args); [discriminate|congruence]. }
    3: { split.
         - intros (H & _ & H'). specialize (H eq_refl). split; [|split; [discriminate|]].
           + apply get_sorts_none. destruct (get_sorts typed_env _); [discriminate|intros _; apply H; reflexivity].
           + intros a' [= <-] E. change (Nat.eqb (sa_name a) 6) with (Nat.eqb (sa_name a) n_init) in *. rewrite E in H'. cbn in H'. destruct (sa_params a); [reflexivity|discriminate].
         - intros (H & _ & H'). apply get_sorts_none in H. split; [|split; [intros X; elim X; reflexivity|]].
           + intros _. destruct (get_sorts typed_env _); [discriminate|congruence].
           + destruct (Nat.eqb (sa_name a) n_init) eqn:E; [|reflexivity]. apply Nat.eqb_eq in E. rewrite (H' a eq_refl E). reflexivity. }
    3: { split.
         - intros (_ & H & _). assert (H' : macros_of [ILet n params body] <> []) by discriminate. specialize (H H'). split; [|split; discriminate]. apply get_sorts_none. destruct (get_sorts typed_env _); [discriminate|intros _; apply H; reflexivity].
         - intros (H & _ & _). apply get_sorts_none in H. split; [discriminate|split; [|reflexivity]]. intros _. destruct (get_sorts typed_env _); [discriminate|congruence]. }
    2: { split.
         - intros (H & _ & _). specialize (H eq_refl). destruct (lookup out (d_sorts typed_env)) as [o|] eqn:Eo; [|elim H; reflexivity]. destruct (get_sorts typed_env args) as [ss|] eqn:Es; [|elim H; reflexivity]. cbv zeta in H.
           assert (Ho : In (out, o) bs \/ exists k, o = SIndex k) by (destruct (typed_sorts _ _ Eo) as [X|[_ X]]; auto).
           assert (Hin : In o [SBool; SCondition; SMessage; SName; SStep]).
           { apply (is_term_algebra_spec out o Ho). destruct (sort_eqb _ _); [auto|]. right. destruct (is_term_algebra _); [reflexivity|elim H; reflexivity]. }
           assert (Hb : In (out, o) bs). { destruct Ho as [X|(k & ->)]; [exact X|]. cbn in Hin. intuition congruence. }
           split; [|split; [|discriminate]].
           + intros x [<-|Hx]; [left; apply in_map_iff; exists (out, o); auto|]. revert x Hx. apply get_sorts_typed. eauto.
           + intros n' args' out' [= <- <- <-]. eauto.
         - intros (H1 & H2 & _). split; [|split; [intros X; elim X; reflexivity|reflexivity]]. intros _. destruct (H2 _ _ _ eq_refl) as (o & Ho & Hin).
           assert (Eo : lookup out (d_sorts typed_env) = Some o). { cbn [typed_env with_sorts d_sorts]. rewrite lookup_app. rewrite (in_lookup out bs o (bi_sorts _ _ _ B) Ho). reflexivity. }
           rewrite Eo. assert (Hs : get_sorts typed_env args <> None) by (apply get_sorts_none; intros x Hx; apply H1; right; exact Hx). destruct (get_sorts typed_env args) as [ss|]; [|congruence].
           cbv zeta. apply (is_term_algebra_spec out o) in Hin; [|auto]. destruct (sort_eqb _ _); [discriminate|]. destruct Hin as [Hin|Hin]; [discriminate|]. rewrite Hin. discriminate. }
    all: split; [intros _; split; [intros x []|split; discriminate]|intros _; split; [discriminate|split; [intros X; elim X; reflexivity|reflexivity]]].
  Qed.

  (** The environment in which terms are read. *)
  Definition full_env : denv := env_all typed_env (completed l).
  Definition full_source (q : term) : source := mkSource full_env (asserts_of l) (lemmas_of l) (orders_of l) (cryptos_of l) q.
  Lemma default_env d : ~ In 6 (map fst (d_funs d)) -> ~ In 6 (d_used d) -> declare_step d init_step_ast = DOk (env_after d default_init).
  Proof.
    intros H1 H2. unfold declare_step. assert (E : contains_name d (sa_name init_step_ast) = false) by (apply contains_false; auto). rewrite E. cbn. unfold env_after, add_fun. cbn. rewrite app_nil_r. reflexivity.
  Qed.
  Lemma entries_names d (ls : list item) : forall k, (forall i, In i ls -> item_fits d i) -> map fst (entries d k ls) = names_of ls.
  Proof.
    induction ls as [|i ls IH]; intros k H; [reflexivity|]. cbn [entries]. rewrite map_app, names_cons, IH by (intros j Hj; apply H; right; exact Hj). f_equal.
    destruct (entry_of d k i) as [e|] eqn:E; [symmetry; cbn; eapply entry_name; eauto|]. symmetry. apply decl_names. destruct (is_decl i) eqn:D; [|reflexivity].
    elim (proj1 (H i (or_introl eq_refl)) D). eapply entry_none_any; eauto.
  Qed.
  Lemma all_names d ls : (forall i, In i ls -> item_fits d i) -> map fst (d_funs (env_all d ls)) = map fst (d_funs d) ++ names_of ls.
  Proof. intros H. rewrite env_all_eq. cbn [d_funs]. rewrite map_app, entries_names; auto. Qed.

  Lemma accepted_only so : declare_all bs bf kw sh l = DOk so -> well_declared bs bf kw l /\ so = full_source (so_query so) /\ queries_of l = [so_query so].
  Proof.
    intros H. unfold declare_all in H. destruct (declare_sorts (new_env bs bf kw sh) l) as [| |d] eqn:Es; try discriminate.
    destruct (sorts_exact l (new_env bs bf kw sh)) as [S1 S2]. pose proof (S2 _ Es) as Ht. rewrite (S1 Ht) in Es.
    assert (X : d = typed_env) by (symmetry; exact (f_equal (fun r => match r with DOk a => a | _ => d end) Es)). clear Es. subst d.
    unfold fetch_all in H. destruct (fetch_items _ l) as [| |f] eqn:Ef; try discriminate.
    match type of H with match ?o with _ => _ end = _ => destruct o as [| |d] eqn:Ed; try discriminate end.
    destruct (ft_query f) as [[q|]|] eqn:Eq; try discriminate. injection H as <-. cbn [so_query].
    apply fetch_items_only in Ef; [|discriminate|congruence]. destruct Ef as [Hok ->]. cbn [ft_env] in Hok.
    rewrite query_after in Eq. cbn [ft_query with_query] in Eq. destruct (queries_of l) as [|q' [|? ?]] eqn:Eql; try discriminate. injection Eq as <-.
    rewrite init_after in Ed. cbn [ft_init orb] in Ed. rewrite env_all_after in Ed. cbn [ft_env] in Ed.
    destruct (collected l (mkFetched typed_env [] [] [] [] (Some None) false)) as (C1 & C2 & C3 & C4).
    pose proof (proj1 (items_ok_split l typed_env) Hok) as ((N & Hn) & (Nm & Hm) & Hf).
    assert (Hfs : forall i, In i l -> _) by (intros i Hi; exact (proj1 (fits_spec i (proj2 Ht)) (Hf i Hi))).
    assert (Hinit : d = full_env /\ (In 6 (names_of l) -> exists a, In (IStep a) l /\ sa_name a = 6 /\ sa_params a = [])).
    { unfold full_env, completed. destruct (has_init l) eqn:Hi.
      - injection Ed as <-. apply has_init_spec in Hi as (a & Ha & En). assert (Hin : In 6 (names_of l)) by (apply names_in; exists (IStep a); split; [exact Ha|]; left; exact En).
        destruct (in_dec Nat.eq_dec 6 (names_of l)); [|contradiction]. split; [reflexivity|]. intros _. exists a. repeat split; auto. apply (Hfs _ Ha); auto.
      - unfold declare_step in Ed. destruct (contains_name (env_all typed_env l) (sa_name init_step_ast)) eqn:Ec; [discriminate|]. apply contains_false in Ec as [Ec _].
        rewrite all_names in Ec by exact Hf. change (sa_name init_step_ast) with 6 in Ec. rewrite in_app_iff in Ec.
        destruct (in_dec Nat.eq_dec 6 (names_of l)); [tauto|]. split; [|tauto]. unfold env_all at 1. rewrite fold_left_app. cbn [fold_left].
        cbn [sa_params init_step_ast map get_sorts] in Ed. injection Ed as <-. change (fold_left env_after l typed_env) with (env_all typed_env l). unfold env_after, add_fun. cbn. rewrite app_nil_r. reflexivity. }
    destruct Hinit as [-> Hinit]. split; [|split; [|reflexivity]].
    - split.
      + exact Ht.
      + split; [exact N|]. intros x Hx. rewrite new_names in Hn. exact (Hn x Hx).
      + exact Nm.
      + intros i x Hi. apply (Hfs i Hi).
      + intros n args out Hi. apply (Hfs _ Hi) with (n := n) (args := args). reflexivity.
      + exact Hinit.
      + eauto.
    - unfold full_source. rewrite C1, C2, C3, C4. reflexivity.
  Qed.

  Lemma well_fits : well_declared bs bf kw l -> forall i, In i (completed l) -> item_fits typed_env i.
  Proof.
    intros [[Nt Ft] [N Hn] Nm Hu Hr Hi Hq] i Hin. apply (fits_spec i Ft). unfold completed in Hin.
    assert (Hl : In i l -> (forall x, In x (types_used i) -> In x (map fst bs) \/ In x (types_of l)) /\
      (forall n args out, i = IFun n args out -> exists s, In (out, s) bs /\ In s [SBool; SCondition; SMessage; SName; SStep]) /\
      (forall a, i = IStep a -> sa_name a = 6 -> sa_params a = [])).
    { intros Hil. split; [intros x; apply Hu; exact Hil|split].
      - intros n args out ->. eapply Hr; eauto.
      - intros a -> En. assert (H6 : In 6 (names_of l)) by (apply names_in; exists (IStep a); split; [exact Hil|left; exact En]). destruct (Hi H6) as (b & Hb & Eb & Pb).
        assert (E : IStep a = IStep b) by (apply (names_unique l _ _ 6 N Hil Hb); left; assumption). injection E as ->. exact Pb. }
    destruct (in_dec Nat.eq_dec 6 (names_of l)); [auto|]. apply in_app_iff in Hin as [Hin|[<-|[]]]; [auto|]. split; [intros x []|split; [discriminate|]]. intros a [= <-] _. reflexivity.
  Qed.
  Lemma accepted_all : well_declared bs bf kw l -> exists q, queries_of l = [q] /\ declare_all bs bf kw sh l = DOk (full_source q).
  Proof.
    intros W. destruct W as [Ht Hnames Nm Hu Hr Hi (q & Hq)] eqn:EW. clear EW. exists q. split; [exact Hq|]. unfold declare_all.
    destruct (sorts_exact l (new_env bs bf kw sh)) as [S1 _]. rewrite (S1 Ht).
    change (with_sorts (new_env bs bf kw sh) (d_sorts (new_env bs bf kw sh) ++ number (length (d_sorts (new_env bs bf kw sh))) (types_of l))) with typed_env.
    assert (Hf : forall i, In i l -> item_fits typed_env i).
    { intros i Hin. apply (well_fits W). unfold completed. destruct (in_dec _ _ _); [exact Hin|apply in_app_iff; auto]. }
    unfold fetch_all. set (f0 := mkFetched typed_env [] [] [] [] (Some None) false).
    assert (Eq : ft_query (all_after f0 l) = Some (Some q)) by (rewrite query_after, Hq; reflexivity).
    rewrite (fetch_items_good l f0).
    - rewrite init_after. cbn [f0 ft_init orb]. fold f0. rewrite env_all_after. cbn [f0 ft_env]. fold f0. rewrite Eq.
      destruct (collected l f0) as (C1 & C2 & C3 & C4). rewrite C1, C2, C3, C4. cbn [f0 ft_asserts ft_lemmas ft_orders ft_crypto app].
      unfold full_source, full_env, completed. destruct (in_dec Nat.eq_dec 6 (names_of l)) as [H6|H6].
      + destruct (Hi H6) as (a & Ha & En & _). assert (E : has_init l = true) by (apply has_init_spec; eauto). rewrite E. reflexivity.
      + assert (E : has_init l = false).
        { destruct (has_init l) eqn:E; [|reflexivity]. apply has_init_spec in E as (a & Ha & En). elim H6. apply names_in. exists (IStep a). split; [exact Ha|left; exact En]. }
        rewrite E. rewrite default_env.
        * unfold env_all. rewrite fold_left_app. reflexivity.
        * intros Hin. rewrite all_names in Hin by exact Hf. apply in_app_iff in Hin as [Hin|Hin]; [|auto]. apply (proj1 (bi_init _ _ _ B)). rewrite <- new_names. exact Hin.
        * rewrite env_all_eq. cbn [d_used]. apply (bi_init _ _ _ B).
    - discriminate.
    - apply items_ok_split. split; [|split; [|exact Hf]].
      + destruct Hnames as [N Hn]. split; [exact N|]. intros x Hx. cbn [f0 ft_env]. rewrite new_names. exact (Hn x Hx).
      + split; [exact Nm|]. intros x _. split; intros [].
    - rewrite Eq. discriminate.
  Qed.
End Accepted.

(** ** C97: what an accepted file declares *)
Lemma entry_some d k k' i e : entry_of d k i = Some e -> entry_of d k' i <> None.
Proof. intros E E'. rewrite (entry_none_any d k' k i E') in E. discriminate. Qed.
Lemma entries_in d l : forall k x e, In (x, e) (entries d k l) -> exists i j, In i l /\ entry_of d j i = Some (x, e) /\ k <= j.
Proof.
  induction l as [|i l IH]; intros k x e H; [destruct H|]. cbn [entries] in H. apply in_app_iff in H as [H|H].
  - destruct (entry_of d k i) as [e'|] eqn:E; [|destruct H]. destruct H as [->|[]]. exists i, k. repeat split; auto. left. reflexivity.
  - apply IH in H as (i' & j & Hi & He & Hj). exists i', j. repeat split; [right; exact Hi|exact He|lia].
Qed.
Definition numbered_by (j : nat) (f : fsym) : Prop := f = Fname j \/ f = Fuser j \/ f = Fcell j \/ f = Fstep j.
Lemma entry_number d j i x e : entry_of d j i = Some (x, e) -> numbered_by j (fc_sym (entry_cache e)).
Proof.
  unfold numbered_by. destruct i; cbn [entry_of]; try discriminate.
  - destruct (lookup out (d_sorts d)); [|discriminate]. destruct (get_sorts d args); [|discriminate]. cbv zeta. destruct (sort_eqb _ _); [intros [= _ <-]; auto|]. destruct (is_term_algebra _); [intros [= _ <-]; auto|discriminate].
  - destruct (get_sorts d args); [|discriminate]. intros [= _ <-]. cbn. auto.
  - destruct (get_sorts d _); [|discriminate]. intros [= _ <-]. cbn. auto.
Qed.
Lemma numbered_inj j j' f : numbered_by j f -> numbered_by j' f -> j = j'.
Proof. unfold numbered_by. intros [->|[->|[->| ->]]] [H|[H|[H|H]]]; congruence. Qed.
Lemma entries_inj d l : forall k x y e e', In (x, e) (entries d k l) -> In (y, e') (entries d k l) -> fc_sym (entry_cache e) = fc_sym (entry_cache e') -> (x, e) = (y, e').
Proof.
  induction l as [|i l IH]; intros k x y e e' H H' Ef; [destruct H|]. cbn [entries] in *. destruct (entry_of d k i) as [e0|] eqn:E; cbn [opt_list app length] in *; [|eapply IH; eauto].
  assert (First : forall z e1, In (z, e1) (entries d (k + 1) l) -> fc_sym (entry_cache e1) = fc_sym (entry_cache (snd e0)) -> False).
  { intros z e1 Hz Ez. apply entries_in in Hz as (i' & j & _ & He & Hj). apply entry_number in He. destruct e0 as [x0 e0]. apply entry_number in E. cbn in Ez. rewrite Ez in He. pose proof (numbered_inj _ _ _ E He). lia. }
  destruct H as [->|H], H' as [H'|H'].
  - congruence.
  - elim (First _ _ H'). auto.
  - subst e0. elim (First _ _ H). auto.
  - eapply IH; eauto.
Qed.

Section Declared.
  Variables (bs : list (name * sort)) (bf : list (name * fcache)) (kw : list name) (sh : bool) (l : list item).
  Hypothesis B : builtins bs bf kw.
  Hypothesis W : well_declared bs bf kw l.
  Let d0 := typed_env bs bf kw sh l.
  Let d := full_env bs bf kw sh l.
  Lemma full_sorts : d_sorts d = d_sorts d0.
  Proof. unfold d, full_env. rewrite env_all_eq. reflexivity. Qed.
  Lemma full_funs : d_funs d = d_funs d0 ++ entries d0 (length (d_funs d0)) (completed l).
  Proof. unfold d, full_env. rewrite env_all_eq. reflexivity. Qed.
  Lemma completed_macros : macros d0 (completed l) = macros d0 l.
  Proof. unfold completed. destruct (in_dec _ _ _); [reflexivity|]. unfold macros. rewrite flat_map_app. cbn. apply app_nil_r. Qed.
  Lemma full_macros : d_macros d = macros d0 l.
  Proof. unfold d, full_env. rewrite env_all_eq. cbn [d_macros]. rewrite <- completed_macros. reflexivity. Qed.
  Lemma completed_names : NoDup (names_of (completed l)) /\ forall x, In x (names_of (completed l)) -> ~ In x (map fst bf) /\ ~ In x kw.
  Proof.
    destruct (wd_names _ _ _ _ W) as [N H]. unfold completed. destruct (in_dec _ _ _) as [|H6]; [auto|]. unfold names_of. rewrite flat_map_app. fold (names_of l). cbn [flat_map default_init app sa_name]. split.
    - apply NoDup_app_iff. split; [exact N|split; [repeat constructor; intros []|]]. intros x Hx [<-|[]]. contradiction.
    - intros x Hx. apply in_app_iff in Hx as [Hx|[<-|[]]]; [auto|]. apply (bi_init _ _ _ B).
  Qed.
  Lemma entries_names' : map fst (entries d0 (length (d_funs d0)) (completed l)) = names_of (completed l).
  Proof. apply entries_names. intros i Hi. apply (well_fits bs bf kw sh l B W i Hi). Qed.
  Lemma nodup_full : NoDup (map fst (d_funs d)).
  Proof.
    rewrite full_funs, map_app, entries_names'. apply NoDup_app_iff. destruct completed_names as [N H]. unfold d0. rewrite new_names. split; [apply (bi_funs _ _ _ B)|split; [exact N|]].
    intros x Hx Hx'. apply H in Hx' as [Hx' _]. contradiction.
  Qed.
  Lemma full_lookup x e : lookup x (d_funs d) = Some e <-> In (x, e) (d_funs d).
  Proof. split; [apply lookup_in|apply in_lookup; apply nodup_full]. Qed.
  Lemma full_entry x e : In x (names_of (completed l)) -> lookup x (d_funs d) = Some e -> In (x, e) (entries d0 (length (d_funs d0)) (completed l)).
  Proof.
    intros Hx H. apply lookup_in in H. rewrite full_funs in H. apply in_app_iff in H as [H|H]; [|exact H]. exfalso. apply completed_names in Hx as [Hx _]. apply Hx. rewrite <- (new_names bs bf kw sh l). apply in_map_iff. exists (x, e). auto.
  Qed.
  Lemma entry_describes i j x e : entry_of d0 j i = Some (x, e) -> describes (fun x => lookup x (d_sorts d)) i x (entry_cache e).
  Proof.
    rewrite full_sorts. destruct i as [n|n args out|n args out|a|n ps body|t|t|t|o|c]; cbn [entry_of describes]; try discriminate.
    - destruct (lookup out (d_sorts d0)) as [o|] eqn:Eo; [|discriminate]. destruct (get_sorts d0 args) as [ss|] eqn:Es; [|discriminate]. apply get_sorts_spec in Es. cbv zeta.
      assert (Ec : forall s, user_bool_to_condition s = cond_of s) by reflexivity.
      destruct (sort_eqb (user_bool_to_condition o) SName) eqn:En.
      + intros [= <- <-]. split; [reflexivity|]. exists j, ss, o. repeat split; auto. left. split; [destruct o; try discriminate; reflexivity|]. reflexivity.
      + destruct (is_term_algebra (user_bool_to_condition o)); [|discriminate]. intros [= <- <-]. split; [reflexivity|]. exists j, ss, o. repeat split; auto. right. split; [destruct o; try discriminate; congruence|]. reflexivity.
    - destruct (get_sorts d0 args) as [ss|] eqn:Es; [|discriminate]. apply get_sorts_spec in Es. intros [= <- <-]. split; [reflexivity|]. exists j, ss. auto.
    - destruct (get_sorts d0 (map snd (sa_params a))) as [ss|] eqn:Es; [|discriminate]. apply get_sorts_spec in Es. intros [= <- <-]. split; [reflexivity|]. exists j, ss, (combine (map fst (sa_params a)) ss).
      assert (Hl : length ss = length (sa_params a)) by (apply (f_equal (@length _)) in Es; rewrite !map_length in Es; auto). split; [exact Es|]. split; [|split; [|reflexivity]].
      + clear -Hl. revert Hl. generalize (sa_params a). revert ss. induction ss as [|s ss IH]; intros [|p ps] Hl; try discriminate; [reflexivity|]. cbn. f_equal. apply IH. cbn in Hl. lia.
      + clear -Hl. revert Hl. generalize (sa_params a). revert ss. induction ss as [|s ss IH]; intros [|p ps] Hl; try discriminate; [reflexivity|]. cbn. f_equal. apply IH. cbn in Hl. lia.
  Qed.

  Lemma declared_full q : queries_of l = [q] -> declared bs bf l (full_source bs bf kw sh l q).
  Proof.
    intros Hq. unfold full_source. split; cbn [so_env so_asserts so_lemmas so_orders so_crypto so_query]; fold d; cbn [penv_of e_sorts e_functions e_macros].
    - intros x s H. rewrite full_sorts in H. exact (typed_sorts _ _ _ _ _ _ _ H).
    - intros x y s Hx Hy Ex Ey. rewrite full_sorts in Ex, Ey.
      assert (P : forall z, In z (types_of l) -> lookup z (d_sorts d0) = Some s -> In (z, s) (number (length bs) (types_of l))).
      { intros z Hz Ez. apply lookup_in in Ez. cbn [d0 typed_env with_sorts d_sorts] in Ez. apply in_app_iff in Ez as [Ez|Ez]; [|exact Ez]. elim (proj2 (wd_types _ _ _ _ W) z Hz). apply in_map_iff. exists (z, s). auto. }
      eapply number_inj; eauto.
    - intros x Hx. rewrite full_sorts. apply lookup_some. unfold d0. rewrite typed_names. apply in_app_iff. exact Hx.
    - intros x fc H. assert (E : lookup x (d_funs d) = Some (EnFun fc)).
      { apply full_lookup. rewrite full_funs. apply in_app_iff. left. cbn. apply in_map_iff. exists (x, fc). auto. }
      rewrite E. reflexivity.
    - intros i x fc Hi Hx H. destruct (lookup x (d_funs d)) as [e|] eqn:E; [|discriminate]. cbn in H. injection H as <-.
      apply full_entry in E; [|apply names_in; eauto]. apply entries_in in E as (i' & j & Hi' & He & _).
      assert (i = i'). { apply (names_unique (completed l) i i' x); [apply completed_names|exact Hi|exact Hi'|exact Hx|]. destruct (entry_name _ _ _ _ He) as [-> _]. left. reflexivity. }
      subst i'. eapply entry_describes; eauto.
    - intros x. assert (E : option_map entry_cache (lookup x (d_funs d)) <> None <-> lookup x (d_funs d) <> None) by (destruct (lookup x (d_funs d)); cbn; split; congruence). rewrite E, lookup_some, full_funs, map_app, entries_names', in_app_iff. unfold d0. rewrite new_names. tauto.
    - intros x y fc fc' Hx Hy Ex Ey Ef. destruct (lookup x (d_funs d)) as [e|] eqn:E; [|discriminate]. destruct (lookup y (d_funs d)) as [e'|] eqn:E'; [|discriminate]. cbn in Ex, Ey. injection Ex as <-. injection Ey as <-.
      apply full_entry in E; [|exact Hx]. apply full_entry in E'; [|exact Hy]. pose proof (entries_inj _ _ _ _ _ _ _ E E' Ef) as X. congruence.
    - intros i x m Hi Hx H. rewrite full_macros in H. apply lookup_in in H. unfold macros in H. apply in_flat_map in H as (i' & Hi' & H). destruct (macro_of d0 i') as [e|] eqn:Em; [|destruct H]. destruct H as [->|[]].
      assert (i = i'). { apply (macros_unique l i i' x); [apply (wd_macros _ _ _ _ W)|exact Hi|exact Hi'|exact Hx|]. rewrite (macro_name _ _ _ Em). left. reflexivity. }
      subst i'. clear Hx. destruct i as [n|n args out|n args out|a|n ps body|t|t|t|o|c]; try discriminate. cbn [macro_of describes_macro] in *. destruct (get_sorts d0 (map snd ps)) as [ss|] eqn:Es; [|discriminate]. cbn in Em. injection Em as <- <-. cbn [mc_args mc_body].
      apply get_sorts_spec in Es. assert (Hl : length ss = length ps) by (apply (f_equal (@length _)) in Es; rewrite !map_length in Es; auto).
      split; [reflexivity|]. split; [|split; [|reflexivity]].
      + clear -Hl. revert ps Hl. induction ss as [|s ss IH]; intros [|p ps] Hl; try discriminate; [reflexivity|]. cbn. f_equal. apply IH. cbn in Hl. lia.
      + rewrite full_sorts. rewrite Es. f_equal. clear -Hl. revert ps Hl. induction ss as [|s ss IH]; intros [|p ps] Hl; try discriminate; [reflexivity|]. cbn. f_equal. apply IH. cbn in Hl. lia.
    - intros x. rewrite full_macros, lookup_some. assert (E : map fst (macros d0 l) = macros_of l).
      { assert (H : forall i, In i l -> item_fits d0 i) by (intros i Hi; apply (well_fits bs bf kw sh l B W); unfold completed; destruct (in_dec _ _ _); [exact Hi|apply in_app_iff; auto]).
        clear -H. clearbody d0. revert H. generalize l. intros ls0 H. induction ls0 as [|i ls IH]; [reflexivity|]. rewrite macros_cons. unfold macros in *. cbn [flat_map]. rewrite map_app, IH by (intros j Hj; apply H; right; exact Hj). f_equal.
        destruct (macro_of d0 i) as [e|] eqn:E; [symmetry; exact (macro_name _ _ _ E)|]. destruct (macros_of [i]) eqn:Em; [reflexivity|]. exfalso. apply (proj1 (proj2 (H i (or_introl eq_refl)))); [rewrite Em; discriminate|exact E]. }
      rewrite E. tauto.
    - auto.
  Qed.
End Declared.

(** ** C98: panics *)
Lemma sorts_panic l : forall d, declare_sorts d l <> DPanic.
Proof. induction l as [|i l IH]; intros d; [discriminate|]. destruct i; cbn [declare_sorts]; try apply IH. destruct (is_some _); [discriminate|apply IH]. Qed.
Lemma item_sorts f i f' : fetch_item f i = DOk f' -> d_sorts (ft_env f') = d_sorts (ft_env f).
Proof.
  destruct f as [d as_ le or cr q ini]. unfold fetch_item, declare_function, declare_cell, declare_step, declare_let, on_env, with_env, add_fun, add_macro. cbn [ft_query ft_env ft_init ft_asserts ft_lemmas ft_orders ft_crypto]. destruct q as [q|]; [|intros [= <-]; reflexivity]. destruct i; try (intros [= <-]; reflexivity); cbv zeta.
  - destruct (contains_name _ _); [discriminate|]. destruct (lookup _ _); [|discriminate]. destruct (get_sorts _ _); [|discriminate]. destruct (sort_eqb _ _); [intros [= <-]; reflexivity|]. destruct (is_term_algebra _); [intros [= <-]; reflexivity|discriminate].
  - destruct (contains_name _ _); [discriminate|]. destruct (get_sorts _ _); [|discriminate]. intros [= <-]; reflexivity.
  - destruct (contains_name _ _); [discriminate|]. destruct (get_sorts _ _); [|discriminate]. destruct (Nat.eqb _ _); [|intros [= <-]; reflexivity]. destruct (Nat.eqb _ 0); [intros [= <-]; reflexivity|discriminate].
  - destruct (contains_macro _ _); [discriminate|]. destruct (get_sorts _ _); [|discriminate]. intros [= <-]; reflexivity.
Qed.
Lemma item_panic f i : fetch_item f i = DPanic -> exists n args out o, i = IFun n args out /\ lookup out (d_sorts (ft_env f)) = Some o /\ is_term_algebra (user_bool_to_condition o) = false.
Proof.
  unfold fetch_item, declare_function, declare_cell, declare_step, declare_let, on_env. destruct (ft_query f) as [q|]; [|discriminate]. destruct i; try discriminate.
  - destruct (contains_name _ _); [discriminate|]. destruct (lookup _ _) as [o|] eqn:E; [|discriminate]. destruct (get_sorts _ _); [|discriminate]. cbv zeta. destruct (sort_eqb _ _); [discriminate|]. destruct (is_term_algebra _) eqn:Et; [discriminate|]. intros _. exists n, args, out, o. auto.
  - destruct (contains_name _ _); [discriminate|]. destruct (get_sorts _ _); discriminate.
  - destruct (contains_name _ _); [discriminate|]. destruct (get_sorts _ _); [|discriminate]. destruct (Nat.eqb _ _); [|discriminate]. destruct (Nat.eqb _ 0); discriminate.
  - destruct (contains_macro _ _); [discriminate|]. destruct (get_sorts _ _); discriminate.
Qed.
Lemma items_panic l : forall f, fetch_items f l = DPanic -> exists n args out o, In (IFun n args out) l /\ lookup out (d_sorts (ft_env f)) = Some o /\ is_term_algebra (user_bool_to_condition o) = false.
Proof.
  induction l as [|i l IH]; intros f H; [discriminate|]. cbn in H. destruct (fetch_item f i) as [| |f'] eqn:E; [discriminate| |].
  - apply item_panic in E as (n & args & out & o & -> & H1 & H2). exists n, args, out, o. split; [left; reflexivity|auto].
  - apply IH in H as (n & args & out & o & Hin & H1 & H2). rewrite (item_sorts _ _ _ E) in H1. exists n, args, out, o. split; [right; exact Hin|auto].
Qed.
Lemma declare_panic bs bf kw sh l : builtins bs bf kw -> declare_all bs bf kw sh l = DPanic ->
  exists n args out, In (IFun n args out) l /\ (In (out, SBitstring) bs \/ In out (types_of l)).
Proof.
  intros B H. unfold declare_all in H. destruct (declare_sorts (new_env bs bf kw sh) l) as [| |d] eqn:Es; [discriminate|elim (sorts_panic _ _ Es)|].
  destruct (sorts_exact l (new_env bs bf kw sh)) as [S1 S2]. pose proof (S2 _ Es) as Ht. rewrite (S1 Ht) in Es.
  assert (X : d = typed_env bs bf kw sh l) by (symmetry; exact (f_equal (fun r => match r with DOk a => a | _ => d end) Es)). clear Es. subst d.
  unfold fetch_all in H. destruct (fetch_items _ l) as [| |f] eqn:Ef; [discriminate| |].
  - apply items_panic in Ef as (n & args & out & o & Hin & H1 & H2). exists n, args, out. split; [exact Hin|]. cbn [ft_env] in H1. apply typed_sorts in H1 as [H1|[H1 _]]; [|auto]. left.
    pose proof (bi_kinds _ _ _ B _ _ H1) as Hk. cbn in Hk. repeat destruct Hk as [<-|Hk]; try discriminate H2; try exact H1. destruct Hk.
  - exfalso. destruct (ft_init f).
    + destruct (ft_query f) as [[q|]|]; discriminate.
    + unfold declare_step in H. destruct (contains_name _ _); [discriminate|]. destruct (get_sorts _ _); [|discriminate]. destruct (ft_query f) as [[q|]|]; discriminate.
Qed.
