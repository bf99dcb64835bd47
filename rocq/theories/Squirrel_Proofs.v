(** Proofs about the Squirrel front end. *)
From Coq Require Import List Arith Bool Lia String Ascii.
From Verif Require Import Smt_Model Squirrel_Model Squirrel_Spec.
Import ListNotations.
Local Open Scope list_scope.

Lemma teqb_spec a b : text_eqb a b = true <-> a = b.
Proof. unfold text_eqb. destruct (list_eq_dec ascii_dec a b); split; congruence. Qed.
Lemma teqb_refl a : text_eqb a a = true. Proof. apply teqb_spec. reflexivity. Qed.
Lemma existsb_teqb s l : existsb (text_eqb s) l = true <-> In s l.
Proof.
  rewrite existsb_exists. split; [intros (x & H & E); apply teqb_spec in E; subst; assumption|].
  intros H. exists s. split; [assumption|apply teqb_refl].
Qed.

Lemma look_none {A} (l : list (text * A)) s : look l s = None <-> ~ In s (map fst l).
Proof.
  induction l as [|[k v] l IH]; cbn; [intuition|]. destruct (text_eqb k s) eqn:E.
  - apply teqb_spec in E. subst. split; [discriminate|]. intros H. exfalso. apply H. auto.
  - rewrite IH. assert (k <> s) by (intros ->; rewrite teqb_refl in E; discriminate). intuition.
Qed.

Definition text_eq_dec : forall a b : text, {a = b} + {a <> b} := list_eq_dec ascii_dec.

Lemma special_keys s : In s special <-> In s (map fst remapped).
Proof.
  assert (H : forall l l', forallb (fun x => if in_dec text_eq_dec x l' then true else false) l = true -> forall x, In x l -> In x l').
  { intros l l' H x Hx. rewrite forallb_forall in H. specialize (H x Hx). destruct (in_dec text_eq_dec x l'); [assumption|discriminate]. }
  split; apply H; vm_compute; reflexivity.
Qed.

Lemma not_special wide k s : ~ In s special -> sanitize wide k s = kind_text k ++ (if alnum wide s then s else str "_base64_" ++ base64 s).
Proof. intros H. unfold sanitize. rewrite special_keys in H. apply look_none in H. rewrite H. reflexivity. Qed.

(** ** Base 64 *)
Lemma digit_inj n m : n < 64 -> m < 64 -> digit n = digit m -> n = m.
Proof.
  assert (H : forallb (fun n => forallb (fun m => implb (Ascii.eqb (digit n) (digit m)) (Nat.eqb n m)) (seq 0 64)) (seq 0 64) = true)
    by (vm_compute; reflexivity).
  intros Hn Hm E. rewrite forallb_forall in H. specialize (H n (proj2 (in_seq 64 0 n) ltac:(lia))). rewrite forallb_forall in H.
  specialize (H m (proj2 (in_seq 64 0 m) ltac:(lia))). rewrite E, Ascii.eqb_refl in H. apply Nat.eqb_eq. exact H.
Qed.
Lemma byte_lt c : byte c < 256. Proof. apply nat_ascii_bounded. Qed.
Lemma byte_inj a b : byte a = byte b -> a = b.
Proof. intros H. rewrite <- (ascii_nat_embedding a), <- (ascii_nat_embedding b). f_equal. exact H. Qed.

Lemma text_ind3 (P : text -> Prop) : P [] -> (forall a, P [a]) -> (forall a b, P [a; b]) -> (forall a b c l, P l -> P (a :: b :: c :: l)) -> forall l, P l.
Proof.
  intros H0 H1 H2 H3. enough (H : forall n l, List.length l <= n -> P l) by (intros l; apply (H (List.length l)); reflexivity).
  induction n as [|n IH]; intros [|a [|b [|c l]]] Hl; cbn in Hl; auto; try lia. apply H3, IH. lia.
Qed.

Lemma part4 a : byte a = 4 * (byte a / 4) + byte a mod 4 /\ byte a mod 4 < 4 /\ byte a / 4 < 64.
Proof. pose proof (byte_lt a). pose proof (Nat.div_mod_eq (byte a) 4). pose proof (Nat.mod_upper_bound (byte a) 4 ltac:(lia)). lia. Qed.
Lemma part16 a : byte a = 16 * (byte a / 16) + byte a mod 16 /\ byte a mod 16 < 16 /\ byte a / 16 < 16.
Proof. pose proof (byte_lt a). pose proof (Nat.div_mod_eq (byte a) 16). pose proof (Nat.mod_upper_bound (byte a) 16 ltac:(lia)). lia. Qed.
Lemma part64 a : byte a = 64 * (byte a / 64) + byte a mod 64 /\ byte a mod 64 < 64 /\ byte a / 64 < 4.
Proof. pose proof (byte_lt a). pose proof (Nat.div_mod_eq (byte a) 64). pose proof (Nat.mod_upper_bound (byte a) 64 ltac:(lia)). lia. Qed.

Lemma cons_eq {A} (a b : A) l l' : a :: l = b :: l' -> a = b /\ l = l'.
Proof. intros [= -> ->]. auto. Qed.
Lemma base64_inj : forall l l', base64 l = base64 l' -> l = l'.
Proof.
  induction l as [|a|a b|a b c l IH] using text_ind3; intros [|a' [|b' [|c' l']]]; cbn [base64]; intros H; try discriminate H; [reflexivity| | |].
  - apply cons_eq in H as [H1 H]. apply cons_eq in H as [H2 _]. pose proof (part4 a). pose proof (part4 a'). apply digit_inj in H1; [|lia|lia]. apply digit_inj in H2; [|lia|lia].
    f_equal. apply byte_inj. lia.
  - apply cons_eq in H as [H1 H]. apply cons_eq in H as [H2 H]. apply cons_eq in H as [H3 _]. pose proof (part4 a). pose proof (part4 a'). pose proof (part16 b). pose proof (part16 b').
    apply digit_inj in H1; [|lia|lia]. apply digit_inj in H2; [|lia|lia]. apply digit_inj in H3; [|lia|lia].
    f_equal; [apply byte_inj; lia|f_equal; apply byte_inj; lia].
  - apply cons_eq in H as [H1 H]. apply cons_eq in H as [H2 H]. apply cons_eq in H as [H3 H]. apply cons_eq in H as [H4 H5]. pose proof (part4 a). pose proof (part4 a'). pose proof (part16 b). pose proof (part16 b').
    pose proof (part64 c). pose proof (part64 c').
    apply digit_inj in H1; [|lia|lia]. apply digit_inj in H2; [|lia|lia]. apply digit_inj in H3; [|lia|lia]. apply digit_inj in H4; [|lia|lia].
    apply IH in H5. subst. f_equal; [apply byte_inj; lia|f_equal; [apply byte_inj; lia|f_equal; apply byte_inj; lia]].
Qed.

Lemma alphabet_digit n : n < 64 -> In (digit n) alphabet.
Proof. intros H. apply nth_In. vm_compute. vm_compute in H. exact H. Qed.

(** ** Paths *)
Definition clean (s : text) : Prop := ~ In ";"%char s /\ ~ In "$"%char s /\ ~ In "#"%char s.
Definition starts (r : text) : Prop := r = [] \/ exists r', r = str "$#$" ++ r'.

Lemma clean_split a b r r' : ~ In "$"%char a -> ~ In "$"%char b -> starts r -> starts r' -> a ++ r = b ++ r' -> a = b /\ r = r'.
Proof.
  revert b. induction a as [|x a IH]; intros [|y b] Ha Hb Hr Hr' H; cbn in H; auto.
  - destruct Hr as [->|[q ->]]; [discriminate|]. injection H as <- _. exfalso. apply Hb. left. reflexivity.
  - destruct Hr' as [->|[q ->]]; [discriminate|]. injection H as -> _. exfalso. apply Ha. left. reflexivity.
  - injection H as <- H. destruct (IH b) as [-> ->]; auto; [intros ?; apply Ha; right; assumption|intros ?; apply Hb; right; assumption].
Qed.
Lemma dummy_split b r r' : ~ In "$"%char b -> starts r' -> str "$dummy" ++ r = b ++ r' -> False.
Proof.
  intros Hb Hr H. destruct b as [|y b]; [|injection H as <- _; apply Hb; left; reflexivity].
  destruct Hr as [->|[q ->]]; discriminate H.
Qed.
Lemma symbol_split a b r r' : symbol a -> symbol b -> starts r -> starts r' -> a ++ r = b ++ r' -> a = b /\ r = r'.
Proof.
  intros [->|(_ & Ha & _)] [->|(_ & Hb & _)] Hr Hr' H.
  - apply app_inv_head in H. auto.
  - exfalso. exact (dummy_split b r r' Hb Hr' H).
  - exfalso. exact (dummy_split a r' r Ha Hr (eq_sym H)).
  - apply clean_split; auto.
Qed.
Lemma join_cons sep a b l : join sep (a :: b :: l) = a ++ sep ++ join sep (b :: l). Proof. reflexivity. Qed.
Lemma join_inj l : forall l', Forall symbol l -> Forall symbol l' -> l <> [] -> l' <> [] -> join separator l = join separator l' -> l = l'.
Proof.
  induction l as [|a l IH]; [contradiction|]. intros [|b l'] Hl Hl' _ N H; [contradiction|]. inversion Hl; subst. inversion Hl'; subst.
  destruct l as [|a2 l], l' as [|b2 l'].
  - cbn in H. subst. reflexivity.
  - rewrite join_cons in H. cbn [join] in H. rewrite <- (app_nil_r a) in H. apply symbol_split in H; auto; [|left; reflexivity|right; eexists; reflexivity].
    destruct H as [_ H]. discriminate H.
  - rewrite join_cons in H. cbn [join] in H. rewrite <- (app_nil_r b) in H. apply symbol_split in H; auto; [|right; eexists; reflexivity|left; reflexivity].
    destruct H as [_ H]. discriminate H.
  - rewrite !join_cons in H. apply symbol_split in H; auto; [|right; eexists; reflexivity|right; eexists; reflexivity].
    destruct H as [-> H]. apply app_inv_head in H. f_equal. apply IH; auto; discriminate.
Qed.
Lemma path_text_join p : path_text p = join separator (p_npath p ++ [p_symb p]).
Proof. unfold path_text. destruct (p_npath p); reflexivity. Qed.
Lemma path_text_inj p p' : legal_path p -> legal_path p' -> path_text p = path_text p' -> p = p'.
Proof.
  intros [H1 H2] [H3 H4]. rewrite !path_text_join. intros H.
  apply join_inj in H; try (intros E; apply app_eq_nil in E; destruct E; discriminate); try (apply Forall_app; auto).
  apply app_inj_tail in H. destruct p, p', H; cbn in *. congruence.
Qed.

(** ** [sanitize] *)
Lemma kind_inj k k' r r' : kind_text k ++ r = kind_text k' ++ r' -> same_space k k' /\ r = r'.
Proof.
  unfold same_space. destruct k, k'; cbn; intros H; try discriminate H; (injection H as H; split; [auto|assumption]).
Qed.
Lemma alnum_chars wide s : alnum wide s = true -> ~ In "_"%char s.
Proof.
  unfold alnum. intros H. apply andb_prop in H as [H _]. rewrite forallb_forall in H. intros Hc. specialize (H _ Hc). vm_compute in H. discriminate.
Qed.
Lemma body_inj wide s s' :
  (if alnum wide s then s else str "_base64_" ++ base64 s) = (if alnum wide s' then s' else str "_base64_" ++ base64 s') -> s = s'.
Proof.
  destruct (alnum wide s) eqn:E, (alnum wide s') eqn:E'; intros H; auto.
  - exfalso. apply (alnum_chars _ _ E). rewrite H. left. reflexivity.
  - exfalso. apply (alnum_chars _ _ E'). rewrite <- H. left. reflexivity.
  - apply app_inv_head in H. apply base64_inj. assumption.
Qed.
Lemma sanitize_inj wide k k' s s' : ~ In s special -> ~ In s' special -> sanitize wide k s = sanitize wide k' s' -> same_space k k' /\ s = s'.
Proof.
  intros H H'. rewrite !not_special by assumption. intros E. apply kind_inj in E as [E1 E2]. split; [assumption|]. apply body_inj in E2. assumption.
Qed.
Lemma reserved_underscore : Forall (fun t => ~ In "_"%char t) reserved.
Proof.
  assert (H : forallb (fun t => negb (existsb (Ascii.eqb "_"%char) t)) reserved = true) by (vm_compute; reflexivity).
  rewrite forallb_forall in H. apply Forall_forall. intros t Ht Hu. specialize (H t Ht). apply negb_true_iff in H.
  assert (existsb (Ascii.eqb "_"%char) t = true) by (apply existsb_exists; eexists; split; [eassumption|apply Ascii.eqb_refl]). congruence.
Qed.
Lemma kind_underscore k r : In "_"%char (kind_text k ++ r).
Proof. apply in_or_app. left. destruct k; vm_compute; tauto. Qed.
Lemma special_reserved wide k s : In s special -> In (sanitize wide k s) reserved.
Proof.
  intros H. unfold sanitize.
  assert (G : forallb (fun x => match look remapped x with Some t => if in_dec text_eq_dec t reserved then true else false | None => false end) special = true)
    by (vm_compute; reflexivity).
  rewrite forallb_forall in G. specialize (G s H). destruct (look remapped s) as [t|]; [|discriminate].
  destruct (in_dec text_eq_dec t reserved); [assumption|discriminate].
Qed.

(** ** Characters *)
Definition smt_charb (c : ascii) : bool :=
  ascii_alnum c || existsb (Ascii.eqb c) (list_ascii_of_string "~!@$%^&*_-+=<>.?/").
Lemma smt_charb_spec c : smt_charb c = true <-> smt_char c.
Proof.
  unfold smt_charb, smt_char, ascii_alnum, in_range, byte. rewrite orb_true_iff. apply or_iff_compat_l || idtac.
  split; (intros [H|H]; [left|right]).
  - rewrite !orb_true_iff, !andb_true_iff, !Nat.leb_le in H. lia.
  - apply existsb_exists in H. destruct H as (x & Hx & E). apply Ascii.eqb_eq in E. subst. assumption.
  - rewrite !orb_true_iff, !andb_true_iff, !Nat.leb_le. lia.
  - apply existsb_exists. exists c. split; [assumption|apply Ascii.eqb_refl].
Qed.
Lemma digit_smt n : n < 64 -> (smt_char (digit n) <-> n <> 62).
Proof.
  intros H. rewrite <- smt_charb_spec.
  assert (G : forallb (fun n => Bool.eqb (smt_charb (digit n)) (negb (Nat.eqb n 62))) (seq 0 64) = true) by (vm_compute; reflexivity).
  rewrite forallb_forall in G. specialize (G n (proj2 (in_seq 64 0 n) ltac:(lia))). apply eqb_prop in G. rewrite G, negb_true_iff, Nat.eqb_neq. reflexivity.
Qed.

Definition third (s : text) : Prop := forall i c, nth_error s i = Some c -> i mod 3 = 2 -> c <> ">"%char /\ c <> "~"%char.
Lemma third_cons a b c l : third (a :: b :: c :: l) <-> (c <> ">"%char /\ c <> "~"%char) /\ third l.
Proof.
  unfold third. split.
  - intros H. split; [apply (H 2 c); reflexivity|]. intros i d Hd Hi. apply (H (S (S (S i))) d Hd).
    replace (S (S (S i))) with (i + 1 * 3) by lia. rewrite Nat.mod_add by lia. assumption.
  - intros [Hc H] i d Hd Hi. destruct i as [|[|[|i]]]; cbn in Hd; try discriminate Hi; [injection Hd as <-; assumption|].
    apply (H i d Hd). replace (S (S (S i))) with (i + 1 * 3) in Hi by lia. rewrite Nat.mod_add in Hi by lia. assumption.
Qed.
Lemma base64_smt l : ascii_only l -> (Forall smt_char (base64 l) <-> third l).
Proof.
  induction l as [|a|a b|a b c l IH] using text_ind3; intros Hl; cbn [base64].
  - split; [intros _ [|i] c Hc; discriminate Hc|constructor].
  - unfold ascii_only in Hl. inversion Hl; subst. pose proof (part4 a). fold (byte a) in *.
    rewrite !Forall_cons_iff, !digit_smt by lia. split; [|intros _; split; [lia|split; [lia|constructor]]].
    intros _ [|[|i]] c Hc Hi; [discriminate Hi|discriminate Hc|discriminate Hc].
  - unfold ascii_only in Hl. rewrite !Forall_cons_iff in Hl. destruct Hl as (Ha & Hb & _). fold (byte a) in *. fold (byte b) in *.
    pose proof (part4 a). pose proof (part16 b). rewrite !Forall_cons_iff, !digit_smt by lia.
    split; [|intros _; split; [lia|split; [lia|split; [lia|constructor]]]].
    intros _ [|[|[|i]]] c Hc Hi; [discriminate Hi|discriminate Hi|discriminate Hc|discriminate Hc].
  - unfold ascii_only in Hl. rewrite !Forall_cons_iff in Hl. destruct Hl as (Ha & Hb & Hc & Hl). fold (byte a) in *. fold (byte b) in *. fold (byte c) in *.
    pose proof (part4 a). pose proof (part16 b). pose proof (part64 c). rewrite !Forall_cons_iff, !digit_smt, third_cons, IH by (assumption || lia).
    assert (E : byte c mod 64 <> 62 <-> c <> ">"%char /\ c <> "~"%char).
    { split.
      - intros N. split; intros ->; apply N; reflexivity.
      - intros [N1 N2] E. assert (byte c = 62 \/ byte c = 126) as [F|F] by lia; [apply N1|apply N2]; apply byte_inj; rewrite F; reflexivity. }
    intuition lia.
Qed.

(** ** Equality tests *)
Lemma list_eqb_spec {A} (eqb : A -> A -> bool) (H : forall x y, eqb x y = true <-> x = y) : forall l l', list_eqb eqb l l' = true <-> l = l'.
Proof.
  induction l as [|a l IH]; intros [|b l']; cbn; split; try discriminate; try reflexivity.
  - intros E. apply andb_prop in E as [E1 E2]. apply H in E1. apply IH in E2. congruence.
  - intros [= -> ->]. rewrite (proj2 (H b b) eq_refl), (proj2 (IH l') eq_refl). reflexivity.
Qed.
Lemma item_eqb_spec {A} (eqb : A -> A -> bool) (H : forall x y, eqb x y = true <-> x = y) : forall a b, item_eqb eqb a b = true <-> a = b.
Proof.
  intros [[p x] [s y]] [[p' x'] [s' y']]. unfold item_eqb. cbn. rewrite !andb_true_iff, !Nat.eqb_eq, !H.
  split; [intros [[-> ->] [-> ->]]; reflexivity|intros [= -> -> -> ->]; auto].
Qed.
Lemma jvar_eqb_spec a b : jvar_eqb a b = true <-> a = b.
Proof.
  destruct a, b. unfold jvar_eqb. cbn. rewrite andb_true_iff, teqb_spec, Nat.eqb_eq. split; [intros [-> ->]; reflexivity|intros [= -> ->]; auto].
Qed.
Lemma var_list_eqb_spec : forall a b, var_list_eqb a b = true <-> a = b.
Proof. apply list_eqb_spec, jvar_eqb_spec. Qed.

(** ** The prefix order *)
Lemma forallb_combine {A} (eqb : A -> A -> bool) (H : forall x y, eqb x y = true <-> x = y) : forall a b,
  forallb (fun p => eqb (fst p) (snd p)) (combine a b) = true <-> (exists r, b = a ++ r) \/ (exists r, a = b ++ r).
Proof.
  induction a as [|x a IH]; intros [|y b]; cbn.
  - split; [left; exists []; reflexivity|reflexivity].
  - split; [left; exists (y :: b); reflexivity|reflexivity].
  - split; [right; exists (x :: a); reflexivity|reflexivity].
  - rewrite andb_true_iff, H, IH. split.
    + intros [-> [[r ->]|[r ->]]]; [left|right]; exists r; reflexivity.
    + intros [[r E]|[r E]]; injection E as -> ->; (split; [reflexivity|]); [left|right]; exists r; reflexivity.
Qed.
Lemma prefix_length {A} (a b : list A) : strict_prefix a b -> List.length a < List.length b.
Proof. intros (x & r & ->). rewrite app_length. cbn. lia. Qed.
Section Cmp.
  Context {A : Type} (eqb : A -> A -> bool) (H : forall x y, eqb x y = true <-> x = y).
  Lemma at_cmp_spec a b : match at_cmp eqb a b with
    | Some Eq => a = b | Some Lt => strict_prefix a b | Some Gt => strict_prefix b a
    | None => a <> b /\ ~ strict_prefix a b /\ ~ strict_prefix b a end.
  Proof.
    unfold at_cmp. destruct (list_eqb (item_eqb eqb) a b) eqn:E; [apply (list_eqb_spec _ (item_eqb_spec eqb H)) in E; assumption|].
    assert (N : a <> b) by (intros <-; rewrite (proj2 (list_eqb_spec _ (item_eqb_spec eqb H) a a) eq_refl) in E; discriminate).
    destruct (forallb _ _) eqn:F.
    - apply (forallb_combine _ (item_eqb_spec eqb H)) in F.
      destruct F as [[[|x r] ->]|[[|x r] ->]]; try (rewrite app_nil_r in N; congruence).
      + replace (List.length a <? List.length (a ++ x :: r)) with true by (symmetry; apply Nat.ltb_lt; rewrite app_length; cbn; lia). exists x, r. reflexivity.
      + replace (List.length (b ++ x :: r) <? List.length b) with false by (symmetry; apply Nat.ltb_ge; rewrite app_length; cbn; lia). exists x, r. reflexivity.
    - split; [assumption|]. split; intros (x & r & ->); (rewrite (proj2 (forallb_combine _ (item_eqb_spec eqb H) _ _)) in F; [discriminate|]); [left|right]; exists (x :: r); reflexivity.
  Qed.
  Lemma prefix_asym (a b : list (item A)) : strict_prefix a b -> ~ strict_prefix b a.
  Proof. intros H1 H2. apply prefix_length in H1, H2. lia. Qed.
  Lemma depends_spec a b : (depends eqb a b = Some true <-> strict_prefix a b) /\ (depends eqb a b = Some false <-> strict_prefix b a).
  Proof.
    pose proof (at_cmp_spec a b) as S. unfold depends. destruct (at_cmp eqb a b) as [[]|].
    - subst. split; (split; [discriminate|]); intros E; apply prefix_length in E; lia.
    - split; (split; [congruence|]); intros E; [reflexivity|]. exfalso. exact (prefix_asym _ _ S E).
    - split; (split; [congruence|]); intros E; [|reflexivity]. exfalso. exact (prefix_asym _ _ S E).
    - destruct S as (_ & S1 & S2). split; (split; [discriminate|contradiction]).
  Qed.
End Cmp.

(** ** Executions of actions *)
Definition size (a : list (item (list jvar))) : nat := List.length (flat_map item_vars a).
Lemma size_cons i a : size (i :: a) = List.length (snd (i_par i)) + List.length (snd (i_sum i)) + size a.
Proof. unfold size, item_vars. cbn. rewrite !app_length. lia. Qed.
Lemma size_app a b : size (a ++ b) = size a + size b.
Proof. unfold size. rewrite flat_map_app, app_length. reflexivity. Qed.

Lemma firstn_app_le {A} n (c d : list A) : n <= List.length c -> firstn n (c ++ d) = firstn n c.
Proof. intros H. rewrite firstn_app. replace (n - List.length c) with 0 by lia. cbn. apply app_nil_r. Qed.
Lemma skipn_app_le {A} n (c d : list A) : n <= List.length c -> skipn n (c ++ d) = skipn n c ++ d.
Proof. intros H. rewrite skipn_app. replace (n - List.length c) with 0 by lia. reflexivity. Qed.

Lemma run_app {V} a : forall b (vals : list V), run_action (a ++ b) vals = run_action a vals ++ run_action b (skipn (size a) vals).
Proof.
  induction a as [|i a IH]; intros b vals; [reflexivity|]. cbn [run_action List.app]. rewrite IH. f_equal. f_equal. f_equal.
  rewrite size_cons. set (n := _ + List.length (snd (i_sum i))). clearbody n. revert vals. clear.
  induction n as [|n IH]; intros vals; [reflexivity|]. destruct vals; cbn; [apply skipn_nil|apply IH].
Qed.
Lemma run_enough {V} a : forall c d : list V, size a <= List.length c -> run_action a (c ++ d) = run_action a c.
Proof.
  induction a as [|i a IH]; intros c d H; [reflexivity|]. cbn [run_action]. rewrite size_cons in H.
  rewrite (firstn_app_le _ c d) by lia. rewrite (skipn_app_le _ c d) by lia. rewrite firstn_app_le by (rewrite skipn_length; lia).
  rewrite (skipn_app_le (_ + _) c d) by lia. rewrite IH by (rewrite skipn_length; lia). reflexivity.
Qed.
Lemma run_prefix {V} a b (va vb w : list V) : strict_prefix a b -> List.length va = size a -> vb = va ++ w -> strict_prefix (run_action a va) (run_action b vb).
Proof.
  intros (x & r & ->) H ->. rewrite run_app, run_enough by lia. cbn [run_action]. eexists. eexists. reflexivity.
Qed.

Definition item_vals {V} (i : item (list V)) : list V := snd (i_par i) ++ snd (i_sum i).
Lemma flat_run {V} a : forall v : list V, List.length v = size a -> flat_map item_vals (run_action a v) = v.
Proof.
  induction a as [|i a IH]; intros v H; [destruct v; [reflexivity|discriminate]|]. cbn [run_action flat_map]. rewrite size_cons in H.
  rewrite IH by (rewrite skipn_length; lia). unfold item_vals. cbn.
  set (p := List.length (snd (i_par i))) in *. set (s := List.length (snd (i_sum i))) in *.
  rewrite <- (firstn_skipn p v) at 4. rewrite <- app_assoc. f_equal. rewrite <- (firstn_skipn s (skipn p v)) at 2. f_equal.
  clear. revert v. induction p as [|p IH]; intros v; [reflexivity|]. destruct v; cbn; [symmetry; apply skipn_nil|apply IH].
Qed.
Definition lens {V} (i : item (list V)) : item nat := mkItem (fst (i_par i), List.length (snd (i_par i))) (fst (i_sum i), List.length (snd (i_sum i))).
Lemma shape_run {V} a : forall v : list V, List.length v = size a -> map lens (run_action a v) = shape a.
Proof.
  induction a as [|i a IH]; intros v H; [reflexivity|]. cbn [run_action map shape]. rewrite size_cons in H.
  change (map _ a) with (shape a). rewrite IH by (rewrite skipn_length; lia). f_equal. unfold lens. cbn [i_par i_sum fst snd].
  rewrite !firstn_length, skipn_length. f_equal; f_equal; lia.
Qed.
Lemma run_length {V} a : forall v : list V, List.length (run_action a v) = List.length a.
Proof. induction a as [|i a IH]; intros v; cbn; [reflexivity|]. rewrite IH. reflexivity. Qed.

(** ** Mutual exclusion *)
Definition weight (i : item nat) : nat := snd (i_par i) + snd (i_sum i).
Lemma sum_cons x l : list_sum (x :: l) = x + list_sum l. Proof. reflexivity. Qed.
Lemma commun_spec : forall a b i, mutex_commun_vars a b = Some i <->
  exists p x y r s, a = p ++ x :: r /\ b = p ++ y :: s /\ i_par x = i_par y /\ fst (i_sum x) <> fst (i_sum y) /\ i = list_sum (map weight p) + snd (i_par x).
Proof.
  assert (E : forall x y : item nat, item_eqb Nat.eqb x y = true <-> x = y) by (apply item_eqb_spec; apply Nat.eqb_eq).
  induction a as [|x a IH]; intros [|y b] i; cbn [mutex_commun_vars].
  - split; [discriminate|]. intros (p & ? & ? & ? & ? & H & _). destruct p; discriminate H.
  - split; [discriminate|]. intros (p & ? & ? & ? & ? & H & _). destruct p; discriminate H.
  - split; [discriminate|]. intros (p & ? & ? & ? & ? & _ & H & _). destruct p; discriminate H.
  - destruct (item_eqb Nat.eqb x y) eqn:Ex.
    + apply E in Ex. subst y. split.
      * destruct (mutex_commun_vars a b) as [j|] eqn:Ej; [|discriminate]. intros [= <-].
        destruct (proj1 (IH b j) Ej) as (p & u & v & r & s & -> & -> & H1 & H2 & ->).
        exists (x :: p), u, v, r, s. repeat split; auto. cbn [map]. rewrite sum_cons. change (weight x) with (snd (i_par x) + snd (i_sum x)). lia.
      * intros (p & u & v & r & s & Ha & Hb & H1 & H2 & ->). destruct p as [|z p]; cbn in Ha, Hb.
        { injection Ha as -> ->. injection Hb as -> ->. congruence. }
        injection Ha as -> ->. injection Hb as ->. rewrite (proj2 (IH (p ++ v :: s) (list_sum (map weight p) + snd (i_par u)))); [|exists p, u, v, r, s; repeat split; auto].
        cbn [map option_map]. rewrite sum_cons. f_equal. change (weight z) with (snd (i_par z) + snd (i_sum z)). lia.
    + assert (Nx : x <> y) by (intros ->; rewrite (proj2 (E y y) eq_refl) in Ex; discriminate).
      split.
      * destruct (_ && _) eqn:Ey; [|discriminate]. intros [= <-]. apply andb_prop in Ey as [Ep Es]. apply andb_prop in Ep as [E1 E2].
        apply Nat.eqb_eq in E1, E2. apply negb_true_iff, Nat.eqb_neq in Es. exists [], x, y, a, b. repeat split; auto.
        destruct (i_par x), (i_par y). cbn in *. congruence.
      * intros (p & u & v & r & s & Ha & Hb & H1 & H2 & ->). destruct p as [|z p]; cbn in Ha, Hb; [|congruence].
        injection Ha as -> ->. injection Hb as -> ->. rewrite H1, !Nat.eqb_refl. rewrite (proj2 (Nat.eqb_neq _ _) H2). reflexivity.
Qed.
Lemma commun_sound {V} : forall a b i (c d e : list V), mutex_commun_vars (shape a) (shape b) = Some i -> List.length c = i ->
  diverge_number (run_action a (c ++ d)) (run_action b (c ++ e)) /\ i <= size a /\ i <= size b.
Proof.
  induction a as [|x a IH]; intros [|y b] i c d e H Hc; try discriminate H. cbn [shape map mutex_commun_vars] in H. rewrite !size_cons.
  change (map _ a) with (shape a) in H. change (map _ b) with (shape b) in H.
  destruct (item_eqb _ _ _) eqn:E.
  - apply (item_eqb_spec Nat.eqb Nat.eqb_eq) in E. injection E as E1 E2 E3 E4. cbn [i_par i_sum fst snd] in *.
    destruct (mutex_commun_vars (shape a) (shape b)) as [j|] eqn:Ej; [|discriminate H]. injection H as H.
    destruct (IH b j (skipn (List.length (snd (i_par x)) + List.length (snd (i_sum x))) c) d e Ej ltac:(rewrite skipn_length; lia)) as ((p & u & v & r & s & H1 & H2 & H3 & H4) & H5 & H6).
    split; [|split; lia]. cbn [run_action]. rewrite <- E1, <- E2, <- E3, <- E4.
    rewrite !(skipn_app_le (_ + _) c) by lia. rewrite H1, H2.
    rewrite !(firstn_app_le _ c) by lia. rewrite !(skipn_app_le _ c) by lia. rewrite !firstn_app_le by (rewrite skipn_length; lia).
    eexists (_ :: p), u, v, r, s. repeat split; auto.
  - cbn [i_par i_sum fst snd] in *. destruct (_ && _) eqn:Ey; [|discriminate]. injection H as <-. apply andb_prop in Ey as [Ep Es]. apply andb_prop in Ep as [E1 E2].
    apply Nat.eqb_eq in E1, E2. apply negb_true_iff, Nat.eqb_neq in Es. split; [|split; lia]. cbn [run_action].
    exists [], (mkItem (fst (i_par x), firstn (List.length (snd (i_par x))) (c ++ d)) (fst (i_sum x), firstn (List.length (snd (i_sum x))) (skipn (List.length (snd (i_par x))) (c ++ d)))).
    eexists. eexists. eexists. split; [reflexivity|]. split; [reflexivity|]. cbn [i_par i_sum fst snd]. split; [|assumption].
    rewrite <- E1, <- E2. rewrite !firstn_app_le by lia. reflexivity.
Qed.
Lemma firstn_common {A} (a b c d : list A) n : n = List.length a + List.length b -> firstn n (a ++ b ++ c) = firstn n (a ++ b ++ d).
Proof. intros ->. rewrite !app_assoc. rewrite (firstn_app_le _ (a ++ b) c), (firstn_app_le _ (a ++ b) d) by (rewrite app_length; lia). reflexivity. Qed.
Lemma commun_complete {V} a b (va vb : list V) : List.length va = size a -> List.length vb = size b -> diverge_number (run_action a va) (run_action b vb) ->
  exists i, mutex_commun_vars (shape a) (shape b) = Some i /\ firstn i va = firstn i vb.
Proof.
  intros Ha Hb (p & x & y & r & s & H1 & H2 & H3 & H4).
  exists (list_sum (map weight (map lens p)) + List.length (snd (i_par x))). split.
  - apply commun_spec. rewrite <- (shape_run a va Ha), <- (shape_run b vb Hb), H1, H2, !map_app. cbn [map].
    exists (map lens p), (lens x), (lens y), (map lens r), (map lens s). repeat split; auto. unfold lens. cbn. rewrite H3. reflexivity.
  - rewrite <- (flat_run a va Ha), <- (flat_run b vb Hb), H1, H2, !flat_map_app. cbn [flat_map]. unfold item_vals at 2 5. rewrite H3, <- !app_assoc.
    apply firstn_common. f_equal. clear. induction p as [|i p IH]; [reflexivity|]. cbn [map flat_map]. rewrite app_length, sum_cons, IH. unfold item_vals at 2. rewrite app_length. reflexivity.
Qed.
Lemma diverge_prefix {A} (a b : list (item A)) : diverge_number a b -> ~ strict_prefix a b /\ ~ strict_prefix b a /\ a <> b.
Proof.
  intros (p & x & y & r & s & -> & -> & _ & H).
  assert (G : forall (u v w : list (item A)) (x y : item A), p ++ x :: u = p ++ y :: v -> x = y) by (intros u v _ x' y' E; apply app_inv_head in E; congruence).
  split; [|split].
  - intros (z & t & E). rewrite <- app_assoc in E. cbn in E. apply G in E; auto. congruence.
  - intros (z & t & E). rewrite <- app_assoc in E. cbn in E. apply G in E; auto. congruence.
  - intros E. apply G in E; auto. congruence.
Qed.

(** ** Renaming *)
Lemma valid_clean s : clean s -> valid s = true.
Proof.
  intros (H1 & H2 & H3). unfold valid. rewrite orb_true_iff. right. apply negb_true_iff. destruct (existsb forbidden s) eqn:E; [|reflexivity].
  exfalso. apply existsb_exists in E. destruct E as (c & Hc & F). unfold forbidden in F. cbn in F. rewrite !orb_true_iff, !Ascii.eqb_eq in F.
  destruct F as [->|[->|[->|F]]]; [contradiction|contradiction|contradiction|discriminate].
Qed.
Lemma clean_u s : clean s -> clean (s ++ str "_u").
Proof.
  intros (H1 & H2 & H3). unfold clean. rewrite !in_app_iff. cbn. intuition discriminate.
Qed.
Fixpoint us (k : nat) : text := match k with 0 => [] | S k' => str "_u" ++ us k' end.
Lemma us_mid k : us k ++ str "_u" = str "_u" ++ us k.
Proof. induction k as [|k IH]; [reflexivity|]. cbn [us]. rewrite <- app_assoc, IH. reflexivity. Qed.

Lemma filter_mono {A} (f g : A -> bool) l : (forall x, f x = true -> g x = true) -> List.length (filter f l) <= List.length (filter g l).
Proof.
  intros H. induction l as [|x l IH]; cbn [filter]; [lia|]. destruct (f x) eqn:E; [rewrite (H x E); cbn [List.length]; lia|].
  destruct (g x); cbn [List.length]; lia.
Qed.
Lemma filter_strict {A} (f g : A -> bool) l s : (forall x, f x = true -> g x = true) -> In s l -> f s = false -> g s = true ->
  List.length (filter f l) < List.length (filter g l).
Proof.
  intros H Hs Hf Hg. induction l as [|x l IH]; [contradiction|]. cbn [filter]. destruct Hs as [->|Hs].
  - rewrite Hf, Hg. cbn [List.length]. apply Nat.lt_succ_r. apply filter_mono. assumption.
  - specialize (IH Hs). destruct (f x) eqn:E; [rewrite (H x E); cbn [List.length]; lia|]. destruct (g x); cbn [List.length]; lia.
Qed.
Lemma filter_shrink (s : text) names : In s names ->
  List.length (filter (fun x => List.length (s ++ str "_u") <=? List.length x) names) < List.length (filter (fun x : text => List.length s <=? List.length x) names).
Proof.
  intros H. rewrite app_length. change (List.length (str "_u")) with 2. apply (filter_strict _ _ _ s); auto.
  - intros x Hx. apply Nat.leb_le in Hx. apply Nat.leb_le. lia.
  - apply Nat.leb_gt. lia.
  - apply Nat.leb_le. lia.
Qed.
Lemma rename_one_ok names : forall N s, clean s -> List.length (filter (fun x => List.length s <=? List.length x) names) <= N ->
  exists k, (forall m, N < m -> rename_one m names s = OOk (s ++ us k)) /\ ~ In (s ++ us k) names /\ clean (s ++ us k) /\
            (forall j, j < k -> In (s ++ us j) names).
Proof.
  induction N as [|N IH]; intros s Hs HN; destruct (existsb (text_eqb s) names) eqn:E.
  - apply existsb_teqb in E. apply filter_shrink in E. exfalso. exact (Nat.nlt_0_r _ (Nat.lt_le_trans _ _ _ E HN)).
  - exists 0. cbn [us]. rewrite app_nil_r. split; [intros [|m] Hm; [lia|]; cbn; rewrite E; reflexivity|].
    split; [intros H; apply existsb_teqb in H; congruence|]. split; [assumption|lia].
  - pose proof E as E'. apply existsb_teqb in E'. pose proof (Nat.lt_le_trans _ _ _ (filter_shrink s names E') HN) as HS.
    destruct (IH (s ++ str "_u") (clean_u s Hs) (proj1 (Nat.lt_succ_r _ _) HS)) as (k & H1 & H2 & H3 & H4).
    assert (Hu : forall j, (s ++ str "_u") ++ us j = s ++ us (S j)) by (intros j; cbn [us]; rewrite <- app_assoc; reflexivity).
    exists (S k). rewrite <- Hu. split; [|split; [assumption|split; [assumption|]]].
    + intros [|m] Hm; [lia|]. cbn [rename_one]. rewrite E, (valid_clean _ (clean_u s Hs)). apply H1. lia.
    + intros [|j] Hj; [cbn [us]; rewrite app_nil_r; assumption|]. rewrite <- Hu. apply H4. lia.
  - exists 0. cbn [us]. rewrite app_nil_r. split; [intros [|m] Hm; [lia|]; cbn; rewrite E; reflexivity|].
    split; [intros H; apply existsb_teqb in H; congruence|]. split; [assumption|lia].
Qed.
Lemma filter_len {A} (f : A -> bool) l : List.length (filter f l) <= List.length l.
Proof. induction l as [|x l IH]; cbn; [lia|]. destruct (f x); cbn; lia. Qed.

Lemma rename_ok : forall l names, Forall clean (map j_name l) -> exists r,
  (forall m, List.length names + List.length l < m -> rename m names l = OOk r) /\
  Forall2 (fun v w => j_sort w = j_sort v /\ exists k, j_name w = j_name v ++ us k) l r /\
  Forall clean (map j_name r) /\ NoDup (map j_name r) /\ (forall x, In x (map j_name r) -> ~ In x names) /\
  (NoDup (map j_name l) -> (forall x, In x (map j_name l) -> ~ In x names) -> r = l).
Proof.
  induction l as [|v l IH]; intros names Hl; cbn [rename].
  - exists []. split; [reflexivity|]. repeat split; auto; try constructor.
  - inversion Hl as [|? ? Hv Hl']; subst.
    destruct (rename_one_ok names (List.length names) (j_name v) Hv (filter_len _ _)) as (k & H1 & H2 & H3 & H4).
    destruct (IH ((j_name v ++ us k) :: names) Hl') as (r & R1 & R2 & R3 & R4 & R5 & R6).
    exists (mkJVar (j_name v ++ us k) (j_sort v) :: r). split; [|split; [|split; [|split; [|split]]]].
    + intros m Hm. cbn [List.length] in Hm. rewrite H1 by lia. rewrite R1 by (cbn; lia). reflexivity.
    + constructor; [|assumption]. cbn. split; [reflexivity|]. exists k. reflexivity.
    + cbn. constructor; assumption.
    + cbn. constructor; [|assumption]. intros Hin. apply (R5 _ Hin). left. reflexivity.
    + intros x [<-|Hx]; [exact H2|]. intros Hn. apply (R5 _ Hx). right. assumption.
    + intros Hnd Hdis. cbn in Hnd. inversion Hnd as [|? ? N1 N2]; subst.
      assert (k = 0) as -> by (destruct k; [reflexivity|]; exfalso; specialize (H4 0 ltac:(lia)); cbn in H4; rewrite app_nil_r in H4; apply (Hdis (j_name v)); [left; reflexivity|assumption]).
      cbn [us] in *. rewrite app_nil_r in *. f_equal; [destruct v; reflexivity|]. apply R6; [assumption|].
      intros x Hx [<-|Hn]; [contradiction|]. apply (Hdis x); [right; assumption|assumption].
Qed.

Lemma special_underscore s : In "_"%char s -> ~ In s special.
Proof.
  assert (H : forallb (fun t => negb (existsb (Ascii.eqb "_"%char) t)) special = true) by (vm_compute; reflexivity).
  rewrite forallb_forall in H. intros Hu Hs. specialize (H s Hs). apply negb_true_iff in H.
  assert (existsb (Ascii.eqb "_"%char) s = true) by (apply existsb_exists; eexists; split; [eassumption|apply Ascii.eqb_refl]). congruence.
Qed.
Lemma us_special s k : ~ In s special -> ~ In (s ++ us k) special.
Proof.
  destruct k as [|k]; [cbn; rewrite app_nil_r; auto|]. intros _. apply special_underscore. apply in_or_app. right. left. reflexivity.
Qed.

(** ** Lemmas *)
Lemma assign {V} (d0 : V) : forall (xs : list text) (ys : list V), NoDup xs -> List.length ys = List.length xs -> exists v : text -> V, map v xs = ys.
Proof.
  induction xs as [|x xs IH]; intros [|y ys] Hn Hl; try discriminate Hl; [exists (fun _ => d0); reflexivity|]. inversion Hn; subst.
  destruct (IH ys) as [v Hv]; [assumption|cbn in Hl; lia|]. exists (fun z => if text_eqb x z then y else v z). cbn. rewrite teqb_refl. f_equal.
  rewrite <- Hv. apply map_ext_in. intros z Hz. destruct (text_eqb x z) eqn:E; [|reflexivity]. apply teqb_spec in E. subst. contradiction.
Qed.
Lemma var_text_nodup wide l : NoDup (map j_name l) -> Forall (fun v => ~ In (j_name v) special) l -> NoDup (map (var_text wide) l).
Proof.
  induction l as [|v l IH]; cbn; intros Hn Hs; [constructor|]. inversion Hn; subst. inversion Hs; subst. constructor; [|apply IH; assumption].
  intros Hin. apply in_map_iff in Hin. destruct Hin as (w & E & Hw). unfold var_text in E. apply sanitize_inj in E; [|match goal with H : Forall _ l |- _ => exact (proj1 (Forall_forall _ _) H w Hw) end|assumption].
  destruct E as [_ E]. match goal with H : ~ In (j_name v) _ |- _ => apply H end. rewrite <- E. apply in_map. assumption.
Qed.
Lemma typed_args_fst wide csort l r : typed_args wide csort l = Some r -> map fst r = map (var_text wide) l.
Proof.
  revert r. induction l as [|v l IH]; cbn; intros r H; [injection H as <-; reflexivity|].
  destruct (csort (j_sort v)); [|discriminate]. destruct (typed_args wide csort l); [|discriminate]. injection H as <-. cbn. f_equal. apply IH. reflexivity.
Qed.
Lemma typed_args_total wide csort l : (forall v, In v l -> csort (j_sort v) <> None) -> typed_args wide csort l <> None.
Proof.
  induction l as [|v l IH]; cbn; intros H; [discriminate|]. destruct (csort (j_sort v)) eqn:E; [|exfalso; apply (H v); auto].
  destruct (typed_args wide csort l); [discriminate|]. exfalso. apply IH; auto.
Qed.

Section Lemmas.
  Context (wide : text -> bool) (csort : nat -> option text).
  Notation step := (step_text wide).

  Lemma proper_size a : proper a -> List.length (a_indices a) = size (a_action a).
  Proof. intros [-> _]. reflexivity. Qed.

  Lemma proper_prefix x y : proper x -> proper y -> strict_prefix (a_action x) (a_action y) ->
    exists w, a_indices y = a_indices x ++ w.
  Proof. intros [Hx _] [Hy _] (i & r & E). rewrite Hx, Hy, E, flat_map_app. eexists. reflexivity. Qed.

  (** What [depends_lemma] gives. *)
  Lemma depends_lemma_spec a b : match depends_lemma wide csort a b with
    | OOk None => ~ strict_prefix (a_action a) (a_action b) /\ ~ strict_prefix (a_action b) (a_action a)
    | OOk (Some o) => exists x y, ((x = a /\ y = b) \/ (x = b /\ y = a)) /\ strict_prefix (a_action x) (a_action y) /\ o_kind o = OLt /\
        o_t1 o = (step x, map (var_text wide) (a_indices x)) /\ o_t2 o = (step y, map (var_text wide) (a_indices y)) /\ typed_args wide csort (a_indices y) = Some (o_args o)
    | OErr => exists x y, ((x = a /\ y = b) \/ (x = b /\ y = a)) /\ strict_prefix (a_action x) (a_action y) /\
        (List.length (a_indices y) < List.length (a_indices x) \/ typed_args wide csort (a_indices y) = None)
    | _ => False end.
  Proof.
    unfold depends_lemma. destruct (depends_spec var_list_eqb var_list_eqb_spec (a_action a) (a_action b)) as [D1 D2].
    destruct (depends var_list_eqb (a_action a) (a_action b)) as [[]|].
    - destruct (_ <? _) eqn:E; [apply Nat.ltb_lt in E; exists a, b; intuition|].
      destruct (typed_args wide csort (a_indices b)) eqn:T; exists a, b; cbn; intuition.
    - destruct (_ <? _) eqn:E; [apply Nat.ltb_lt in E; exists b, a; intuition|].
      destruct (typed_args wide csort (a_indices a)) eqn:T; exists b, a; cbn; intuition.
    - split; intros H; [apply D1 in H|apply D2 in H]; discriminate.
  Qed.

  Lemma closed_lt x y o : (exists w, a_indices y = a_indices x ++ w) -> o_t1 o = (step x, map (var_text wide) (a_indices x)) -> o_t2 o = (step y, map (var_text wide) (a_indices y)) ->
    typed_args wide csort (a_indices y) = Some (o_args o) -> closed_order o.
  Proof.
    intros [w Hw] H1 H2 H3 z Hz. rewrite (typed_args_fst _ _ _ _ H3). rewrite H1, H2 in Hz. cbn in Hz.
    destruct Hz as [Hz|Hz]; [|assumption]. rewrite Hw, map_app. apply in_or_app. left. assumption.
  Qed.

  Lemma run_app_inj {V} (a : list (item (list jvar))) (u v : list V) : List.length u = size a -> List.length v = size a -> run_action a u = run_action a v -> u = v.
  Proof. intros Hu Hv H. rewrite <- (flat_run a u Hu), <- (flat_run a v Hv), H. reflexivity. Qed.

  Lemma prefix_values {V} x y (va vb : list V) : strict_prefix x y -> List.length va = size x -> List.length vb = size y ->
    strict_prefix (run_action x va) (run_action y vb) -> va = firstn (size x) vb.
  Proof.
    intros (i & r & ->) Ha Hb (j & q & E). rewrite run_app in E.
    assert (L : List.length (run_action x vb) = List.length (run_action x va)) by (rewrite !run_length; reflexivity).
    assert (E' : run_action x va = run_action x vb).
    { apply (f_equal (firstn (List.length (run_action x va)))) in E. rewrite (firstn_app_le _ (run_action x va)) in E by lia. rewrite <- L in E at 1.
      rewrite firstn_app_le in E by lia. rewrite !firstn_all in E. auto. }
    rewrite size_app in Hb. rewrite <- (firstn_skipn (size x) vb) in E'. rewrite run_enough in E' by (rewrite firstn_length; lia).
    apply run_app_inj in E'; [assumption|assumption|rewrite firstn_length; lia].
  Qed.

  (** What [mutex_lemma] gives. *)
  Lemma mutex_lemma_spec n a b : match mutex_lemma wide csort n a b with
    | OOk None => mutex_commun_vars (shape (a_action a)) (shape (a_action b)) = None
    | OOk (Some o) => exists i others, mutex_commun_vars (shape (a_action a)) (shape (a_action b)) = Some i /\
        rename n (map j_name (a_indices a)) (skipn i (a_indices b)) = OOk others /\ o_kind o = OIncompatible /\
        i <= List.length (a_indices a) /\ i <= List.length (a_indices b) /\
        o_t1 o = (step a, map (var_text wide) (a_indices a)) /\ o_t2 o = (step b, map (var_text wide) (firstn i (a_indices a) ++ others)) /\
        typed_args wide csort (a_indices a ++ others) = Some (o_args o)
    | _ => True end.
  Proof.
    unfold mutex_lemma. destruct (mutex_commun_vars _ _) as [i|] eqn:E; [|reflexivity]. destruct (_ && _); [exact I|].
    destruct (_ || _) eqn:L; [exact I|]. apply orb_false_iff in L as [L1 L2]. apply Nat.ltb_ge in L1, L2.
    destruct (rename _ _ _) as [others| | |] eqn:R; try exact I. destruct (typed_args _ _ _) eqn:T; [|exact I].
    exists i, others. cbn. repeat split; auto.
  Qed.

  Lemma action_eqb_shape a b : action_eqb a b = true -> shape (a_action a) = shape (a_action b).
  Proof.
    unfold action_eqb. intros H. apply andb_prop in H as [H _]. apply andb_prop in H as [_ H]. apply andb_prop in H as [H _].
    apply (list_eqb_spec _ (item_eqb_spec _ var_list_eqb_spec)) in H. congruence.
  Qed.
  Lemma commun_irrefl s i : mutex_commun_vars s s <> Some i.
  Proof. intros H. apply commun_spec in H. destruct H as (p & x & y & r & q & -> & H & _ & N & _). apply app_inv_head in H. congruence. Qed.
End Lemmas.

Lemma rename_one_mono n : forall n' names s x, rename_one n names s = OOk x -> n <= n' -> rename_one n' names s = OOk x.
Proof.
  induction n as [|n IH]; intros [|n'] names s x H L; try discriminate H; [lia|]. cbn in H |- *. destruct (existsb _ _); [|assumption].
  destruct (valid _); [|discriminate]. apply IH; [assumption|lia].
Qed.
Lemma rename_mono n' n : forall l names r, rename n names l = OOk r -> n <= n' -> rename n' names l = OOk r.
Proof.
  induction l as [|v l IH]; intros names r H L; cbn in H |- *; [assumption|]. destruct (rename_one n names (j_name v)) eqn:E; try discriminate.
  rewrite (rename_one_mono _ _ _ _ _ E L). destruct (rename n _ l) eqn:E'; try discriminate. rewrite (IH _ _ E' L). assumption.
Qed.
Lemma NoDup_app_intro {A} (l l' : list A) : NoDup l -> NoDup l' -> (forall x, In x l -> ~ In x l') -> NoDup (l ++ l').
Proof.
  induction l as [|x l IH]; cbn; intros H H' D; [assumption|]. inversion H; subst. constructor; [|apply IH; auto].
  rewrite in_app_iff. intros [?|?]; [contradiction|]. apply (D x); auto.
Qed.
Lemma app_inv_len {A} (a b c d : list A) : a ++ b = c ++ d -> List.length c = List.length a -> a = c /\ b = d.
Proof.
  revert c. induction a as [|x a IH]; intros [|y c] H L; try discriminate L; [auto|]. injection H as -> H. destruct (IH c H) as [-> ->]; auto.
Qed.

Lemma collect_spec l : forall r, collect_orders l = OOk r ->
  (forall o, In o r <-> In (OOk (Some o)) l) /\ (forall x, In x l -> exists y, x = OOk y).
Proof.
  induction l as [|[x| | |] l IH]; intros r H; cbn in H; try discriminate H.
  - injection H as <-. split; [reflexivity|intros x []].
  - destruct (collect_orders l) as [r'| | |] eqn:E; try discriminate H. injection H as <-. destruct (IH r' eq_refl) as [I1 I2]. split.
    + intros o. destruct x as [x|]; cbn [In]; rewrite I1.
      * split; (intros [G|G]; [left; congruence|right; assumption]).
      * split; [intros G; right; assumption|intros [G|G]; [discriminate G|assumption]].
    + intros y [<-|Hy]; [eexists; reflexivity|auto].
Qed.
Lemma combinations_before {A} (l : list A) a b : In (a, b) (combinations l) <-> before a b l.
Proof.
  induction l as [|x l IH]; cbn.
  - split; [contradiction|]. intros (p & q & r & E). destruct p; discriminate E.
  - rewrite in_app_iff, in_map_iff, IH. split.
    + intros [(y & [= -> ->] & Hy)|(p & q & r & ->)].
      * apply in_split in Hy. destruct Hy as (q & r & ->). exists [], q, r. reflexivity.
      * exists (x :: p), q, r. reflexivity.
    + intros (p & q & r & E). destruct p as [|y p]; cbn in E; injection E as -> ->.
      * left. exists b. split; [reflexivity|]. apply in_or_app. right. left. reflexivity.
      * right. exists p, q, r. reflexivity.
Qed.
