From Coq Require Import List Arith Bool Lia.
From Verif Require Import Syntax_Model Syntax_Proofs Semantics_Spec Semantics_Proofs Sort_Model Sort_Spec.
Import ListNotations.

Lemma sort_eqb_spec a b : sort_eqb a b = true <-> a = b.
Proof. unfold sort_eqb. destruct (sort_eq_dec a b); intuition congruence. Qed.
Lemma sort_eqb_refl a : sort_eqb a a = true.
Proof. apply sort_eqb_spec. reflexivity. Qed.

Lemma counterpart_spec a b : counterpart a b <-> maybe_evaluated_sort a = Some b.
Proof.
  split.
  - intros []; reflexivity.
  - destruct a; cbn; intros H; inversion H; subst; constructor.
Qed.

Lemma opt_sort_is_spec o s : opt_sort_is o s = true <-> o = Some s.
Proof. destruct o; cbn; [rewrite sort_eqb_spec|]; intuition congruence. Qed.

Lemma eq_realm_spec r a b : eq_realm r a b = true <-> same_sort r a b.
Proof.
  unfold eq_realm, same_sort. rewrite orb_true_iff, sort_eqb_spec. destruct r.
  - intuition discriminate.
  - rewrite andb_true_iff, !orb_true_iff, !opt_sort_is_spec, !counterpart_spec.
    split.
    + intros [H|[_ H]]; auto.
    + intros [H|[_ H]]; auto. right. split; auto.
      destruct H as [H|H]; [left; destruct a|right; destruct b]; cbn in *; congruence.
Qed.

Lemma counterpart_fun a b c : counterpart a b -> counterpart a c -> b = c.
Proof. intros H1 H2. inversion H1; subst; inversion H2; reflexivity. Qed.
Lemma counterpart_inj a b c : counterpart a c -> counterpart b c -> a = b.
Proof. intros H1 H2. inversion H1; subst; inversion H2; reflexivity. Qed.
Lemma counterpart_ends a b c : counterpart a b -> counterpart b c -> False.
Proof. intros H1 H2. inversion H1; subst; inversion H2. Qed.

Lemma eq_realm_equiv r :
  (forall a, eq_realm r a a = true) /\
  (forall a b, eq_realm r a b = eq_realm r b a) /\
  (forall a b c, eq_realm r a b = true -> eq_realm r b c = true -> eq_realm r a c = true).
Proof.
  split; [|split].
  - intros a. apply eq_realm_spec. left. reflexivity.
  - intros a b. apply eq_true_iff_eq. rewrite !eq_realm_spec. unfold same_sort. intuition.
  - intros a b c. rewrite !eq_realm_spec. unfold same_sort.
    intros [->|[Hr H1]] [->|[Hr' H2]]; auto. left.
    destruct H1 as [H1|H1], H2 as [H2|H2].
    + exfalso. exact (counterpart_ends _ _ _ H1 H2).
    + exact (counterpart_inj _ _ _ H1 H2).
    + exact (counterpart_fun _ _ _ H1 H2).
    + exfalso. exact (counterpart_ends _ _ _ H2 H1).
Qed.

Lemma evaluated_sort_char a b : eq_realm REvaluated a b = true <-> evaluated_sort a = evaluated_sort b.
Proof.
  rewrite eq_realm_spec. unfold same_sort. split.
  - intros [->|[_ [H|H]]]; auto; inversion H; reflexivity.
  - destruct a, b; cbn; intros H; try discriminate; try (injection H as ->); auto;
      right; split; auto; (left; constructor) || (right; constructor).
Qed.

(* heap *)
Definition in_heap (h : heap) (p : proxy) : Prop := match p with PVar l => l < length h | PStatic _ => True end.

Lemma put_length h l s : length (put h l s) = length h.
Proof. revert l. induction h as [|c h IH]; intros [|l]; cbn; auto. Qed.

Lemma put_same h l s : l < length h -> nth l (put h l s) None = Some s.
Proof. revert l. induction h as [|c h IH]; intros [|l]; cbn; intros H; try lia; auto. apply IH. lia. Qed.

Lemma put_other h l l' s : l <> l' -> nth l' (put h l s) None = nth l' h None.
Proof. revert l l'. induction h as [|c h IH]; intros [|l] [|l'] H; cbn; auto; try lia. Qed.

(** [h'] extends [h]: resolved placeholders keep their sort. *)
Definition extends (h h' : heap) : Prop :=
  length h <= length h' /\ forall p s, as_option h p = Some s -> as_option h' p = Some s.

Lemma extends_refl h : extends h h. Proof. split; auto. Qed.
Lemma extends_trans a b c : extends a b -> extends b c -> extends a c.
Proof. intros [A1 A2] [B1 B2]. split; [lia|auto]. Qed.

Lemma put_extends h l s : nth l h None = None -> extends h (put h l s).
Proof.
  intros H. split; [rewrite put_length; auto|]. intros [l'|t] s'; cbn; auto.
  intros E. destruct (Nat.eq_dec l l') as [->|N]; [congruence|]. rewrite put_other; auto.
Qed.

Lemma set_extends h p s : extends h (fst (set h p s)).
Proof.
  destruct p as [l|t]; cbn; [|apply extends_refl].
  destruct (nth l h None) eqn:E; cbn; [apply extends_refl|apply put_extends; auto].
Qed.

Lemma set_unwrap_ok h p s : as_option h p = None -> exists h', set_unwrap h p s = Some h' /\ extends h h' /\
   (in_heap h p -> as_option h' p = Some s) /\
   (forall q, as_option h' q = as_option h q \/ q = p).
Proof.
  destruct p as [l|t]; cbn; [|discriminate]. intros H. unfold set_unwrap; cbn. rewrite H.
  eexists; split; [reflexivity|]. split; [apply put_extends; auto|]. split.
  - intros. apply put_same; auto.
  - intros [l'|t]; cbn; auto. destruct (Nat.eq_dec l l') as [->|N]; auto. left. apply put_other; auto.
Qed.

Lemma expects_total h p s r : exists h' x, expects h p s r = Some (h', x) /\ extends h h' /\
   (x = Ok tt -> in_heap h p -> exists t, as_option h' p = Some t /\ same_sort r t s) /\
   (forall e, x = Err e -> h' = h /\ exists t, as_option h p = Some t /\ ~ same_sort r t s /\ e = EMismatch s t).
Proof.
  unfold expects. destruct (as_option h p) as [t|] eqn:E.
  - destruct (eq_realm r t s) eqn:Q.
    + do 2 eexists. split; [reflexivity|]. split; [apply extends_refl|]. split; [|discriminate].
      intros _ _. exists t. split; auto. apply eq_realm_spec; auto.
    + do 2 eexists. split; [reflexivity|]. split; [apply extends_refl|]. split; [discriminate|].
      intros e He. injection He as <-. split; auto. exists t. split; auto. split; auto.
      rewrite <- eq_realm_spec. congruence.
  - destruct (set_unwrap_ok h p s E) as (h' & -> & X & Y & _). do 2 eexists. split; [reflexivity|]. split; auto.
    split; [|discriminate]. intros _ Hp. exists s. split; auto. left. reflexivity.
Qed.

Lemma matches_total h p s r : exists h' x, matches h p s r = Some (h', x) /\ extends h h'  /\
   (x = Ok tt -> in_heap h p -> exists t, as_option h' p = Some t /\ same_sort r t s) /\
   (forall e, x = Err e -> h' = h).
Proof.
  unfold matches. destruct (expects_total h p s r) as (h' & x & -> & X & Y & Z). destruct x as [[]|e].
  - do 2 eexists. split; [reflexivity|]. split; auto. split; auto. discriminate.
  - do 2 eexists. split; [reflexivity|]. split; auto. split; [discriminate|]. intros e' _.
    destruct (Z e eq_refl) as [Hh _]. exact Hh.
Qed.

Lemma same_sort_refl r s : same_sort r s s. Proof. left. reflexivity. Qed.

Lemma unify_total h p q r : exists h' x, unify h p q r = Some (h', x) /\ extends h h' /\
   (forall s, x = Ok s -> in_heap h p -> in_heap h q -> exists t t',
        as_option h' p = Some t /\ as_option h' q = Some t' /\ same_sort r t t' /\ s = t) /\
   (forall e, x = Err e -> h' = h /\
      (as_option h p = None /\ as_option h q = None \/
       exists t t', as_option h p = Some t /\ as_option h q = Some t' /\ ~ same_sort r t t')) /\
   (forall o, as_option h' o <> as_option h o -> o = p \/ o = q).
Proof.
  unfold unify. destruct (as_option h p) as [s|] eqn:P; destruct (as_option h q) as [s2|] eqn:Q.
  - destruct (eq_realm r s s2) eqn:E; do 2 eexists; (split; [reflexivity|]); (split; [apply extends_refl|]);
      (split; [|split]); try discriminate; try congruence.
    + intros x H _ _. injection H as <-. exists s, s2. repeat split; auto. apply eq_realm_spec; auto.
    + intros e _. split; auto. right. exists s, s2. repeat split; auto. rewrite <- eq_realm_spec. congruence.
  - destruct (set_unwrap_ok h q s Q) as (h' & -> & X & Y & Z). do 2 eexists. split; [reflexivity|]. split; auto.
    split; [|split]; try discriminate.
    + intros x H _ Hq. injection H as <-. exists s, s. split; [apply X; auto|]. split; auto.
      split; [apply same_sort_refl|reflexivity].
    + intros o Ho. destruct (Z o); [congruence|auto].
  - destruct (set_unwrap_ok h p s2 P) as (h' & -> & X & Y & Z). do 2 eexists. split; [reflexivity|]. split; auto.
    split; [|split]; try discriminate.
    + intros x H Hp _. injection H as <-. exists s2, s2. split; auto. split; [apply X; auto|].
      split; [apply same_sort_refl|reflexivity].
    + intros o Ho. destruct (Z o); [congruence|auto].
  - do 2 eexists. split; [reflexivity|]. split; [apply extends_refl|]. split; [discriminate|]. split; [|congruence].
    intros e _. split; auto.
Qed.

Lemma unify_rev_heap h p q r : option_map fst (unify_rev h p q r) = option_map fst (unify h p q r).
Proof. unfold unify_rev. destruct (unify h p q r) as [[h' [s|e]]|]; reflexivity. Qed.

Lemma unify_rev_ok h p q r h' s : unify_rev h p q r = Some (h', Ok s) <-> unify h p q r = Some (h', Ok s).
Proof. unfold unify_rev. destruct (unify h p q r) as [[h2 [x|e]]|]; intuition congruence. Qed.

Lemma new_extends h : extends h (fst (new_proxy h)).
Proof.
  cbn. split; [rewrite app_length; lia|]. intros [l|s] t; cbn; auto. intros H.
  destruct (Nat.lt_ge_cases l (length h)).
  - rewrite app_nth1; auto.
  - rewrite nth_overflow in H; auto. discriminate.
Qed.

Lemma run_op_total h o : exists h', run_op h o = Some h' /\ extends h h'.
Proof.
  destruct o; cbn [run_op].
  - eexists; split; [reflexivity|]. apply new_extends.
  - eexists; split; [reflexivity|]. apply set_extends.
  - destruct (expects_total h p s r) as (h' & x & -> & X & _). cbn; eauto.
  - destruct (matches_total h p s r) as (h' & x & -> & X & _). cbn; eauto.
  - destruct (unify_total h p q r) as (h' & x & -> & X & _). cbn; eauto.
  - rewrite unify_rev_heap. destruct (unify_total h p q r) as (h' & x & -> & X & _). cbn; eauto.
Qed.

Lemma run_ops_total os h : exists h', run_ops h os = Some h' /\ extends h h'.
Proof.
  revert h. induction os as [|o os IH]; intros h; cbn.
  - eexists; split; [reflexivity|apply extends_refl].
  - destruct (run_op_total h o) as (h1 & -> & X). destruct (IH h1) as (h2 & -> & Y).
    eexists; split; [reflexivity|]. eapply extends_trans; eauto.
Qed.

Lemma c19_once h os p s : as_option h p = Some s -> exists h', run_ops h os = Some h' /\ as_option h' p = Some s.
Proof. intros H. destruct (run_ops_total os h) as (h' & R & _ & X). eauto. Qed.

Lemma c19_unify h p q r h' s os : in_heap h p -> in_heap h q -> unify h p q r = Some (h', Ok s) ->
  exists h2 t', run_ops h' os = Some h2 /\ as_option h2 p = Some s /\ as_option h2 q = Some t' /\ same_sort r s t'.
Proof.
  intros Hp Hq H. destruct (unify_total h p q r) as (h1 & x & E & _ & X & _ & _).
  rewrite H in E. injection E as <- <-. destruct (X s eq_refl Hp Hq) as (t & t' & A & B & C & ->).
  destruct (run_ops_total os h') as (h2 & R & _ & Y). exists h2, t'. auto.
Qed.

Lemma c19_unify_err h p q r : forall h' e, unify h p q r = Some (h', Err e) ->
   h' = h /\ (as_option h p = None /\ as_option h q = None \/
              exists t t', as_option h p = Some t /\ as_option h q = Some t' /\ ~ same_sort r t t').
Proof.
  intros h' e H. destruct (unify_total h p q r) as (h1 & x & E & _ & _ & X & _).
  rewrite H in E. injection E as <- <-. apply (X e eq_refl).
Qed.

Lemma c19_unify_local h p q r h' x o : unify h p q r = Some (h', x) -> as_option h' o <> as_option h o -> o = p \/ o = q.
Proof.
  intros H. destruct (unify_total h p q r) as (h1 & x1 & E & _ & _ & _ & X). rewrite H in E. injection E as <- <-. auto.
Qed.

Lemma c19_expects h p s r : in_heap h p -> exists h' x, expects h p s r = Some (h', x) /\
   (x = Ok tt -> exists t, as_option h' p = Some t /\ same_sort r t s) /\
   (forall e, x = Err e -> h' = h /\ exists t, as_option h p = Some t /\ ~ same_sort r t s /\ e = EMismatch s t).
Proof. intros Hp. destruct (expects_total h p s r) as (h' & x & E & _ & X & Y). exists h', x. auto. Qed.

(* connectives *)
Lemma all_bool args : existsb (fun s => negb (sort_eqb s SBool)) args = false <-> Forall (eq SBool) args.
Proof.
  induction args as [|a l IH]; cbn; [intuition|]. rewrite orb_false_iff, IH, negb_false_iff, sort_eqb_spec.
  split; [intros [-> H]; auto|intros H; inversion H; auto].
Qed.

Lemma conn_sort_spec c args : c <> CNot -> c <> CTrue -> c <> CFalse ->
  forall s, conn_sort c args = Some s <-> (well_sorted c args /\ s = SBool).
Proof.
  intros N T F s. destruct c; try congruence; cbn.
  - destruct (existsb _ args) eqn:E; split; intros H.
    + discriminate.
    + destruct H as [H _]. inversion H; subst. apply all_bool in H0. congruence.
    + injection H as <-. split; auto. constructor. apply all_bool; auto.
    + destruct H as [_ ->]. reflexivity.
  - destruct (existsb _ args) eqn:E; split; intros H.
    + discriminate.
    + destruct H as [H _]. inversion H; subst. apply all_bool in H0. congruence.
    + injection H as <-. split; auto. constructor. apply all_bool; auto.
    + destruct H as [_ ->]. reflexivity.
  - destruct (existsb _ args) eqn:E; split; intros H.
    + discriminate.
    + destruct H as [H _]. inversion H; subst. discriminate.
    + apply all_bool in E. destruct args as [|a [|b [|? ?]]]; cbn in H; try discriminate. injection H as <-.
      inversion E as [|? ? Ha E']; subst. inversion E'; subst. split; auto. constructor.
    + destruct H as [H ->]. inversion H; reflexivity.
  - destruct args as [|a [|b [|? ?]]]; cbn; try (split; [discriminate|intros [H _]; inversion H]).
    destruct (sort_eqb a b) eqn:E; split; intros H.
    + injection H as <-. apply sort_eqb_spec in E. subst. split; auto. constructor.
    + destruct H as [_ ->]. reflexivity.
    + discriminate.
    + destruct H as [H _]. inversion H; subst. rewrite sort_eqb_refl in E. discriminate.
Qed.

Lemma conn_sort_sound_true c args : well_sorted c args -> c <> CNot -> conn_sort c args = Some SBool.
Proof.
  intros H N. inversion H; subst; try reflexivity; try congruence.
  - cbn. apply all_bool in H0. rewrite H0. reflexivity.
  - cbn. apply all_bool in H0. rewrite H0. reflexivity.
  - cbn. rewrite sort_eqb_refl. reflexivity.
Qed.

Lemma false_is_true : forall (M : structure) (rho : env M), holds FALSE rho.
Proof. intros. unfold holds, FALSE. cbn. apply dtest_inj. Qed.
Lemma true_is_true : forall (M : structure) (rho : env M), holds TRUE rho.
Proof. intros. unfold holds, TRUE. cbn. apply dtest_inj. Qed.

(* signatures *)

Lemma unify_args_over r : forall k m h i j, length m < k ->
  exists n, unify_args k h r i (Some j) [] None (map PStatic m) None = Some (Some (h, Ok (Some n))).
Proof.
  induction k as [|k IH]; intros m h i j H; [lia|]. destruct m as [|c m]; cbn; [eauto|].
  apply IH. cbn in H. lia.
Qed.

Lemma unify_args_static r : forall fuel l m h i, length m < fuel ->
  exists x, unify_args fuel h r i None (map PStatic l) None (map PStatic m) None = Some (Some (h, x)) /\
            (x = Ok None <-> Forall2 (same_sort r) l m).
Proof.
  induction fuel as [|k IH]; intros l m h i Hf; [lia|]. destruct l as [|a l], m as [|b m]; cbn [map unify_args length] in *.
  - eexists. split; [reflexivity|]. intuition constructor.
  - destruct (unify_args_over r k m h (S i) i) as [n E]; [lia|]. rewrite E. eexists. split; [reflexivity|].
    split; [discriminate|intros H; inversion H].
  - eexists. split; [reflexivity|]. split; [discriminate|intros H; inversion H].
  - cbn [unify as_option]. destruct (eq_realm r a b) eqn:E.
    + destruct (IH l m h (S i)) as (x & -> & X); [lia|]. exists x. split; auto. rewrite X. apply eq_realm_spec in E.
      split; [intros; constructor; auto|intros H; inversion H; auto].
    + eexists. split; [reflexivity|]. split; [discriminate|]. intros H; inversion H; subst.
      apply eq_realm_spec in H3. congruence.
Qed.

Lemma Forall2_eq_same l m : Forall2 (same_sort RSymbolic) l m <-> l = m.
Proof.
  split.
  - induction 1 as [|a b l m H _ IH]; auto. destruct H as [->|[H _]]; [congruence|discriminate].
  - intros <-. induction l; constructor; auto. left. reflexivity.
Qed.

Lemma fun_sort_fixed args out l fuel : length l < fuel ->
  exists x, fun_sort fuel (SgFixed args out) l = Some (Some x) /\
            (forall s, x = Ok s <-> (l = args /\ s = out)).
Proof.
  intros Hf. unfold fun_sort, sig_unify. cbn [signature new_proxy sout sargs srep].
  destruct (unify_args_static RSymbolic fuel args l [Some out] 0 Hf) as (x & E & X).
  match goal with |- context [unify ?h ?p ?q ?r] => change (unify h p q r) with (Some ([Some out], @Ok sort inference_error out)) end.
  cbv beta iota. rewrite E. rewrite Forall2_eq_same in X.
  destruct x as [[n|]|e].
  - eexists. split; [reflexivity|]. intros s. split; [discriminate|]. intros [-> _]. destruct X as [_ X].
    specialize (X eq_refl). discriminate.
  - eexists. split; [reflexivity|]. intros s. cbn. destruct X as [X _]. specialize (X eq_refl). subst.
    split; [intros H; injection H as <-; auto|intros [_ ->]; reflexivity].
  - eexists. split; [reflexivity|]. intros s. split; [discriminate|]. intros [-> _]. destruct X as [_ X].
    specialize (X eq_refl). discriminate.
Qed.

(** And/or: the argument list of the connective is infinite, so the count check always fails. *)
Lemma unify_args_rep : forall fuel m h i a, length m < fuel ->
  exists e, unify_args fuel h RSymbolic i a [] (Some (PStatic SBool)) (map PStatic m) None = Some (Some (h, Err e)).
Proof.
  induction fuel as [|k IH]; intros m h i a Hf; [lia|]. destruct m as [|b m]; cbn [map unify_args length] in *.
  - eauto.
  - cbn [unify as_option]. destruct (eq_realm RSymbolic SBool b); [apply IH; lia|eauto].
Qed.

Lemma fun_sort_bools l fuel : length l < fuel -> exists e, fun_sort fuel SgBools l = Some (Some (Err e)).
Proof.
  intros Hf. unfold fun_sort, sig_unify. cbn [signature new_proxy sout sargs srep].
  match goal with |- context [unify ?h ?p ?q ?r] => change (unify h p q r) with (Some ([Some SBool], @Ok sort inference_error SBool)) end.
  cbv beta iota. destruct (unify_args_rep fuel l [Some SBool] 0 None Hf) as [e ->]. eauto.
Qed.

Lemma fun_sort_ite l fuel : fun_sort fuel SgIte l = Some (Some (Err (Some (CESort None ECantInfer)))).
Proof. reflexivity. Qed.

Lemma fun_sort_eq a b fuel : 3 <= fuel -> fun_sort fuel SgEq [a; b] = Some (Some (Ok SBool)).
Proof. intros H. destruct fuel as [|[|[|k]]]; try lia. reflexivity. Qed.

Lemma fun_sort_sub own a fuel : 3 <= fuel -> fun_sort fuel (SgSub own) [own; a] = Some (Some (Ok SBool)).
Proof.
  intros H. destruct fuel as [|[|[|k]]]; try lia. unfold fun_sort, sig_unify. cbn.
  unfold unify at 1. cbn. unfold eq_realm. rewrite sort_eqb_refl. cbn. reflexivity.
Qed.

(* get_sort *)
Definition known_out (k : sigkind) : Prop := k <> SgIte.

Lemma known_out_sort k : known_out k -> exists s, as_option (fst (signature [] k)) (sout (snd (signature [] k))) = Some s
   /\ forall args o, accepts k args o -> o = s.
Proof.
  intros H. destruct k; cbn; try congruence;
    (eexists; split; [reflexivity|]; intros a o A; inversion A; reflexivity).
Qed.

Lemma get_sort_head kind fuel f s : has_sort kind f s -> (forall g args, f = FFun g args -> kind g <> SgIte) ->
  get_sort kind fuel f = Some (Ok s).
Proof.
  intros H N. destruct H.
  - reflexivity.
  - cbn [get_sort]. specialize (N f args eq_refl). destruct (known_out_sort (kind f) N) as (t & E & A).
    destruct (signature [] (kind f)) as [h sg]. cbn [fst snd] in E. rewrite E. rewrite (A _ _ H0). reflexivity.
  - reflexivity.
Qed.

Lemma get_sort_ite kind fuel g args : kind g = SgIte -> forall s, get_sort kind fuel (FFun g args) <> Some (Ok s).
Proof.
  intros E s. cbn [get_sort]. rewrite E. cbn [signature new_proxy sout as_option nth length app].
  match goal with |- context [match ?x args with _ => _ end] => destruct (x args) as [[ss|e]|] end;
    try discriminate.
Qed.
