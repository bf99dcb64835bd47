(** Proofs about the axioms of cryptographic assumptions. *)
From Coq Require Import List Arith Bool Lia Permutation.
From Verif Require Import Syntax_Model Syntax_Proofs Traversal_Model Traversal_Spec Semantics_Spec Subst_Model Subst_Proofs Sort_Model Order_Model Macro_Model Unify_Model Unify_Proofs
  Graph_Model Expander_Model Expander_Props Exists_Model Exists_Proofs Search_Model Search_Spec Search_Proofs Crypto_Model Crypto_Proofs Define_Model Define_Proofs
  Evaluate_Model Propagate_Model Problem_Model Problem_Spec Problem_Proofs File_Model File_Spec File_Proofs Assumption_Model Assumption_Spec.
From Verif Require Parser_Model Traversal_Proofs.
Import ListNotations.

Lemma mapM_from {A B} (f : A -> option B) l bs b : mapM f l = Some bs -> In b bs -> exists a, In a l /\ f a = Some b.
Proof. intros H. apply (File_Proofs.mapM_in _ _ _ H). Qed.
Lemma Forall_ors (P : fsym -> Prop) (S : sort -> Prop) l : (forall f, logical f -> P f) -> Forall (all_in P S) l -> all_in P S (ors l).
Proof. intros PL H. apply all_fun. split; [apply PL; constructor|exact H]. Qed.
Lemma Forall_ands (P : fsym -> Prop) (S : sort -> Prop) l : (forall f, logical f -> P f) -> Forall (all_in P S) l -> all_in P S (ands l).
Proof. intros PL H. apply all_fun. split; [apply PL; constructor|exact H]. Qed.

(** ** The symbols of a search *)
Section Symbols.
  Context (P : fsym -> Prop) (S : sort -> Prop).
  Hypothesis (PL : forall f, logical f -> P f) (PB : forall f, In f BUILT_IN_FUNCTIONS -> P f).
  Notation inn := (all_in P S).
  Ltac bi := match goal with |- P ?f => first [apply PL; constructor | apply PB; cbn; tauto | assumption] end.
  Ltac done := unfold happens, leq, lt, gt, pred, st, TRUE in *; use; auto; try bi.

  Definition state_in (st : sstate) : Prop := sorts_in S (ss_bound st) /\ forall g, ss_guard st = Some g -> inn g.
  Definition entry_in (e : formula * sstate) : Prop := inn (fst e) /\ state_in (snd e).

  Lemma aux_in n : forall l r s b s', aux n l r s = Some (b, s') -> inn l -> inn r -> Forall (fun p => inn (snd p)) (fst s ++ snd s) ->
    Forall (fun p => inn (snd p)) (fst s' ++ snd s').
  Proof.
    induction n as [|n IH]; intros l r s b s' H Hl Hr Hs; [discriminate|]. destruct s as [lp rp]. cbn [fst snd] in Hs. pose proof Hs as Hs0. apply Forall_app in Hs0 as [HL HR].
    assert (HG : forall (l0 : list (nat * formula)) i t, maybe_get l0 i = Some t -> Forall (fun p => inn (snd p)) l0 -> inn t).
    { intros l0 i t Hg Hf. apply maybe_get_In in Hg. rewrite Forall_forall in Hf. exact (Hf _ Hg). }
    assert (Hargs : forall la ra s0 b0 s0', all_args (aux n) la ra s0 = Some (b0, s0') -> Forall inn la -> Forall inn ra -> Forall (fun p => inn (snd p)) (fst s0 ++ snd s0) ->
      Forall (fun p => inn (snd p)) (fst s0' ++ snd s0')).
    { induction la as [|a la IHa]; intros ra s0 b0 s0' E Fa Fr Fs; [cbn in E; destruct ra; injection E as <- <-; exact Fs|].
      destruct ra as [|x ra]; [cbn in E; injection E as <- <-; exact Fs|]. cbn in E. inversion Fa; subst. inversion Fr; subst.
      destruct (aux n a x s0) as [[[] s1]|] eqn:E1; [| |discriminate].
      - eapply IHa; [exact E|assumption|assumption|]. eapply IH; eassumption.
      - injection E as <- <-. eapply IH; eassumption. }
    cbn [aux] in H. destruct l as [v|fl al|q vs bd].
    - destruct (match r with FVar vr => var_eqb v vr | _ => false end); [injection H as <- <-; exact Hs|].
      destruct (maybe_get lp (vid v)) as [t|] eqn:Et.
      + destruct t as [v2|ft at_|qt vt bt].
        * destruct r as [v3| |]; [|injection H as <- <-; exact Hs|injection H as <- <-; exact Hs].
          destruct (var_eqb v2 v3); [injection H as <- <-; exact Hs|]. destruct (maybe_get rp (vid v3)); injection H as <- <-; [exact Hs|].
          unfold mv_add. cbn [fst snd]. rewrite app_assoc. apply Forall_app. split; [exact Hs|]. constructor; [apply all_var|constructor].
        * eapply IH; [exact H| |exact Hr|exact Hs]. eapply HG; eassumption.
        * eapply IH; [exact H| |exact Hr|exact Hs]. eapply HG; eassumption.
      + injection H as <- <-. unfold mv_add. cbn [fst snd]. apply Forall_app. split; [|exact HR]. apply Forall_app. split; [exact HL|]. constructor; [exact Hr|constructor].
    - destruct r as [v|fr ar|q vs bd].
      + destruct (maybe_get rp (vid v)) as [t|] eqn:Et.
        * destruct t; [injection H as <- <-; exact Hs| |]; (eapply IH; [exact H| |exact Hr|exact Hs]; eapply HG; eassumption).
        * injection H as <- <-. unfold mv_add. cbn [fst snd]. rewrite app_assoc. apply Forall_app. split; [exact Hs|]. constructor; [exact Hl|constructor].
      + destruct (fsym_eqb fl fr && _); [|injection H as <- <-; exact Hs]. eapply Hargs; [exact H| | |exact Hs]; [apply all_fun in Hl|apply all_fun in Hr]; tauto.
      + injection H as <- <-. exact Hs.
    - destruct r as [v|fr ar|q' vs' bd'].
      + destruct (maybe_get rp (vid v)) as [t|] eqn:Et.
        * destruct t; [injection H as <- <-; exact Hs| |]; (eapply IH; [exact H| |exact Hr|exact Hs]; eapply HG; eassumption).
        * injection H as <- <-. unfold mv_add. cbn [fst snd]. rewrite app_assoc. apply Forall_app. split; [exact Hs|]. constructor; [exact Hl|constructor].
      + injection H as <- <-. exact Hs.
      + injection H as <- <-. exact Hs.
  Qed.
  Lemma mgu_in n l r u : mgu n l r = Some (Some u) -> inn l -> inn r -> Forall (fun p => inn (snd p)) (fst u ++ snd u).
  Proof.
    unfold mgu. destruct (aux n l r ([], [])) as [[[] s]|] eqn:E; intros H Hl Hr; try discriminate. injection H as <-. eapply aux_in; [exact E|exact Hl|exact Hr|constructor].
  Qed.
  Lemma equalities_in gs u l : as_equalities gs u = Some l -> Forall (fun p => inn (snd p)) (fst u ++ snd u) -> Forall inn l.
  Proof.
    unfold as_equalities. destruct u as [a b]. cbn [fst snd]. destruct (existsb _ _); [discriminate|]. intros H Hu. apply Forall_forall. intros x Hx.
    destruct (mapM_from _ _ _ _ H Hx) as (p & Hp & E). destruct (gs (snd p)); [|discriminate]. injection E as <-. rewrite Forall_forall in Hu. pose proof (Hu _ Hp). done.
  Qed.

  (** The symbols of a subterm relation. *)
  Definition kind_symbols (k : skind) : list nat := match k with KVampire i => [i] | KRegular fs => map snd fs end.
  Definition kind_in (sound : bool) (k : skind) : Prop := sound = true -> forall i, In i (kind_symbols k) -> P (Fsubterm i).
  Lemma f_a_in gs sound k x m a : f_a gs sound k x m = Some a -> kind_in sound k -> inn x -> inn m -> inn a.
  Proof.
    unfold f_a. intros H Hk Hx Hm. destruct sound; cbn [negb] in H; [|injection H as <-; done]. destruct k as [i|fs].
    - injection H as <-. done. apply Hk; [reflexivity|left; reflexivity].
    - destruct (gs m) as [s|]; [|discriminate]. destruct (find _ fs) as [p|] eqn:E; [|discriminate]. injection H as <-. apply find_some in E as [E _]. done.
      apply Hk; [reflexivity|]. cbn. apply in_map. exact E.
  Qed.
  Lemma subterm_in gs aux_sort mfuel x m u : is_subterm gs aux_sort mfuel x m = Some (Some u) -> inn x -> inn m -> Forall (fun p => inn (snd p)) (fst u ++ snd u).
  Proof.
    unfold is_subterm. destruct (unified gs aux_sort m); [|discriminate]. intros H Hx Hm. destruct x as [v|s l|q vs b]; [|eapply mgu_in; eassumption|eapply mgu_in; eassumption].
    injection H as <-. cbn. constructor; [exact Hm|constructor].
  Qed.
  Lemma result_in gs sound k x f keep st u g : result_guard gs sound k x f keep st u = Some g -> kind_in sound k -> inn x -> inn f -> state_in st ->
    Forall (fun p => inn (snd p)) (fst u ++ snd u) -> inn g.
  Proof.
    unfold result_guard. intros H Hk Hx Hf Hst Hu.
    match type of H with match ?o with _ => _ end = _ => destruct o as [l|] eqn:E; [|discriminate] end. injection H as <-. apply Forall_ands; [exact PL|]. apply Forall_app. split.
    - destruct (is_unifying_to_variable u) as [[i t]|]; [|eapply equalities_in; eassumption]. destruct (rich_eqb t x); [|eapply equalities_in; eassumption].
      destruct (f_a gs sound k x f) as [a|] eqn:Ea; [|discriminate]. injection E as <-. constructor; [|constructor]. eapply f_a_in; eassumption.
    - destruct keep; [|constructor]. destruct (ss_guard st) as [c|] eqn:Ec; constructor; [|constructor]. apply Hst. exact Ec.
  Qed.

  Context (steps : list pstep) (cells : list mcell) (anc : mref -> option ancestors) (tq : nat -> ta_quant).
  Hypothesis (Hsteps : forall s, In s steps -> P (Fstep (ps_fun s)) /\ sorts_in S (ps_vars s) /\ inn (ps_cond s) /\ inn (ps_msg s))
    (Hcells : forall c a, In c cells -> In a (ce_asgs c) -> P (Fstep (ps_fun (as_step a))) /\ sorts_in S (ps_vars (as_step a) ++ as_fresh a) /\ inn (as_content a))
    (Htq : forall k, P (Fquant k) -> sorts_in S (tq_bound (tq k)) /\ Forall inn (tq_contents (tq k)))
    (Hanc : answers_cells anc cells).

  Lemma get_var_sort vars base v : vsort (get_var (collision_subst vars base) v) = vsort v \/ exists w, In w vars /\ vsort (get_var (collision_subst vars base) v) = vsort w.
  Proof.
    unfold get_var. destruct (find _ _) as [o|] eqn:E; [|left; reflexivity]. right. apply find_some in E as [E _]. unfold collision_subst in E. apply in_map_iff in E as (w & <- & Hw).
    apply filter_In in Hw as [Hw _]. exists w. split; [exact Hw|reflexivity].
  Qed.
  Lemma renamed_sorts vars base vs : sorts_in S vars -> sorts_in S vs -> sorts_in S (map (get_var (collision_subst vars base)) vs).
  Proof.
    intros Hv Hs. apply Forall_forall. intros x Hx. apply in_map_iff in Hx as (v & <- & Hx). unfold sorts_in in *. rewrite Forall_forall in Hv, Hs.
    destruct (get_var_sort vars base v) as [->|(w & Hw & ->)]; auto.
  Qed.
  Lemma frozen_var_in col f g : sapply (frozen_var col) f = Some g -> inn f -> inn g.
  Proof. intros H Hf. eapply sapply_all; [exact H|exact Hf|]. intros v t. unfold frozen_var. destruct (find _ _); intros [= <-]; apply all_var. Qed.
  Lemma add_condition_in st vs c st' : add_condition st vs c = Some st' -> state_in st -> sorts_in S vs -> inn c -> state_in st'.
  Proof.
    intros H [Hb Hg] Hv Hc. apply add_condition_inv in H as [-> _]. split; cbn; [apply Forall_app; split; assumption|].
    intros g [= <-]. destruct (ss_guard st) as [g0|]; [|exact Hc]. pose proof (Hg g0 eq_refl). done.
  Qed.
  Lemma step_term_in s vs : P (Fstep (ps_fun s)) -> inn (step_term s vs).
  Proof. intros H. unfold step_term, fv. done. Qed.

  Lemma cell_or_input_in r st args us : unfold_cell_or_input steps anc r st args = Some us -> Forall inn args -> state_in st -> Forall entry_in us.
  Proof.
    unfold unfold_cell_or_input. destruct (anc r) as [[input cs]|] eqn:Er; [|discriminate]. destruct (rev args) as [|o l] eqn:Ea; [discriminate|]. intros H Hargs Hst.
    assert (Ho : inn o) by (rewrite Forall_forall in Hargs; apply Hargs, in_rev; rewrite Ea; left; reflexivity).
    destruct (mapM _ (flat_map ce_asgs cs)) as [l1|] eqn:E1; [|discriminate].
    assert (H1 : Forall entry_in l1).
    { apply Forall_forall. intros u Hu. destruct (mapM_from _ _ _ _ E1 Hu) as (a & Ha & Eu). apply in_flat_map in Ha as (ce & Hce & Ha).
      destruct (Hcells ce a (Hanc _ _ _ Er Hce) Ha) as (Hf & Hv & Hcont). unfold unfold_assignment in Eu.
      destruct (add_condition _ _ _) as [st'|] eqn:Ec; [|discriminate]. destruct (sapply _ _) as [g|] eqn:Es; [|discriminate]. injection Eu as <-. split; cbn [fst snd].
      - eapply frozen_var_in; eassumption.
      - eapply add_condition_in; [exact Ec|exact Hst|apply renamed_sorts; assumption|]. pose proof (fun vs => step_term_in (as_step a) vs Hf).
        destruct r; cbn; unfold before, strict_before; done. }
    destruct input; [|injection H as <-; rewrite app_nil_r; exact H1].
    destruct (mapM _ (flat_map _ steps)) as [l2|] eqn:E2; [|discriminate]. injection H as <-. apply Forall_app. split; [exact H1|].
    apply Forall_forall. intros u Hu. destruct (mapM_from _ _ _ _ E2 Hu) as ([s f] & Hsf & Eu). apply in_flat_map in Hsf as (s' & Hs' & Hsf).
    assert (Hss : s = s' /\ (f = ps_msg s' \/ f = ps_cond s')) by (destruct Hsf as [E|[E|[]]]; injection E as <- <-; auto). destruct Hss as [-> Hff].
    destruct (Hsteps s' Hs') as (Hf & Hv & Hc & Hm). unfold unfold_step in Eu.
    destruct (add_condition _ _ _) as [st'|] eqn:Ec; [|discriminate]. destruct (sapply _ _) as [g|] eqn:Es; [|discriminate]. injection Eu as <-. split; cbn [fst snd].
    - eapply frozen_var_in; [exact Es|]. destruct Hff as [-> | ->]; assumption.
    - eapply add_condition_in; [exact Ec|exact Hst|apply renamed_sorts; assumption|]. pose proof (fun vs => step_term_in s' vs Hf). unfold strict_before. done.
  Qed.
  Lemma step_macro_in st b args us : unfold_step_macro steps st b args = Some us -> Forall inn args -> state_in st -> Forall entry_in us.
  Proof.
    unfold unfold_step_macro. intros H Ha Hst. destruct args as [|arg [|]]; try discriminate. inversion Ha; subst. apply Forall_forall. intros u Hu.
    destruct (mapM_from _ _ _ _ H Hu) as (s & Hs & Eu). destruct (Hsteps s Hs) as (Hf & Hv & Hc & Hm).
    destruct (add_condition _ _ _) as [st'|] eqn:Ec; [|discriminate]. injection Eu as <-. split; cbn [fst snd]; [destruct b; assumption|].
    eapply add_condition_in; [exact Ec|exact Hst|apply renamed_sorts; assumption|]. pose proof (fun vs => step_term_in s vs Hf). done.
  Qed.
  Lemma quantifier_in st k args us : unfold_quantifier st (tq k) args = Some us -> P (Fquant k) -> Forall inn args -> state_in st -> Forall entry_in us.
  Proof.
    unfold unfold_quantifier. intros H Hk Ha [Hb Hg]. destruct (Htq k Hk) as [HB HC]. unfold frozen_new in H. destruct (_ =? _); [|discriminate].
    destruct (add_variables _ _) as [st'|] eqn:Ec; [|discriminate]. apply add_variables_inv in Ec as [-> _]. apply Forall_forall. intros u Hu.
    destruct (mapM_from _ _ _ _ H Hu) as (f & Hf & Eu). destruct (sapply (frozen_var _) f) as [g|] eqn:E1; [|discriminate]. destruct (sapply (frozen _ _) g) as [h|] eqn:E2; [|discriminate]. injection Eu as <-.
    rewrite Forall_forall in HC. split; cbn [fst snd].
    - eapply sapply_all; [exact E2|eapply frozen_var_in; [exact E1|auto]|]. intros v t Hv. eapply frozen_all; eassumption.
    - split; cbn; [apply Forall_app; split; [exact Hb|apply renamed_sorts; assumption]|exact Hg].
  Qed.
  Lemma unfold_in e us : unfold steps anc tq e = Some us -> entry_in e -> Forall entry_in us.
  Proof.
    destruct e as [f st]. intros H [Hf Hst]. cbn [fst snd] in *. destruct f as [v|s args|q vs b]; cbn [unfold] in H.
    - injection H as <-. constructor.
    - apply all_fun in Hf as [Hs Ha]. assert (Hnil : forall us0 : list unfolder, Some [] = Some us0 -> Forall entry_in us0) by (intros us0 [= <-]; constructor).
      destruct s as [| | | | | | | | | | |c|m| |k| | | | |]; try (apply Hnil; exact H).
      all: match type of H with
           | match ?mm with MInput => _ | _ => _ end = _ => destruct mm
           | _ => idtac
           end.
      all: match type of H with (if ?b then _ else _) = _ => destruct b; [|apply Hnil; exact H] | _ => idtac end.
      all: first [eapply cell_or_input_in; [exact H|exact Ha|exact Hst] | eapply step_macro_in; [exact H|exact Ha|exact Hst] | eapply quantifier_in; [exact H|exact Hs|exact Ha|exact Hst]].
    - injection H as <-. constructor; [|constructor]. split; [apply all_q in Hf; tauto|exact Hst].
  Qed.
  Lemma visits_in nexts e e' : (forall f a, inn f -> In a (nexts f) -> inn a) -> visits steps anc tq nexts e e' -> entry_in e -> entry_in e'.
  Proof.
    intros HN. induction 1 as [e|f st a e Ha Hv IH|f st us u e Eu Hu Hv IH]; intros He; [exact He| |].
    - apply IH. destruct He as [Hf Hst]. split; [eapply HN; eassumption|exact Hst].
    - apply IH. apply unfold_in in Eu; [|exact He]. rewrite Forall_forall in Eu. auto.
  Qed.

  (** What a search yields. *)
  Lemma terms_in gs aux_sort sound k mfuel nexts fuel x ms keep fl out :
    preprocess_terms gs aux_sort sound k steps anc tq mfuel nexts fuel x ms keep fl = Some out ->
    (forall f a, inn f -> In a (nexts f) -> inn a) -> kind_in sound k -> inn x -> Forall (fun m => inn (fst m) /\ sorts_in S (snd m)) ms ->
    Forall (fun d => sorts_in S (fst d) /\ inn (snd d)) out.
  Proof.
    intros H HN Hk Hx Hms. destruct (terms_spec _ _ _ _ _ _ _ _ _ _ _ _ _ _ _ H) as [_ HR]. apply Forall_forall. intros d Hd.
    destruct (HR d Hd) as (m & bvs & f & st & u & g & Hm & Hv & Hs & Hg & ->). rewrite Forall_forall in Hms. destruct (Hms _ Hm) as [Hmi Hmb]. cbn [fst snd] in *.
    apply visits_in in Hv; [|exact HN|split; [exact Hmi|split; [exact Hmb|discriminate]]]. destruct Hv as [Hf Hst]. cbn [fst snd] in *. split; [apply Hst|].
    eapply result_in; [exact Hg|exact Hk|exact Hx|exact Hf|exact Hst|]. eapply subterm_in; eassumption.
  Qed.

  Lemma key_insert_sub scmp v l x : In x (key_insert scmp v l) -> x = v \/ In x l.
  Proof. induction l as [|y l IH]; cbn; [intuition|]. destruct (kcmp scmp v y); cbn; intuition. Qed.
  Lemma keys_sub scmp content x : In x (keys scmp content) -> exists d, In d content /\ In x (fst d).
  Proof.
    unfold keys. assert (H : forall l acc, In x (fold_left (fun acc v => key_insert scmp v acc) l acc) -> In x l \/ In x acc).
    { induction l as [|v l IH]; intros acc Hx; cbn in Hx; [auto|]. apply IH in Hx as [Hx|Hx]; [cbn; auto|]. apply key_insert_sub in Hx as [->|Hx]; cbn; auto. }
    intros Hx. apply H in Hx as [Hx|[]]. apply in_flat_map in Hx as (d & Hd & Hx). eauto.
  Qed.
  Lemma max_set_sub l : forall best x, In x (max_set best l) -> In x best \/ In x l.
  Proof.
    induction l as [|y l IH]; intros best x H; cbn in H; [auto|]. destruct best as [|b best].
    - apply IH in H as [[->|[]]|H]; cbn; auto.
    - destruct (set_cmp (snd y) (snd b)); apply IH in H as [H|H]; try (right; right; exact H); try (left; exact H).
      + apply in_app_iff in H as [H|[->|[]]]; [left; exact H|right; left; reflexivity].
      + destruct H as [->|[]]. right. left. reflexivity.
  Qed.
  Lemma exist_in scmp ds : Forall (fun d => sorts_in S (fst d) /\ inn (snd d)) ds -> inn (into_exist_formula scmp ds).
  Proof.
    intros H. unfold into_exist_formula.
    assert (HU : forall d, In d (unique ds) -> sorts_in S (fst d) /\ inn (snd d)) by (intros d Hd; apply (proj1 (unique_in _ _)) in Hd; rewrite Forall_forall in H; exact (H d Hd)).
    set (content := unique ds) in *. clearbody content. clear H.
    assert (HN : forall i d, nth_error content i = Some d -> sorts_in S (fst d) /\ inn (snd d)) by (intros i d Hd; apply nth_error_In in Hd; exact (HU d Hd)).
    assert (HM : forall x, In x (max_set [] (map (fun v => (v, index_set scmp content v)) (keys scmp content))) -> S (vsort (fst x))).
    { intros x Hx. apply max_set_sub in Hx as [[]|Hx]. apply in_map_iff in Hx as (v & <- & Hv). apply keys_sub in Hv as (d & Hd & Hv). destruct (HU d Hd) as [Hs _]. unfold sorts_in in Hs. rewrite Forall_forall in Hs. cbn. auto. }
    destruct (max_set [] _) as [|[v pos] mx].
    - apply Forall_ors; [exact PL|]. apply Forall_forall. intros x Hx. apply in_map_iff in Hx as (d & <- & Hd). apply HU. exact Hd.
    - apply Forall_ors; [exact PL|]. constructor.
      + apply all_exists. split; [apply Forall_forall; intros x Hx; apply in_map_iff in Hx as (y & <- & Hy); apply HM; exact Hy|].
        apply Forall_ors; [exact PL|]. apply Forall_forall. intros x Hx. apply in_flat_map in Hx as (i & _ & Hx). destruct (nth_error content i) as [[inner f]|] eqn:E; [|destruct Hx].
        destruct Hx as [<-|[]]. destruct (HN _ _ E) as [Hs Hf]. apply all_exists. split; [|exact Hf]. apply Forall_forall. intros y Hy. apply filter_In in Hy as [Hy _]. unfold sorts_in in Hs. rewrite Forall_forall in Hs. auto.
      + apply Forall_forall. intros x Hx. apply in_flat_map in Hx as ([i d] & Hd & Hx). apply in_combine_r in Hd. destruct (existsb _ _); [destruct Hx|]. destruct Hx as [<-|[]].
        apply all_exists. cbn [fst snd]. apply HU. exact Hd.
  Qed.

  (** ** The symbols of the axioms *)
  Hypothesis (SN : S SName) (SM : S SMessage) (SS : S SStep) (PEM : P (Feval SMessage)) (PEC : P (Feval SCondition)).
  Ltac don := unfold ev_msg, ev_cond, cast_name in *; done.
  Definition search_in (r : realm) (se : search) : Prop :=
    kind_in (is_sound_in_smt r (se_sort se)) (se_kind se) /\ S (se_sort se) /\ (forall f a, inn f -> In a (se_nexts se f) -> inn a).
  Definition fun_in (f : fsym * list sort) : Prop := P (fst f) /\ Forall S (snd f).

  Section Axioms.
    Context (gs : formula -> option sort) (r : realm) (scmp : sort -> sort -> comparison) (mfuel fuel : nat).

    Lemma atom_in se x m a : atom gs r se x m = Some a -> search_in r se -> inn x -> inn m -> inn a.
    Proof. unfold atom. intros H Hs. eapply f_a_in; [exact H|apply Hs]. Qed.
    Lemma function_assertion_in se fn ins a : function_assertion gs r se fn ins = Some a -> search_in r se -> fun_in (fn, ins) -> inn a.
    Proof.
      unfold function_assertion. intros H Hs [Hf Hi]. cbn [fst snd] in *. destruct (mapM _ _) as [l|] eqn:El; [|discriminate]. destruct (atom gs r se _ (FFun fn _)) as [b|] eqn:Eb; [|discriminate].
      injection H as <-. apply all_forall. split.
      - apply Forall_app. split; [apply sorts_to_variables_in; exact Hi|]. constructor; [apply Hs|constructor].
      - assert (Hb : inn b) by (eapply atom_in; [exact Eb|exact Hs|apply all_var|done]).
        assert (Hl : Forall inn l).
        { apply Forall_forall. intros x Hx. destruct (mapM_from _ _ _ _ El Hx) as (v & _ & Ev). eapply atom_in; [exact Ev|exact Hs|apply all_var|apply all_var]. }
        assert (inn (ors l)) by (apply Forall_ors; assumption).
        destruct (match gs (FFun fn _) with Some _ => _ | None => _ end); done.
    Qed.
    Lemma function_assertions_in funs se l : function_assertions gs r funs se = Some l -> search_in r se -> Forall fun_in funs -> Forall inn l.
    Proof.
      unfold function_assertions. intros H Hs Hf. apply Forall_forall. intros x Hx. destruct (mapM_from _ _ _ _ H Hx) as ([f ins] & Hi & E). apply filter_In in Hi as [Hi _].
      rewrite Forall_forall in Hf. eapply function_assertion_in; [exact E|exact Hs|apply Hf; exact Hi].
    Qed.
    Lemma not_of_sort_in se ss l : not_of_sort gs r se ss = Some l -> search_in r se -> Forall S ss -> Forall inn l.
    Proof.
      unfold not_of_sort. intros H Hs HF. apply Forall_forall. intros x Hx. destruct (mapM_from _ _ _ _ H Hx) as (s & Hi & E). rewrite Forall_forall in HF.
      destruct (atom gs r se _ _) as [a|] eqn:Ea; cbn in E; [|discriminate]. injection E as <-. pose proof (HF s Hi). destruct Hs as (Hk & Hso & Hn).
      apply all_q. split; [constructor; [exact Hso|constructor; [assumption|constructor]]|].
      assert (inn a) by (eapply atom_in; [exact Ea|split; [exact Hk|split; [exact Hso|exact Hn]]|apply all_var|apply all_var]). done.
    Qed.
    Lemma filter_Forall {A} (Q : A -> Prop) p l : Forall Q l -> Forall Q (filter p l).
    Proof. intros H. apply Forall_forall. intros x Hx. apply filter_In in Hx as [Hx _]. rewrite Forall_forall in H. auto. Qed.
    Lemma special_assertion_in se mv fl keep fn ins a :
      special_assertion gs (se_sort se) (is_sound_in_smt r (se_sort se)) (se_kind se) steps anc tq mfuel (se_nexts se) scmp fuel mv fl keep fn ins = Some a ->
      search_in r se -> fun_in (fn, ins) -> inn a.
    Proof.
      unfold special_assertion, preprocess_term_to_formula, preprocess_term. intros H (Hk & Hso & Hn) [Hf Hi]. cbn [fst snd] in *.
      destruct (preprocess_terms _ _ _ _ _ _ _ _ _ _ _ _ _ _) as [ds|] eqn:Ed; cbn [option_map] in H; [|discriminate]. destruct (f_a _ _ _ _ _) as [b|] eqn:Eb; [|discriminate]. injection H as <-.
      assert (Hff : inn (FFun fn (map FVar (sorts_to_variables (mv + 1 + 1) ins)))) by done.
      apply terms_in in Ed; [|exact Hn|exact Hk|apply all_var|constructor; [split; [exact Hff|constructor]|constructor]]. apply exist_in with (scmp := scmp) in Ed.
      apply all_forall. split; [apply Forall_app; split; [apply sorts_to_variables_in; exact Hi|constructor; [exact Hso|constructor]]|].
      assert (inn b) by (eapply f_a_in; [exact Eb|exact Hk|apply all_var|exact Hff]). done.
    Qed.
    Lemma special_assertions_in funs se keep l : special_assertions gs r funs steps cells anc tq scmp mfuel fuel se keep = Some l -> search_in r se -> Forall fun_in funs -> Forall inn l.
    Proof.
      unfold special_assertions. intros H Hs Hf. destruct (protocol_max_var fuel steps cells) as [mv|]; [|discriminate]. apply Forall_forall. intros x Hx.
      destruct (mapM_from _ _ _ _ H Hx) as ([f ins] & Hi & E). apply filter_In in Hi as [Hi _]. rewrite Forall_forall in Hf. eapply special_assertion_in; [exact E|exact Hs|apply Hf; exact Hi].
    Qed.
    Lemma append_in a b l : append a b = Some l -> (forall x, a = Some x -> Forall inn x) -> (forall x, b = Some x -> Forall inn x) -> Forall inn l.
    Proof. unfold append. destruct a as [x|]; [|discriminate]. destruct b as [y|]; [|discriminate]. intros [= <-] Ha Hb. apply Forall_app. auto. Qed.
    Lemma define_in funs sorts se keep l : define_subterm gs r funs sorts steps cells anc tq scmp mfuel fuel se keep = Some l -> search_in r se -> Forall fun_in funs -> Forall S sorts -> Forall inn l.
    Proof.
      intros H Hs Hf HS. unfold define_subterm in H. eapply append_in; [exact H| |].
      - intros x Hx. destruct (vampire (se_kind se)); [injection Hx as <-; constructor|]. eapply append_in; [exact Hx| |].
        + intros y Hy. eapply function_assertions_in; eassumption.
        + intros y Hy. eapply not_of_sort_in; [exact Hy|exact Hs|apply filter_Forall; exact HS].
      - intros x Hx. eapply special_assertions_in; eassumption.
    Qed.
    Lemma protocol_terms_in : Forall (fun m => inn (fst m) /\ sorts_in S (snd m)) (terms_and_bvars steps cells).
    Proof.
      unfold terms_and_bvars. apply Forall_app. split; apply Forall_forall; intros m Hm; apply in_flat_map in Hm as (s & Hs & Hm).
      - destruct (Hsteps s Hs) as (_ & Hv & Hc & Hmm). destruct Hm as [<-|[<-|[]]]; split; assumption.
      - apply in_map_iff in Hm as (a & <- & Ha). destruct (Hcells s a Hs Ha) as (_ & Hv & Hc). split; assumption.
    Qed.
    Lemma split_in key split mv a : split_axiom gs r steps cells anc tq scmp mfuel fuel key split mv = Some a -> search_in r key -> P (Fuser split) -> inn a.
    Proof.
      unfold split_axiom. intros H (Hk & Hso & Hn) Hp. destruct (preprocess_terms _ _ _ _ _ _ _ _ _ _ _ _ _ _) as [ds|] eqn:Ed; cbn [option_map] in H; [|discriminate]. injection H as <-.
      apply terms_in in Ed; [|exact Hn|exact Hk|apply all_var|exact protocol_terms_in]. apply exist_in with (scmp := scmp) in Ed. done.
    Qed.
    Lemma nonce_in funs sorts k l : nonce_axioms gs r funs sorts steps cells anc tq scmp mfuel fuel k = Some l -> search_in r (nonce k) -> Forall fun_in funs -> Forall S sorts -> Forall inn l.
    Proof.
      intros H Hs Hf HS. unfold nonce_axioms in H. eapply append_in; [exact H| |].
      - intros x Hx. destruct (vampire k); [injection Hx as <-; constructor|]. eapply append_in; [exact Hx| |].
        + intros y Hy. eapply function_assertions_in; eassumption.
        + intros y Hy. eapply not_of_sort_in; [exact Hy|exact Hs|apply filter_Forall; exact HS].
      - intros x Hx. eapply append_in; [exact Hx| |].
        + intros y Hy. eapply special_assertions_in; eassumption.
        + intros y Hy. unfold nonce_same, nonce_fresh in Hy.
          destruct (atom gs r (nonce k) (FVar (mkVar 0 SName)) (FVar (mkVar 1 SName))) as [a|] eqn:Ea; cbn [option_map] in Hy; [|discriminate].
          destruct (atom gs r (nonce k) (FVar (mkVar 0 SName)) (FVar (mkVar 1 SMessage))) as [b|] eqn:Eb; cbn [option_map] in Hy; [|discriminate]. injection Hy as <-.
          eapply atom_in in Ea; [|exact Hs|apply all_var|apply all_var]. eapply atom_in in Eb; [|exact Hs|apply all_var|apply all_var].
          unfold nonce_injective. constructor; [don|]. constructor; [don|]. constructor; [don|constructor].
    Qed.
  End Axioms.

  Section Instances.
    Context (gs : formula -> option sort) (scmp : sort -> sort -> comparison) (mfuel fuel : nat).
    (** The symbols, and the sorts of all the variables. *)
    Definition term_in (g : formula) : Prop := inn g /\ forall v, occurs v g -> S (vsort v).

    Lemma path_in f p g : at_path f p g -> inn f -> inn g.
    Proof.
      induction 1 as [f|s args i p a g Ha Hp IH|q vs b p g Hp IH]; intros Hf; [exact Hf| |].
      - apply IH. apply all_fun in Hf as [_ Hf]. rewrite Forall_forall in Hf. apply Hf. eapply nth_error_In. exact Ha.
      - apply IH. apply all_q in Hf. tauto.
    Qed.
    Lemma path_term f p g : at_path f p g -> term_in f -> term_in g.
    Proof. intros Hp [Hf Hv]. split; [eapply path_in; eassumption|]. intros v (q & Hq). apply Hv. exists (p ++ q). eapply at_path_app; eassumption. Qed.
    Lemma translated_term n f g : translate_vars n f = Some g -> term_in f -> term_in g.
    Proof.
      intros H [Hf Hv]. split.
      - eapply sapply_all; [exact H|exact Hf|]. intros v t [= <-]. apply all_var.
      - intros v Ho. destruct (translate_occurs _ _ _ _ H Ho) as (u & Hu & _ & ->). auto.
    Qed.
    Lemma free_of_sorts fs out : free_of fuel fs = Some out -> Forall term_in fs -> sorts_in S out.
    Proof.
      unfold free_of. destruct (mapM (free_vars fuel) fs) as [l|] eqn:E; [|discriminate]. intros [= <-] Hf. apply Forall_forall. intros v Hv. apply uniq_in in Hv.
      apply in_concat in Hv as (vs & Hvs & Hv). destruct (mapM_from _ _ _ _ E Hvs) as (f & Hi & Ef). rewrite Forall_forall in Hf. apply (Hf f Hi).
      destruct (Traversal_Proofs.free_vars_exact f) as (n & out' & Hrun & ps & _ & Hlen & H1 & _).
      assert (Eo : vs = out').
      { specialize (Hrun (n + fuel) ltac:(lia)). unfold free_vars, iter_with in *. rewrite (Traversal_Proofs.pile_collect_mono _ fuel (n + fuel) _ _ _ Ef ltac:(lia)) in Hrun. congruence. }
      subst out'. apply In_nth_error in Hv as (k & Hk). destruct (nth_error ps k) as [p|] eqn:Ep.
      - destruct (H1 k p v Ep Hk) as (g & Hg & -> & _). exists p. exact Hg.
      - exfalso. apply nth_error_None in Ep. assert (Hn : nth_error vs k <> None) by congruence. apply nth_error_Some in Hn. lia.
    Qed.

    Lemma instance_in symbolic sm sk kmain kkey mn kn signed premise mv c a :
      instance gs steps cells anc tq mfuel scmp symbolic sm sk kmain kkey mn kn signed premise fuel mv c = Some (Some a) ->
      kind_in sm kmain -> (forall f x, inn f -> In x (mn f) -> inn x) -> (forall x y, inn x -> inn y -> inn (signed x y)) ->
      (forall x y z, inn x -> inn y -> inn z -> inn (premise x y z)) -> term_in (ca_message c) -> term_in (ca_signature c) -> term_in (ca_key c) -> inn a.
    Proof.
      unfold instance. destruct c as [m s k]. cbn [ca_message ca_signature ca_key]. intros H Hk Hn Hsg Hpr Tm Ts Tk.
      destruct (formulas_max_var_or_max tq fuel [m; s; k] mv) as [uid|]; [|discriminate]. destruct (free_of fuel [m; s; k]) as [free|] eqn:Ef; [|discriminate].
      destruct (finds_nothing _ _ _ _ _ _ _ _ _ _ _ _ _ _) as [[]|]; try discriminate.
      destruct (preprocess_terms _ _ _ _ _ _ _ _ _ _ _ _ _ _) as [ds|] eqn:Ed; [|discriminate].
      assert (Hfree : sorts_in S free) by (eapply free_of_sorts; [exact Ef|constructor; [exact Tm|constructor; [exact Ts|constructor; [exact Tk|constructor]]]]).
      assert (Ik : inn (cast_name k)) by (unfold cast_name; apply all_fun; split; [bi|constructor; [apply Tk|constructor]]).
      assert (Im : inn m) by apply Tm. assert (Is : inn s) by apply Ts.
      apply terms_in in Ed; [|exact Hn|exact Hk|apply Hsg; [apply all_var|exact Ik]|].
      2:{ constructor; [split; [exact Im|constructor]|]. constructor; [split; [exact Is|constructor]|constructor]. }
      apply exist_in with (scmp := scmp) in Ed. pose proof (Hpr s m (cast_name k) Is Im Ik). destruct symbolic.
      - injection H as <-. unfold ev_msg. done.
      - destruct (sapply _ _) as [b|] eqn:Es; [|discriminate]. injection H as <-.
        assert (inn b). { eapply sapply_all; [exact Es|exact Ed|]. intros v t. unfold one_var. destruct (vid v =? uid); intros [= <-]; [exact Im|apply all_var]. }
        done.
    Qed.
    Lemma unify_eqs_in a b l : unify_eqs gs mfuel a b = Some (Some l) -> inn a -> inn b -> Forall inn l.
    Proof.
      unfold unify_eqs. destruct (mgu mfuel a b) as [[u|]|] eqn:E; try discriminate. intros H Ha Hb. injection H as <-.
      destruct (as_equalities gs u) as [l|] eqn:El; [|constructor; [done|constructor]]. eapply equalities_in; [exact El|]. eapply mgu_in; eassumption.
    Qed.
    Definition enc_in (e : enc_candidate) : Prop := term_in (en_rand e) /\ term_in (en_message e) /\ term_in (en_key e).
    Lemma pair_in mv k_f p a : pair_condition gs mfuel fuel mv k_f p = Some (Some a) -> inn k_f -> enc_in (fst p) -> enc_in (snd p) -> inn a.
    Proof.
      destruct p as [e1 e2]. unfold pair_condition. cbn [fst snd]. intros H Hk (R1 & M1 & K1) (R2 & M2 & K2).
      destruct (translate_vars mv (en_rand e2)) as [r2|] eqn:Er; [|discriminate]. destruct (translate_vars mv (en_key e2)) as [k2|] eqn:Ek; [|discriminate].
      destruct (translate_vars mv (en_message e2)) as [m2|] eqn:Em; [|discriminate].
      apply translated_term in Er; [|exact R2]. apply translated_term in Ek; [|exact K2]. apply translated_term in Em; [|exact M2].
      destruct (unify_eqs gs mfuel k_f (en_key e1)) as [[uk|]|] eqn:E1; cbn [and_then] in H; try discriminate.
      destruct (unify_eqs gs mfuel (en_rand e1) r2) as [[ur|]|] eqn:E2; cbn [and_then] in H; try discriminate.
      destruct (unify_eqs gs mfuel (en_key e1) k2) as [[uk12|]|] eqn:E3; cbn [and_then] in H; try discriminate.
      destruct (unify_eqs gs mfuel (en_message e1) m2) as [[um|]|] eqn:E4; cbn [and_then] in H; try discriminate.
      destruct (free_of fuel _) as [free|] eqn:Ef; [|discriminate]. injection H as <-.
      apply unify_eqs_in in E1; [|exact Hk|apply K1]. apply unify_eqs_in in E2; [|apply R1|apply Er]. apply unify_eqs_in in E3; [|apply K1|apply Ek]. apply unify_eqs_in in E4; [|apply M1|apply Em].
      apply all_forall. split.
      - eapply free_of_sorts; [exact Ef|]. repeat (constructor; [assumption|]). constructor.
      - unfold fimp. apply all_fun. split; [bi|]. constructor; [|constructor; [|constructor]]; apply Forall_ands; try exact PL; apply Forall_app; split; assumption.
    Qed.
    Lemma other_in mv k_f es a : other_sc gs mfuel fuel mv k_f es = Some a -> inn k_f -> Forall enc_in es -> inn a.
    Proof.
      unfold other_sc. intros H Hk He. destruct (mapM _ _) as [l|] eqn:E; cbn [option_map] in H; [|discriminate]. injection H as <-. apply Forall_ands; [exact PL|].
      apply Forall_forall. intros x Hx. apply in_flat_map in Hx as (o & Ho & Hx). destruct o as [f|]; [|destruct Hx]. destruct Hx as [<-|[]].
      destruct (mapM_from _ _ _ _ E Ho) as ([e1 e2] & Hp & Ep). apply pairs_in in Hp as (i & j & _ & Hi & Hj). rewrite Forall_forall in He.
      eapply pair_in; [exact Ep|exact Hk|apply He; eapply nth_error_In; exact Hi|apply He; eapply nth_error_In; exact Hj].
    Qed.
    Lemma ctxt_instance_in sm sk kmain kkey enc dec fail mv es sc c a :
      ctxt_instance gs tq mfuel sm sk kmain kkey steps cells anc scmp enc dec fail fuel mv es sc c = Some (Some a) ->
      kind_in sm kmain -> P (Fuser enc) -> P (Fuser dec) -> P (Fuser fail) -> Forall enc_in es -> term_in (fst c) -> term_in (snd c) -> inn a.
    Proof.
      destruct c as [cipher key]. unfold ctxt_instance. cbn [fst snd]. intros H Hk He Hd Hf Hes Tc Tk.
      destruct (formulas_max_var_or_max tq fuel [cipher; key] mv) as [uid|]; [|discriminate]. destruct (free_of fuel [cipher; key]) as [free|] eqn:Ef; [|discriminate].
      destruct (negb sc); [discriminate|]. destruct (finds_nothing _ _ _ _ _ _ _ _ _ _ _ _ _ _) as [[]|]; try discriminate.
      destruct (preprocess_terms _ _ _ _ _ _ _ _ _ _ _ _ _ _) as [ds|] eqn:Ed; [|discriminate]. destruct (other_sc gs mfuel fuel _ _ es) as [other|] eqn:Eo; [|discriminate].
      injection H as <-. assert (Hfree : sorts_in S free) by (eapply free_of_sorts; [exact Ef|constructor; [exact Tc|constructor; [exact Tk|constructor]]]).
      assert (Ic : inn cipher) by apply Tc. assert (Ikk : inn key) by apply Tk.
      assert (Ik : inn (cast_name key)) by (unfold cast_name; done).
      assert (In_ : inn (FFun (Fuser enc) [FVar (mkVar uid SMessage); cast_name (FVar (mkVar (uid + 1) SName)); cast_name key])) by (unfold cast_name; done).
      apply terms_in in Ed; [|intros f x Hx Hi; destruct f; cbn in Hi; [destruct Hi|apply all_fun in Hx as [_ Hx]; rewrite Forall_forall in Hx; auto|destruct Hi as [<-|[]]; apply all_q in Hx; tauto]
        |exact Hk|exact In_|constructor; [split; [exact Ic|constructor]|constructor]].
      apply exist_in with (scmp := scmp) in Ed. apply other_in in Eo; [|exact Ik|exact Hes]. unfold ev_msg. done. unfold cast_name. done.
    Qed.
  End Instances.

  Section Fixed.
    Context (gs : formula -> option sort).
    Lemma uf_base_in mac verify : P (Fuser mac) -> P (Fuser verify) -> inn (uf_base mac verify).
    Proof. intros. unfold uf_base. don. Qed.
    Lemma ctxt_base_in enc dec : P (Fuser enc) -> P (Fuser dec) -> inn (ctxt_base enc dec).
    Proof. intros. unfold ctxt_base. don. Qed.
    Lemma general_in kmain kkey sm sk split signed verified a : general gs kmain kkey sm sk split signed verified = Some a ->
      kind_in sm kmain -> kind_in sk kkey -> P (Fuser split) -> (forall x y, inn x -> inn y -> inn (signed x y)) -> (forall x y z, inn x -> inn y -> inn z -> inn (verified x y z)) -> inn a.
    Proof.
      unfold general. intros H Hm Hk Hs Hsg Hv. cbv zeta in H.
      assert (Ik : inn (cast_name (FVar (mkVar 3 SName)))) by don. assert (Isg : inn (signed (FVar (mkVar 4 SMessage)) (cast_name (FVar (mkVar 3 SName))))) by (apply Hsg; [apply all_var|exact Ik]).
      destruct (f_a gs sm kmain _ (FVar (mkVar 1 SMessage))) as [x1|] eqn:E1; [|discriminate]. destruct (f_a gs sm kmain _ (FVar (mkVar 2 SMessage))) as [x2|] eqn:E2; [|discriminate].
      destruct (f_a gs sk kkey _ (FVar (mkVar 1 SMessage))) as [x3|] eqn:E3; [|discriminate]. destruct (f_a gs sk kkey _ (FVar (mkVar 2 SMessage))) as [x4|] eqn:E4; [|discriminate].
      injection H as <-. apply f_a_in in E1; [|exact Hm|exact Isg|apply all_var]. apply f_a_in in E2; [|exact Hm|exact Isg|apply all_var].
      apply f_a_in in E3; [|exact Hk|apply all_var|apply all_var]. apply f_a_in in E4; [|exact Hk|apply all_var|apply all_var].
      pose proof (Hv (FVar (mkVar 1 SMessage)) (FVar (mkVar 2 SMessage)) _ (all_var _ _ _) (all_var _ _ _) Ik) as Iv. unfold ev_msg, ev_cond. done.
    Qed.
    Lemma ctxt_general_in kmain kkey krand sm sk sr enc dec fail a : ctxt_general gs kmain kkey krand sm sk sr enc dec fail = Some a ->
      kind_in sm kmain -> kind_in sk kkey -> kind_in sr krand -> P (Fuser enc) -> P (Fuser dec) -> P (Fuser fail) -> inn a.
    Proof.
      unfold ctxt_general. intros H Hm Hk Hr He Hd Hf. cbv zeta in H.
      assert (I1 : inn (FFun (Fuser enc) [FVar (mkVar 4 SMessage); cast_name (FVar (mkVar 5 SName)); cast_name (FVar (mkVar 3 SName))])) by don.
      assert (I2 : inn (FFun (Fuser enc) [FVar (mkVar 6 SMessage); FVar (mkVar 8 SMessage); cast_name (FVar (mkVar 3 SName))])) by don.
      do 4 match type of H with match ?o with Some _ => _ | None => None end = _ => let E := fresh "E" in destruct o eqn:E; [|discriminate] end.
      injection H as <-. apply f_a_in in E; [|exact Hm|exact I1|apply all_var]. apply f_a_in in E0; [|exact Hk|apply all_var|apply all_var].
      apply f_a_in in E1; [|exact Hr|apply all_var|apply all_var]. apply f_a_in in E2; [|exact Hm|exact I2|apply all_var]. don.
    Qed.

    Lemma unfolding_in direct recursive init others : steps = init :: others -> Forall inn (map msg_cond_axiom steps ++ exec_axioms direct recursive init others).
    Proof.
      intros E. assert (Hi : forall s, In s steps -> inn (into_formula s)) by (intros s Hs; unfold into_formula, step_term, fv; destruct (Hsteps s Hs) as (Hf & _); done).
      apply Forall_app. split.
      - apply Forall_forall. intros x Hx. apply in_map_iff in Hx as (s & <- & Hs). destruct (Hsteps s Hs) as (Hf & Hv & Hc & Hm). pose proof (Hi s Hs). unfold msg_cond_axiom, mac. don.
      - unfold exec_axioms. apply Forall_app. split; [|apply Forall_app; split].
        + constructor; [|constructor]. assert (inn (into_formula init)) by (apply Hi; rewrite E; left; reflexivity). unfold mac. don.
        + destruct (use_recursive direct recursive); [|constructor]. apply Forall_forall. intros x Hx. apply in_map_iff in Hx as (s & <- & Hs).
          assert (Hss : In s steps) by (rewrite E; right; exact Hs). destruct (Hsteps s Hss) as (Hf & Hv & _ & _). pose proof (Hi s Hss). unfold exec_recursive, mac. don.
        + destruct (use_direct direct recursive); [|constructor]. constructor; [|constructor]. unfold exec_direct, mac, sv, Order_Model.st. don.
    Qed.

    Lemma zip_eq_in {A B} (l : list A) (m : list B) ps : zip_eq l m = Some ps -> forall a b, In (a, b) ps -> In b m.
    Proof.
      revert m ps. induction l as [|x l IH]; intros [|y m] ps H; cbn in H; try discriminate; [injection H as <-; intros a b []|].
      destruct (zip_eq l m) as [q|] eqn:E; [|discriminate]. injection H as <-. intros a b [[= -> ->]|Hb]; [left; reflexivity|right; eapply IH; eassumption].
    Qed.
    Lemma cell_in mv c l : cell_axioms mv c = Some l -> In c cells -> P (Fcell (ce_fun c)) -> Forall S (ce_args c) ->
      (forall a, In a (ce_asgs c) -> Forall inn (as_args a)) -> Forall inn l.
    Proof.
      unfold cell_axioms. intros H Hc Hp Hs Hargs. destruct (mapM _ (ce_asgs c)) as [eqs|] eqn:Ee; [|discriminate]. injection H as <-.
      assert (Hvars : sorts_in S (sorts_to_variables (mv + 1) (ce_args c) ++ [mkVar mv SStep])) by (apply Forall_app; split; [apply sorts_to_variables_in; exact Hs|constructor; [exact SS|constructor]]).
      assert (Hcall : inn (fv (Fcell (ce_fun c)) (sorts_to_variables (mv + 1) (ce_args c) ++ [mkVar mv SStep]))) by (unfold fv; done).
      assert (Hprev : inn (FFun (Fcell (ce_fun c)) (map FVar (sorts_to_variables (mv + 1) (ce_args c)) ++ [pred (FVar (mkVar mv SStep))]))).
      { apply all_fun. split; [exact Hp|]. apply Forall_app. split; [apply all_vars|]. unfold pred. constructor; [done|constructor]. }
      assert (Hboth : forall a e, In (a, e) (combine (ce_asgs c) eqs) -> In a (ce_asgs c) /\ inn e).
      { intros a e Hi. split; [eapply in_combine_l; exact Hi|]. apply in_combine_r in Hi. destruct (mapM_from _ _ _ _ Ee Hi) as (a' & Ha' & E'). unfold asg_eqs in E'.
        destruct (zip_eq _ _) as [ps|] eqn:Ez; [|discriminate]. injection E' as <-. apply Forall_ands; [exact PL|]. apply Forall_forall. intros x Hx. apply in_map_iff in Hx as ([v t] & <- & Hvt).
        apply in_app_iff in Hvt as [Hvt|[[= <- <-]|[]]].
        - pose proof (zip_eq_in _ _ _ Ez _ _ Hvt) as Ht. specialize (Hargs a' Ha'). rewrite Forall_forall in Hargs. pose proof (Hargs t Ht). done.
        - unfold into_formula, step_term, fv. destruct (Hcells c a' Hc Ha') as (Hf & _). done. }
      constructor.
      - apply all_forall. split; [exact Hvars|].
        assert (inn (ands (map (fun '(a, e) => mk_forall (asg_vars a) (fnot e)) (combine (ce_asgs c) eqs)))).
        { apply Forall_ands; [exact PL|]. apply Forall_forall. intros x Hx. apply in_map_iff in Hx as ([a e] & <- & Hi). destruct (Hboth _ _ Hi) as [Ha He]. destruct (Hcells c a Hc Ha) as (_ & Hv & _).
          apply all_forall. split; [exact Hv|]. done. }
        unfold ev_msg, fimp. apply all_fun. split; [bi|]. constructor; [assumption|]. constructor; [|constructor]. unfold meq. apply all_fun. split; [bi|].
        constructor; [apply all_fun; split; [exact PEM|constructor; [exact Hcall|constructor]]|]. constructor; [|constructor]. apply all_fun. split; [exact PEM|]. constructor; [exact Hprev|constructor].
      - apply Forall_forall. intros x Hx. apply in_map_iff in Hx as (y & <- & Hy). apply in_map_iff in Hy as ([a e] & <- & Hi). destruct (Hboth _ _ Hi) as [Ha He]. destruct (Hcells c a Hc Ha) as (_ & Hv & Hcont).
        apply all_forall. split; [exact Hvars|]. apply all_forall. split; [exact Hv|]. done.
    Qed.
  End Fixed.
End Symbols.

(** ** Next terms are subterms *)
Definition subterms_next (nexts : formula -> list formula) : Prop := forall f a, In a (nexts f) -> exists p, at_path f p a.
Lemma arg_path s args a : In a args -> exists p, at_path (FFun s args) p a.
Proof. intros H. apply In_nth_error in H as (i & H). exists [i]. econstructor; [exact H|constructor]. Qed.
Lemma sub_args s args l : (forall a, In a l -> In a args) -> forall a, In a l -> exists p, at_path (FFun s args) p a.
Proof. intros H a Ha. eapply arg_path. auto. Qed.
Lemma children_sub : subterms_next children.
Proof. intros f a H. destruct f; cbn in H; [destruct H|eapply arg_path; exact H|destruct H as [<-|[]]; exists [0]; repeat constructor]. Qed.
Ltac next_args f a H :=
  destruct f as [v|s args|q vs b]; [destruct H| |destruct H as [<-|[]]; exists [0]; repeat constructor];
  cbn in H;
  repeat match type of H with
  | In _ (match ?x with [] => _ | _ :: _ => _ end) => destruct x; cbn in H
  | In _ (if ?b then _ else _) => destruct b; cbn in H
  end;
  apply arg_path; cbn; tauto.
Lemma uf_key_sub mac verify : subterms_next (uf_key_nexts mac verify).
Proof. intros f a H. next_args f a H. Qed.
Lemma euf_key_sub sign pk : subterms_next (euf_key_nexts sign pk).
Proof. intros f a H. next_args f a H. Qed.
Lemma ctxt_key_sub enc dec : subterms_next (ctxt_key_nexts enc dec).
Proof. intros f a H. next_args f a H. Qed.
Lemma ctxt_rand_sub enc : subterms_next (ctxt_rand_nexts enc).
Proof. intros f a H. next_args f a H. Qed.
Lemma mac_args_sub mac f a : In a (mac_args mac f) -> exists p, at_path f p a.
Proof. destruct f as [v|s args|q vs b]; cbn; try (intros []). destruct (fsym_eqb s (Fuser mac)); [|intros []]. apply arg_path. Qed.
Lemma uf_main_sub mac verify hmac : subterms_next (uf_main_nexts mac verify hmac).
Proof.
  intros f a H. destruct f as [v|s args|q vs b]; [destruct H| |destruct H as [<-|[]]; exists [0]; repeat constructor].
  destruct args as [|x [|y [|z [|w args]]]]; cbn [uf_main_nexts] in H; try (apply arg_path; exact H).
  - destruct (hmac && _); [|apply arg_path; exact H]. destruct (mac_args mac x ++ mac_args mac y) as [|n ns] eqn:En; [apply arg_path; exact H|]. rewrite <- En in H.
    apply in_app_iff in H as [H|H]; apply mac_args_sub in H as (p & Hp); [exists (0 :: p)|exists (1 :: p)]; econstructor; try reflexivity; exact Hp.
  - destruct x as [v|t margs|q vs b]; try (apply arg_path; exact H). destruct (_ && _); [|apply arg_path; exact H]. apply in_app_iff in H as [H|H]; [apply arg_path; cbn in *; tauto|].
    apply (arg_path t) in H as (p & Hp). exists (0 :: p). econstructor; [reflexivity|exact Hp].
Qed.
Lemma next_in P S nexts : subterms_next nexts -> forall f a, all_in P S f -> In a (nexts f) -> all_in P S a.
Proof. intros H f a Hf Ha. destruct (H f a Ha) as (p & Hp). exact (path_in _ _ (fun _ => None) _ _ _ Hp Hf). Qed.

(** ** What an assumption generates *)
Section Assumptions.
  Context (sig : fsym -> option (list sort * sort)) (table : nat -> option quantifier) (r : realm) (vampire_flag preprocess : bool)
    (anc : mref -> option ancestors) (scmp : sort -> sort -> comparison) (mfuel fuel : nat) (w : whole_problem).
  Hypothesis (HC : closed_whole sig table w) (Hans : answers_cells anc (wp_cells w)).
  Notation p := (wp_gen w).
  Notation out := (generate_assumption sig table r vampire_flag true preprocess anc scmp mfuel fuel w).

  Definition new_symbol (f : fsym) : Prop := match f with Fsubterm _ | Fuser _ => True | _ => False end.
  Definition usable (D : list gsym) (f : fsym) : Prop := known p f \/ new_symbol f /\ In (GF f) D.
  Definition in_sorts (s : sort) : Prop := In s (gp_sorts p).

  Section Given.
    Context (D : list gsym).
    Notation PD := (usable D).
    Notation SD := in_sorts.
    Notation inn := (all_in PD SD).
    Lemma us_known f : known p f -> PD f.
    Proof. left. assumption. Qed.
    Lemma us_fun f : In f (gp_funs p) -> PD f.
    Proof. intros H. left. right. left. exact H. Qed.
    Lemma us_logical f : logical f -> PD f.
    Proof. intros H. left. left. exact H. Qed.
    Lemma us_builtin f : In f BUILT_IN_FUNCTIONS -> PD f.
    Proof. intros H. apply us_fun. apply (cp_builtins _ _ _ (cw_gen _ _ _ HC)). exact H. Qed.
    Lemma us_within g : within_known p g -> inn g.
    Proof. intros [H H']. split; [intros f Hf; left; auto|exact H']. Qed.
    Lemma us_sorts vs : (forall v, In v vs -> In (vsort v) (gp_sorts p)) -> sorts_in SD vs.
    Proof. intros H. apply Forall_forall. exact H. Qed.
    Lemma us_steps s : In s (gp_steps p) -> PD (Fstep (ps_fun s)) /\ sorts_in SD (ps_vars s) /\ inn (ps_cond s) /\ inn (ps_msg s).
    Proof.
      intros Hs. destruct (cp_steps _ _ _ (cw_gen _ _ _ HC) s Hs) as [H1 H2]. split; [apply us_fun; exact H1|]. split; [apply us_sorts; exact H2|].
      split; apply us_within; apply (cw_terms _ _ _ HC); [apply pt_cond|apply pt_msg]; exact Hs.
    Qed.
    Lemma us_cells c a : In c (wp_cells w) -> In a (ce_asgs c) -> PD (Fstep (ps_fun (as_step a))) /\ sorts_in SD (ps_vars (as_step a) ++ as_fresh a) /\ inn (as_content a).
    Proof.
      intros Hc Ha. destruct (cw_asgs _ _ _ HC c a Hc Ha) as (H1 & H2 & _). split; [apply us_fun; exact H1|]. split; [apply us_sorts; exact H2|].
      apply us_within. apply (cw_terms _ _ _ HC). eapply pt_cell; eassumption.
    Qed.
    Lemma us_quants k : PD (Fquant k) -> sorts_in SD (tq_bound (tq_of table k)) /\ Forall inn (tq_contents (tq_of table k)).
    Proof.
      intros Hk. unfold tq_of. destruct (table k) as [q|] eqn:Eq; [|split; constructor].
      assert (Hin : In (Fquant k) (gp_funs p)).
      { destruct Hk as [[Hk|[Hk|(s & E & _)]]|[[] _]]; [inversion Hk|exact Hk|discriminate]. }
      destruct (cp_quants _ _ _ (cw_gen _ _ _ HC) k q Hin Eq) as [H1 H2]. cbn [tq_bound tq_contents]. split.
      - apply us_sorts. intros v Hv. apply H1. apply in_or_app. left. exact Hv.
      - apply Forall_forall. intros g Hg. apply us_within. apply H2. unfold quantifier_formulas. destruct (qt_inner q); exact Hg.
    Qed.
    Lemma us_eval s : In s [SMessage; SCondition] -> PD (Feval s).
    Proof. intros H. destruct (cw_evs _ _ _ HC). left. right. right. exists s. split; [reflexivity|]. destruct H as [<-|[<-|[]]]; assumption. Qed.
    Lemma us_sort s : In s BUILT_IN_SORTS -> SD s.
    Proof. apply (cp_sorts _ _ _ (cw_gen _ _ _ HC)). Qed.
    Lemma us_funs : Forall (fun_in PD SD) (funs_of sig w).
    Proof.
      apply Forall_forall. intros [f args] H. apply in_flat_map in H as (g & Hg & H). destruct (sig g) as [[a o]|] eqn:Es; [|destruct H]. destruct H as [[= -> ->]|[]].
      split; cbn [fst snd]; [apply us_fun; exact Hg|]. apply Forall_forall. intros s Hs. eapply (cp_sigs _ _ _ (cw_gen _ _ _ HC)); [exact Hg|exact Es|right; exact Hs].
    Qed.
    Lemma us_allsorts : Forall SD (gp_sorts p).
    Proof. apply Forall_forall. auto. Qed.
    Lemma us_term g : In g (top_level_terms w) -> term_in PD SD g.
    Proof.
      intros Hg. assert (Hp : problem_term w g).
      { unfold top_level_terms, protocol_terms in Hg. rewrite !in_app_iff in Hg. destruct Hg as [H|[[<-|[]]|[H|[[H|H]|H]]]].
        - apply pt_assert. exact H.
        - apply pt_query.
        - apply pt_lemma. exact H.
        - apply in_flat_map in H as (s & Hs & [<-|[<-|[]]]); [apply pt_cond|apply pt_msg]; exact Hs.
        - apply in_flat_map in H as (c & Hc & H). apply in_map_iff in H as (a & <- & Ha). eapply pt_cell; eassumption.
        - apply pt_extra. exact H. }
      split; [apply us_within; apply (cw_terms _ _ _ HC); exact Hp|]. intros v Hv. eapply (cw_vars _ _ _ HC); eassumption.
    Qed.

    Lemma relation_symbols se : dfuns (declare_relation sig r w se) = if is_sound_in_smt r (se_sort se) then map (fun i => GF (Fsubterm i)) (kind_symbols (se_kind se)) else [].
    Proof.
      unfold declare_relation, Define_Model.declare, dfuns. destruct (is_sound_in_smt r (se_sort se)); [|reflexivity]. destruct (se_kind se) as [i|fs]; cbn; [reflexivity|].
      rewrite map_map. cbn. rewrite flat_map_concat_map, map_map, map_map. induction fs; cbn; [reflexivity|f_equal; assumption].
    Qed.
    Lemma us_kind se : incl (dfuns (declare_relation sig r w se)) D -> kind_in PD (is_sound_in_smt r (se_sort se)) (se_kind se).
    Proof.
      intros H Hs i Hi. right. split; [exact I|]. apply H. rewrite relation_symbols, Hs. apply (in_map (fun i => GF (Fsubterm i))). exact Hi.
    Qed.
    Lemma us_search se : incl (dfuns (declare_relation sig r w se)) D -> SD (se_sort se) -> subterms_next (se_nexts se) -> search_in PD SD r se.
    Proof. intros H Hs Hn. split; [apply us_kind; exact H|]. split; [exact Hs|]. apply next_in. exact Hn. Qed.

    Lemma candidate_terms found (Hf : forall f c, In c (found f) -> (exists q, at_path f q (ca_message c)) /\ (exists q, at_path f q (ca_signature c)) /\ exists q, at_path f q (ca_key c)) mv cs c :
      candidates found fuel mv (top_level_terms w) = Some cs -> In c cs -> term_in PD SD (ca_message c) /\ term_in PD SD (ca_signature c) /\ term_in PD SD (ca_key c).
    Proof.
      intros H Hc. apply candidates_spec in H as [_ H]. destruct (H c Hc) as (t & q & f & c0 & Ht & Hq & Hc0 & Hp). unfold prepare in Hp.
      destruct (translate_vars mv (ca_message c0)) as [m|] eqn:Em; [|discriminate]. destruct (translate_vars mv (ca_signature c0)) as [s|] eqn:Es; [|discriminate].
      destruct (translate_vars mv (ca_key c0)) as [k|] eqn:Ek; [|discriminate]. injection Hp as <-. cbn [ca_message ca_signature ca_key].
      pose proof (path_term _ _ (fun _ => None) _ _ _ Hq (us_term t Ht)) as Tf. destruct (Hf f c0 Hc0) as ((q1 & H1) & (q2 & H2) & (q3 & H3)).
      split; [|split]; (eapply translated_term; [eassumption|]); (eapply (path_term _ _ (fun _ => None)); [eassumption|exact Tf]).
    Qed.
    Lemma dec_terms dec mv cs c : dec_candidates dec fuel mv (top_level_terms w) = Some cs -> In c cs -> term_in PD SD (fst c) /\ term_in PD SD (snd c).
    Proof.
      unfold dec_candidates. destruct (mapM (all_terms fuel) _) as [ts|] eqn:Et; [|discriminate]. destruct (mapM (prepare2 mv) _) as [l|] eqn:El; [|discriminate]. intros [= <-] Hc.
      apply uniq_in in Hc. destruct (mapM_from _ _ _ _ El Hc) as ([a b] & Hab & Ep). apply in_flat_map in Hab as (f & Hf & Hab). apply dec_found_in in Hab as ->.
      apply in_concat in Hf as (fs & Hfs & Hf). destruct (mapM_from _ _ _ _ Et Hfs) as (t & Ht & Eft). apply (all_terms_complete _ _ _ Eft) in Hf as (q & Hq).
      pose proof (path_term _ _ (fun _ => None) _ _ _ Hq (us_term t Ht)) as Tf. unfold prepare2 in Ep. cbn [fst snd] in Ep. destruct (translate_vars mv a) as [a'|] eqn:Ea; [|discriminate].
      destruct (translate_vars mv b) as [b'|] eqn:Eb; [|discriminate]. injection Ep as <-. cbn [fst snd]. split; (eapply translated_term; [eassumption|]).
      - eapply (path_term _ _ (fun _ => None) _ [0]); [|exact Tf]. econstructor; [reflexivity|constructor].
      - eapply (path_term _ _ (fun _ => None) _ [1; 0]); [|exact Tf]. econstructor; [reflexivity|]. econstructor; [reflexivity|constructor].
    Qed.
    Lemma enc_terms enc es sc : enc_candidates enc (top_level_terms w) = (es, sc) -> Forall (enc_in PD SD) es.
    Proof.
      intros H. apply enc_candidates_spec in H as (_ & _ & H). apply Forall_forall. intros e He. destruct (H e He) as (t & l & Ht & E). unfold Crypto_Spec.is_enc in E.
      pose proof (us_term t Ht) as Tt. rewrite E in Tt. split; [|split].
      - eapply (path_term _ _ (fun _ => None) _ [1; 0]); [|exact Tt]. econstructor; [reflexivity|]. econstructor; [reflexivity|constructor].
      - eapply (path_term _ _ (fun _ => None) _ [0]); [|exact Tt]. econstructor; [reflexivity|constructor].
      - eapply (path_term _ _ (fun _ => None) _ [2]); [|exact Tt]. econstructor; [reflexivity|constructor].
    Qed.
    Lemma somes_in {A} (l : list (option A)) a : In a (somes l) <-> In (Some a) l.
    Proof.
      unfold somes. rewrite in_flat_map. split; [intros ([b|] & Hb & H); [destruct H as [<-|[]]; exact Hb|destruct H]|]. intros H. exists (Some a). split; [exact H|left; reflexivity].
    Qed.
    Lemma instances_from {A} (cands : nat -> option (list A)) one l : instances fuel w cands one = Some l ->
      forall x, In x l -> exists mv cs c, cands mv = Some cs /\ In c cs /\ one mv c = Some (Some x).
    Proof.
      unfold instances. destruct (problem_max_var fuel _) as [mv|]; [|discriminate]. destruct (cands mv) as [cs|] eqn:Ec; [|discriminate]. destruct (mapM (one mv) cs) as [os|] eqn:Eo; cbn; [|discriminate].
      intros [= <-] x Hx. apply somes_in in Hx. destruct (mapM_from _ _ _ _ Eo Hx) as (c & Hc & E). exists mv, cs, c. auto.
    Qed.
  End Given.

  Lemma uf_found_sub mac verify hmac f c : In c (uf_found mac verify hmac f) -> (exists q, at_path f q (ca_message c)) /\ (exists q, at_path f q (ca_signature c)) /\ exists q, at_path f q (ca_key c).
  Proof.
    destruct c as [m s k]. intros H. apply uf_found_in in H. cbn [ca_message ca_signature ca_key].
    assert (H0 : forall s args i a q g, nth_error args i = Some a -> at_path a q g -> exists q', at_path (FFun s args) q' g) by (intros s0 args i a q g Hn Hq; exists (i :: q); econstructor; eassumption).
    assert (A : forall s args i a g, nth_error args i = Some a -> (exists q, at_path a q g) -> exists q', at_path (FFun s args) q' g) by (intros s0 args i a g Hn (q & Hq); eapply H0; eassumption).
    assert (B : forall g, exists q, at_path g q g) by (intros g; exists []; constructor).
    destruct H; (split; [|split]);
      repeat first [apply B
        | match goal with |- exists q, at_path (FFun _ [_; _; ?x]) q ?g => match x with context [g] => eapply (A _ _ 2); [reflexivity|] end end
        | match goal with |- exists q, at_path (FFun _ (_ :: ?x :: _)) q ?g => match x with context [g] => eapply (A _ _ 1); [reflexivity|] end end
        | eapply (A _ _ 0); [reflexivity|] ].
  Qed.
  Lemma euf_found_sub verify pk f c : In c (euf_found verify pk f) -> (exists q, at_path f q (ca_message c)) /\ (exists q, at_path f q (ca_signature c)) /\ exists q, at_path f q (ca_key c).
  Proof.
    destruct c as [m s k]. intros H. apply euf_found_in in H. cbn [ca_message ca_signature ca_key]. destruct H. split; [exists [1]|split; [exists [0]|exists [2; 0; 0]]]; repeat (econstructor; try reflexivity).
  Qed.

  Lemma sound_main_evaluated : r = REvaluated -> is_sound_in_smt r SMessage = false.
  Proof. intros ->. reflexivity. Qed.

  Ltac given := first [apply us_logical; assumption | apply us_builtin; assumption | intros; apply us_steps; assumption | intros; eapply us_cells; eassumption
    | intros; apply us_quants; assumption | exact Hans | apply us_sort; cbn; tauto | apply us_eval; cbn; tauto | apply us_allsorts | apply us_funs ].
  Ltac inside := repeat match goal with
    | |- all_in _ _ (FFun _ _) => apply all_fun; split
    | |- Forall _ (_ :: _) => constructor
    | |- Forall _ [] => constructor
    end.

  Definition ok_functions (D : list gsym) (a : assumption) : Prop := forall f, In f (assumption_functions a) -> usable D f.
  Notation written D o := (Forall (all_in (usable D) in_sorts) (o_axioms o)).

  Lemma defined_in D key main g split ds axs split' :
    definitions sig table r true anc scmp mfuel fuel w key main g split = Some (ds, axs, split') ->
    incl (dfuns ds) D -> in_sorts (se_sort key) -> in_sorts (se_sort main) -> subterms_next (se_nexts key) -> subterms_next (se_nexts main) -> se_sort main = SMessage ->
    (forall a, g = Some a -> kind_in (usable D) (is_sound_in_smt r (se_sort main)) (se_kind main) -> kind_in (usable D) (is_sound_in_smt r (se_sort key)) (se_kind key) ->
      usable D (Fuser split) -> all_in (usable D) in_sorts a) ->
    Forall (all_in (usable D) in_sorts) axs /\ kind_in (usable D) (is_sound_in_smt r (se_sort main)) (se_kind main).
  Proof.
    intros H HD Sk Sm Nk Nm EM Hg. unfold definitions, define_subterms in H. cbn [negb] in H. destruct r eqn:Er; cbn [evaluated_realm] in H.
    2:{ injection H as <- <- <-. split; [constructor|]. intros Hs. rewrite EM in Hs. cbn in Hs. discriminate. }
    match type of H with match ?o with Some _ => _ | None => None end = _ => destruct o as [defs|] eqn:Ed; [|discriminate] end.
    destruct (problem_max_var fuel (top_level_terms w)) as [mv|]; [|discriminate].
    match type of H with match ?o with Some _ => _ | None => None end = _ => destruct o as [sa|] eqn:Es; [|discriminate] end.
    destruct g as [g|]; [|discriminate]. injection H as <- <- <-.
    assert (HD' : incl (dfuns (declare_relation sig r w key)) D /\ incl (dfuns (declare_relation sig r w main)) D /\ In (GF (Fuser split)) D).
    { subst r. unfold dfuns in HD. rewrite !flat_map_app in HD. split; [|split].
      - intros x Hx. apply HD. apply in_or_app. left. exact Hx.
      - intros x Hx. apply HD. apply in_or_app. right. apply in_or_app. left. exact Hx.
      - apply HD. apply in_or_app. right. apply in_or_app. right. left. reflexivity. }
    destruct HD' as (Dk & Dm & Dsp).
    assert (Ik := us_search D key Dk Sk Nk). assert (Im := us_search D main Dm Sm Nm). rewrite Er in Ik, Im. pose proof (us_kind D key Dk) as Kk. pose proof (us_kind D main Dm) as Km.
    rewrite Er in Kk, Km. split; [|exact Km].
    assert (Us : usable D (Fuser split)) by (right; split; [exact I|exact Dsp]).
    apply Forall_app. split; [|constructor; [|constructor; [|constructor]]].
    - eapply append_in; [exact Ed| |]; intros l El; (eapply define_in; [| | | | | |exact El| | |]); try given; assumption.
    - eapply split_in; [| | | | | | |exact Es| |]; try given; assumption.
    - apply Hg; [reflexivity|exact Km|exact Kk|exact Us].
  Qed.

  Lemma when_instances {A} b (cands : nat -> option (list A)) one l (Q : formula -> Prop) : when b (instances fuel w cands one) = Some l ->
    (forall mv cs c x, cands mv = Some cs -> In c cs -> one mv c = Some (Some x) -> Q x) -> Forall Q l.
  Proof.
    intros H Hq. destruct b; cbn in H; [|injection H as <-; constructor]. apply Forall_forall. intros x Hx. destruct (instances_from _ _ _ H x Hx) as (mv & cs & c & E1 & E2 & E3). eauto.
  Qed.

  Lemma generate_uf_in D mac verify hmac n split o : generate_uf sig table r vampire_flag true preprocess anc scmp mfuel fuel w mac verify hmac n split = Some o ->
    incl (dfuns (o_decls o)) D -> usable D (Fuser mac) -> usable D (Fuser verify) -> written D o.
  Proof.
    unfold generate_uf. intros H HD Um Uv. destruct (new_kind _ _ _ n) as [kmain n1]. destruct (new_kind _ _ _ n1) as [kkey n2].
    match type of H with match ?o with Some _ => _ | None => None end = _ => destruct o as [ins|] eqn:Ei; [|discriminate] end.
    match type of H with match ?o with Some _ => _ | None => None end = _ => destruct o as [[[ds axs] split']|] eqn:Ed; [|discriminate] end.
    injection H as <-. cbn [o_decls o_axioms] in *.
    destruct (defined_in D _ _ _ _ _ _ _ Ed HD) as [HA HK]; try (apply us_sort; cbn; tauto); try reflexivity; [apply uf_key_sub|apply uf_main_sub| |].
    { intros a Ea K1 K2 Us. eapply general_in; [| | | | | |exact Ea| | | | |]; try given; try assumption; intros; cbv beta; inside; assumption. }
    constructor; [|apply Forall_app; split; [|exact HA]].
    - apply uf_base_in; try given; assumption.
    - eapply when_instances; [exact Ei|]. intros mv cs c x Hcs Hc Hx. destruct (candidate_terms D _ (uf_found_sub mac verify hmac) _ _ _ Hcs Hc) as (T1 & T2 & T3).
      eapply instance_in; [| | | | | | | |exact Hx| | | | | | |]; try given; try assumption.
      + apply next_in. apply uf_main_sub.
      + intros; cbv beta; inside; assumption.
      + intros a b c0 Ha Hb Hc0. unfold uf_premise, meq, ev_msg, ev_cond. destruct hmac; inside; try assumption; try (apply us_eval; cbn; tauto); apply us_logical; constructor.
  Qed.
  Lemma generate_euf_in D sign verify pk n split o : generate_euf sig table r vampire_flag true preprocess anc scmp mfuel fuel w sign verify pk n split = Some o ->
    incl (dfuns (o_decls o)) D -> usable D (Fuser sign) -> usable D (Fuser verify) -> usable D (Fuser pk) -> written D o.
  Proof.
    unfold generate_euf. intros H HD Um Uv Up. destruct (new_kind _ _ _ n) as [kmain n1]. destruct (new_kind _ _ _ n1) as [kkey n2].
    match type of H with match ?o with Some _ => _ | None => None end = _ => destruct o as [ins|] eqn:Ei; [|discriminate] end.
    match type of H with match ?o with Some _ => _ | None => None end = _ => destruct o as [[[ds axs] split']|] eqn:Ed; [|discriminate] end.
    injection H as <-. cbn [o_decls o_axioms] in *.
    destruct (defined_in D _ _ _ _ _ _ _ Ed HD) as [HA HK]; try (apply us_sort; cbn; tauto); try reflexivity; [apply euf_key_sub|apply children_sub| |].
    { intros a Ea K1 K2 Us. eapply general_in; [| | | | | |exact Ea| | | | |]; try given; try assumption; intros; cbv beta; inside; assumption. }
    apply Forall_app. split; [|exact HA].
    eapply when_instances; [exact Ei|]. intros mv cs c x Hcs Hc Hx. destruct (candidate_terms D _ (euf_found_sub verify pk) _ _ _ Hcs Hc) as (T1 & T2 & T3).
    eapply instance_in; [| | | | | | | |exact Hx| | | | | | |]; try given; try assumption.
    - apply next_in. apply children_sub.
    - intros; cbv beta; inside; assumption.
    - intros a b c0 Ha Hb Hc0. unfold euf_premise, ev_cond. inside; try assumption; apply us_eval; cbn; tauto.
  Qed.
  Lemma generate_ctxt_in D enc dec fail n split o : generate_ctxt sig table r vampire_flag true preprocess anc scmp mfuel fuel w enc dec fail n split = Some o ->
    incl (dfuns (o_decls o)) D -> usable D (Fuser enc) -> usable D (Fuser dec) -> usable D (Fuser fail) -> written D o.
  Proof.
    unfold generate_ctxt. intros H HD Ue Ud Uf. destruct (new_kind _ _ _ n) as [kmain n1]. destruct (new_kind _ _ _ n1) as [kkey n2]. destruct (new_kind _ _ _ n2) as [krand n3].
    destruct (enc_candidates enc (top_level_terms w)) as [es sc] eqn:Ee.
    match type of H with match ?o with Some _ => _ | None => None end = _ => destruct o as [ins|] eqn:Ei; [|discriminate] end.
    match type of H with match ?o with Some _ => _ | None => None end = _ => destruct o as [defs|] eqn:Ed; [|discriminate] end.
    match type of H with match ?o with Some _ => _ | None => None end = _ => destruct o as [g|] eqn:Eg; [|discriminate] end.
    injection H as <-. cbn [o_decls o_axioms] in *. unfold when in Ed. cbn in Ed. unfold ctxt_define_subterms in Ed.
    assert (HX : kind_in (usable D) (is_sound_in_smt r SMessage) kmain /\ Forall (all_in (usable D) in_sorts) defs /\ Forall (all_in (usable D) in_sorts) g).
    { destruct r eqn:Er; cbn [evaluated_realm] in Ed; cbn in Eg, HD.
      2:{ injection Ed as <-. injection Eg as <-. split; [intros Hs; discriminate Hs|]. split; constructor. }
      assert (HD' : incl (dfuns (declare_relation sig r w (default_main kmain))) D /\ incl (dfuns (declare_relation sig r w (ctxt_key enc dec kkey))) D /\
                    incl (dfuns (declare_relation sig r w (ctxt_rand enc krand))) D).
      { subst r. unfold dfuns in HD. rewrite !flat_map_app in HD. split; [|split]; intros x Hx; apply HD; rewrite !in_app_iff; tauto. }
      destruct HD' as (Dm & Dk & Dr).
      pose proof (us_kind D _ Dm) as Km. pose proof (us_kind D _ Dk) as Kk. pose proof (us_kind D _ Dr) as Kr.
      assert (Im : search_in (usable D) in_sorts r (default_main kmain)) by (apply us_search; [exact Dm|apply us_sort; cbn; tauto|apply children_sub]).
      assert (Ik : search_in (usable D) in_sorts r (ctxt_key enc dec kkey)) by (apply us_search; [exact Dk|apply us_sort; cbn; tauto|apply ctxt_key_sub]).
      assert (Ir : search_in (usable D) in_sorts r (ctxt_rand enc krand)) by (apply us_search; [exact Dr|apply us_sort; cbn; tauto|apply ctxt_rand_sub]).
      rewrite Er in Km, Kk, Kr, Im, Ik, Ir. split; [exact Km|]. split.
      - eapply append_in; [exact Ed| |]; intros l El; [|eapply append_in; [exact El| |]; clear l El; intros l El]; (eapply define_in; [| | | | | |exact El| | |]); try given; assumption.
      - destruct (ctxt_general _ _ _ _ _ _ _ _ _ _) as [a|] eqn:Ea; [|discriminate]. injection Eg as <-. constructor; [|constructor].
        eapply ctxt_general_in; [| | | | |exact Ea| | | | | |]; try given; assumption. }
    destruct HX as (Km & HA & HG). rewrite !Forall_app. split; [|split; [exact HA|split; [exact HG|constructor; [|constructor]]]].
    - eapply when_instances; [exact Ei|]. intros mv cs c x Hcs Hc Hx. destruct (dec_terms D _ _ _ _ Hcs Hc) as (T1 & T2).
      eapply ctxt_instance_in; [| | | | | | | | |exact Hx| | | | | | |]; try given; try assumption. eapply enc_terms. exact Ee.
    - apply ctxt_base_in; try given; assumption.
  Qed.
  Lemma generate_nonce_in D n split o : generate_nonce sig table r vampire_flag anc scmp mfuel fuel w n split = Some o -> incl (dfuns (o_decls o)) D -> written D o.
  Proof.
    unfold generate_nonce. intros H HD. destruct (new_kind _ _ _ n) as [k n1]. destruct (nonce_axioms _ _ _ _ _ _ _ _ _ _ _ k) as [axs|] eqn:Ea; [|discriminate]. injection H as <-.
    cbn [o_decls o_axioms] in *. eapply nonce_in; [| | | | | | | | |exact Ea| | |]; try given. apply us_search; [exact HD|apply us_sort; cbn; tauto|apply children_sub].
  Qed.
  Lemma generate_cells_in D n split o : generate_cells fuel w n split = Some o -> written D o.
  Proof.
    unfold generate_cells. destruct (protocol_max_var _ _ _) as [mv|]; [|discriminate]. destruct (mapM (cell_axioms mv) (wp_cells w)) as [l|] eqn:El; [|discriminate]. intros [= <-]. cbn [o_axioms].
    apply Forall_forall. intros x Hx. apply in_concat in Hx as (y & Hy & Hx). destruct (mapM_from _ _ _ _ El Hy) as (c & Hc & Ec). revert x Hx. apply Forall_forall.
    destruct (cw_cells _ _ _ HC c Hc) as [C1 C2].
    eapply cell_in; [| | | | |exact Ec|exact Hc| | |]; try given.
    - apply us_fun. exact C1.
    - apply Forall_forall. exact C2.
    - intros a Ha. apply Forall_forall. intros g Hg. apply us_within. apply (cw_asgs _ _ _ HC c a Hc Ha). exact Hg.
  Qed.
  Lemma generate_unfolding_in D direct recursive n split o : generate_unfolding w direct recursive n split = Some o -> written D o.
  Proof.
    unfold generate_unfolding. destruct (gp_steps (wp_gen w)) as [|init others] eqn:Es; [discriminate|]. intros [= <-]. cbn [o_axioms]. change (Forall (all_in (usable D) in_sorts) (map msg_cond_axiom (init :: others) ++ exec_axioms direct recursive init others)). rewrite <- Es.
    eapply unfolding_in; [| | | | | |exact Es]; given.
  Qed.
  Lemma generate_in D a n split o : out a n split = Some o -> incl (dfuns (o_decls o)) D -> ok_functions D a -> written D o.
  Proof.
    intros H HD Ha. unfold ok_functions in Ha. destruct a; cbn in H.
    - eapply generate_uf_in; [exact H|exact HD| |]; apply Ha; cbn; tauto.
    - eapply generate_euf_in; [exact H|exact HD| | |]; apply Ha; cbn; tauto.
    - eapply generate_ctxt_in; [exact H|exact HD| | |]; apply Ha; cbn; tauto.
    - eapply generate_nonce_in; [exact H|exact HD].
    - eapply generate_cells_in. exact H.
    - eapply generate_unfolding_in. exact H.
  Qed.
  Notation outs := (generate_assumptions sig table r vampire_flag true preprocess anc scmp mfuel fuel w).
  Lemma generates_in D l : forall n split o, outs l n split = Some o -> incl (dfuns (o_decls o)) D -> (forall a, In a l -> ok_functions D a) -> written D o.
  Proof.
    induction l as [|a l IH]; intros n split o H HD Ha; cbn [generate_assumptions] in H; [injection H as <-; constructor|].
    destruct (out a n split) as [o1|] eqn:E1; [|discriminate]. destruct (outs l (o_next o1) (o_split o1)) as [o2|] eqn:E2; [|discriminate]. injection H as <-. cbn [o_decls o_axioms] in *.
    unfold dfuns in HD. rewrite flat_map_app in HD. apply Forall_app. split.
    - eapply generate_in; [exact E1| |apply Ha; left; reflexivity]. intros x Hx. apply HD. apply in_or_app. left. exact Hx.
    - eapply IH; [exact E2| |]. { intros x Hx. apply HD. apply in_or_app. right. exact Hx. } intros b Hb. apply Ha. right. exact Hb.
  Qed.
  Lemma written_in n split o : outs (wp_assumptions w) n split = Some o -> written (dfuns (o_decls o)) o.
  Proof.
    intros H. eapply generates_in; [exact H|apply incl_refl|]. intros a Ha f Hf. apply us_fun. eapply cw_assumptions; eassumption.
  Qed.
End Assumptions.

(** ** The new symbols *)
Section New.
  Context (sig : fsym -> option (list sort * sort)) (table : nat -> option quantifier) (r : realm) (vampire_flag defined preprocess : bool)
    (anc : mref -> option ancestors) (scmp : sort -> sort -> comparison) (mfuel fuel : nat) (w : whole_problem).
  Notation out := (generate_assumption sig table r vampire_flag defined preprocess anc scmp mfuel fuel w).
  Notation outs := (generate_assumptions sig table r vampire_flag defined preprocess anc scmp mfuel fuel w).
  Definition numbered (n split n' split' : nat) (l : list gsym) : Prop :=
    n <= n' /\ split <= split' /\ NoDup l /\
    forall g, In g l -> (exists i, g = GF (Fsubterm i) /\ n <= i < n') \/ (exists i, g = GF (Fuser i) /\ split <= i < split').
  Lemma numbered_nil n split n' split' : n <= n' -> split <= split' -> numbered n split n' split' [].
  Proof. intros H H'. split; [exact H|]. split; [exact H'|]. split; [constructor|intros g []]. Qed.
  Lemma numbered_app n split n1 split1 n2 split2 l l' : numbered n split n1 split1 l -> numbered n1 split1 n2 split2 l' -> numbered n split n2 split2 (l ++ l').
  Proof.
    intros (A1 & A2 & A3 & A4) (B1 & B2 & B3 & B4). split; [lia|]. split; [lia|]. split.
    - apply NoDup_app_intro; [exact A3|exact B3|]. intros g Hg Hg'.
      destruct (A4 g Hg) as [(i & -> & Hi)|(i & -> & Hi)]; destruct (B4 _ Hg') as [(j & E & Hj)|(j & E & Hj)]; try discriminate; injection E as <-; lia.
    - intros g Hg. apply in_app_or in Hg as [Hg|Hg]; [destruct (A4 g Hg) as [(i & -> & Hi)|(i & -> & Hi)]|destruct (B4 g Hg) as [(i & -> & Hi)|(i & -> & Hi)]];
        [left|right|left|right]; exists i; (split; [reflexivity|lia]).
  Qed.
  Lemma numbered_perm n split n' split' l l' : Permutation l l' -> numbered n split n' split' l -> numbered n split n' split' l'.
  Proof.
    intros HP (A1 & A2 & A3 & A4). split; [exact A1|]. split; [exact A2|]. split; [eapply Permutation_NoDup; eassumption|]. intros g Hg. apply A4. eapply Permutation_in; [symmetry; exact HP|exact Hg].
  Qed.
  Lemma new_kind_symbols n k n' : new_kind r vampire_flag w n = (k, n') -> n <= n' /\ kind_symbols k = seq n (n' - n).
  Proof.
    unfold new_kind. destruct (use_vampire_subterm _ _); intros [= <- <-]; cbn [kind_symbols].
    - split; [lia|]. replace (S n - n) with 1 by lia. reflexivity.
    - split; [lia|]. rewrite Nat.add_comm, Nat.add_sub. generalize (gp_sorts (wp_gen w)) as l. intros l. revert n. induction l as [|s l IH]; intros n; cbn; [reflexivity|]. f_equal. apply IH.
  Qed.
  Lemma numbered_relation n k n' split se : new_kind r vampire_flag w n = (k, n') -> se_kind se = k -> numbered n split n' split (dfuns (declare_relation sig r w se)).
  Proof.
    intros H E. apply new_kind_symbols in H as [H H']. rewrite relation_symbols, E, H'. destruct (is_sound_in_smt _ _); [|apply numbered_nil; lia].
    split; [exact H|]. split; [lia|]. split; [apply NoDup_map_inj; [congruence|apply seq_NoDup]|]. intros g Hg. apply in_map_iff in Hg as (i & <- & Hi). apply in_seq in Hi. left. exists i. split; [reflexivity|lia].
  Qed.
  Lemma numbered_one n split : numbered n split n (S split) [GF (Fuser split)].
  Proof.
    split; [lia|]. split; [lia|]. split; [constructor; [intros []|constructor]|]. intros g [<-|[]]. right. exists split. split; [reflexivity|lia].
  Qed.
  Lemma numbered_definitions n n1 n2 kmain kkey key main g split ds axs split' : new_kind r vampire_flag w n = (kmain, n1) -> new_kind r vampire_flag w n1 = (kkey, n2) ->
    se_kind key = kkey -> se_kind main = kmain ->
    definitions sig table r defined anc scmp mfuel fuel w key main g split = Some (ds, axs, split') -> numbered n split n2 split' (dfuns ds).
  Proof.
    intros K1 K2 Ek Em H. pose proof (proj1 (new_kind_symbols _ _ _ K1)) as L1. pose proof (proj1 (new_kind_symbols _ _ _ K2)) as L2. unfold definitions in H.
    destruct (negb defined); [injection H as <- <- <-; apply numbered_nil; lia|].
    match type of H with match ?o with Some _ => _ | None => None end = _ => destruct o as [defs|]; [|discriminate] end.
    destruct r eqn:Er; [|injection H as <- <- <-; apply numbered_nil; lia].
    destruct (problem_max_var _ _); [|discriminate]. destruct (split_axiom _ _ _ _ _ _ _ _ _ _ _ _); [|discriminate]. destruct g; [|discriminate]. injection H as <- <- <-. rewrite <- Er.
    unfold dfuns. rewrite !flat_map_app. cbn [flat_map declares app].
    eapply numbered_perm; [apply Permutation_app_swap_app|]. eapply numbered_app; [eapply (numbered_relation n); [rewrite Er; exact K1|exact Em]|].
    eapply numbered_app; [eapply (numbered_relation n1); [rewrite Er; exact K2|exact Ek]|]. apply numbered_one.
  Qed.
  Lemma numbered_assumption a n split o : out a n split = Some o -> numbered n split (o_next o) (o_split o) (dfuns (o_decls o)).
  Proof.
    intros H. destruct a; cbn in H.
    - unfold generate_uf in H. destruct (new_kind _ _ _ n) as [kmain n1] eqn:K1. destruct (new_kind _ _ _ n1) as [kkey n2] eqn:K2.
      match type of H with match ?o with Some _ => _ | None => None end = _ => destruct o as [ins|] eqn:Ei; [|discriminate] end.
      match type of H with match ?o with Some _ => _ | None => None end = _ => destruct o as [[[ds axs] split']|] eqn:Ed; [|discriminate] end.
      injection H as <-. cbn [o_decls o_next o_split]. eapply numbered_definitions; [exact K1|exact K2| | |exact Ed]; reflexivity.
    - unfold generate_euf in H. destruct (new_kind _ _ _ n) as [kmain n1] eqn:K1. destruct (new_kind _ _ _ n1) as [kkey n2] eqn:K2.
      match type of H with match ?o with Some _ => _ | None => None end = _ => destruct o as [ins|] eqn:Ei; [|discriminate] end.
      match type of H with match ?o with Some _ => _ | None => None end = _ => destruct o as [[[ds axs] split']|] eqn:Ed; [|discriminate] end.
      injection H as <-. cbn [o_decls o_next o_split]. eapply numbered_definitions; [exact K1|exact K2| | |exact Ed]; reflexivity.
    - unfold generate_ctxt in H. destruct (new_kind _ _ _ n) as [kmain n1] eqn:K1. destruct (new_kind _ _ _ n1) as [kkey n2] eqn:K2. destruct (new_kind _ _ _ n2) as [krand n3] eqn:K3.
      destruct (enc_candidates _ _) as [es sc].
      do 3 match type of H with match ?o with Some _ => _ | None => None end = _ => destruct o; [|discriminate] end. injection H as <-. cbn [o_decls o_next o_split].
      destruct (defined && _).
      + unfold dfuns. rewrite !flat_map_app. eapply numbered_app; [eapply (numbered_relation n); [exact K1|reflexivity]|].
        eapply numbered_app; eapply numbered_relation; [exact K2|reflexivity|exact K3|reflexivity].
      + pose proof (proj1 (new_kind_symbols _ _ _ K1)). pose proof (proj1 (new_kind_symbols _ _ _ K2)). pose proof (proj1 (new_kind_symbols _ _ _ K3)). apply numbered_nil; lia.
    - unfold generate_nonce in H. destruct (new_kind _ _ _ n) as [k n1] eqn:K1. destruct (nonce_axioms _ _ _ _ _ _ _ _ _ _ _ k); [|discriminate]. injection H as <-.
      cbn [o_decls o_next o_split]. eapply numbered_relation; [exact K1|reflexivity].
    - unfold generate_cells in H. destruct (protocol_max_var _ _ _); [|discriminate]. destruct (mapM _ _); [|discriminate]. injection H as <-. apply numbered_nil; reflexivity.
    - unfold generate_unfolding in H. destruct (gp_steps _); [discriminate|]. injection H as <-. apply numbered_nil; reflexivity.
  Qed.
  Lemma numbered_assumptions l : forall n split o, outs l n split = Some o -> numbered n split (o_next o) (o_split o) (dfuns (o_decls o)).
  Proof.
    induction l as [|a l IH]; intros n split o H; cbn [generate_assumptions] in H; [injection H as <-; apply numbered_nil; reflexivity|].
    destruct (out a n split) as [o1|] eqn:E1; [|discriminate]. destruct (outs l (o_next o1) (o_split o1)) as [o2|] eqn:E2; [|discriminate]. injection H as <-. cbn [o_decls o_next o_split].
    unfold dfuns. rewrite flat_map_app. eapply numbered_app; [eapply numbered_assumption; exact E1|eapply IH; exact E2].
  Qed.

  (** Only functions are declared; the functions that a subterm relation commutes with are those of the problem. *)
  Definition tame (d : declaration gsym) : Prop :=
    match d with DFun _ => True | Problem_Model.DSubterm _ c => forall g, In g c -> exists f, g = GF f /\ In f (gp_funs (wp_gen w)) | _ => False end.
  Lemma relation_tame se : Forall tame (declare_relation sig r w se).
  Proof.
    unfold declare_relation, Define_Model.declare. destruct (is_sound_in_smt _ _); [|constructor]. destruct (se_kind se) as [i|fs]; cbn.
    - constructor; [|constructor]. cbn. intros g Hg. rewrite map_map in Hg. apply in_map_iff in Hg as ([f args] & <- & Hf). exists f. split; [reflexivity|].
      unfold default_functions in Hf. apply filter_In in Hf as [Hf _]. apply in_flat_map in Hf as (h & Hh & Hf). destruct (sig h) as [[a o]|]; [|destruct Hf]. destruct Hf as [[= <- _]|[]]. exact Hh.
    - rewrite map_map. apply Forall_forall. intros d Hd. apply in_map_iff in Hd as (x & <- & _). exact I.
  Qed.
  Lemma definitions_tame key main g split ds axs split' : definitions sig table r defined anc scmp mfuel fuel w key main g split = Some (ds, axs, split') -> Forall tame ds.
  Proof.
    unfold definitions. intros H. destruct (negb defined); [injection H as <- <- <-; constructor|].
    match type of H with match ?o with Some _ => _ | None => None end = _ => destruct o as [defs|]; [|discriminate] end.
    destruct r eqn:Er; [|injection H as <- <- <-; constructor].
    destruct (problem_max_var _ _); [|discriminate]. destruct (split_axiom _ _ _ _ _ _ _ _ _ _ _ _); [|discriminate]. destruct g; [|discriminate]. injection H as <- <- <-. rewrite <- Er.
    rewrite !Forall_app. split; [apply relation_tame|]. split; [apply relation_tame|]. constructor; [exact I|constructor].
  Qed.
  Lemma assumption_tame a n split o : out a n split = Some o -> Forall tame (o_decls o).
  Proof.
    intros H. destruct a; cbn in H.
    - unfold generate_uf in H. destruct (new_kind _ _ _ n) as [kmain n1] eqn:K1. destruct (new_kind _ _ _ n1) as [kkey n2] eqn:K2.
      match type of H with match ?o with Some _ => _ | None => None end = _ => destruct o as [ins|] eqn:Ei; [|discriminate] end.
      match type of H with match ?o with Some _ => _ | None => None end = _ => destruct o as [[[ds axs] split']|] eqn:Ed; [|discriminate] end.
      injection H as <-. eapply definitions_tame. exact Ed.
    - unfold generate_euf in H. destruct (new_kind _ _ _ n) as [kmain n1] eqn:K1. destruct (new_kind _ _ _ n1) as [kkey n2] eqn:K2.
      match type of H with match ?o with Some _ => _ | None => None end = _ => destruct o as [ins|] eqn:Ei; [|discriminate] end.
      match type of H with match ?o with Some _ => _ | None => None end = _ => destruct o as [[[ds axs] split']|] eqn:Ed; [|discriminate] end.
      injection H as <-. eapply definitions_tame. exact Ed.
    - unfold generate_ctxt in H. destruct (new_kind _ _ _ n) as [kmain n1] eqn:K1. destruct (new_kind _ _ _ n1) as [kkey n2] eqn:K2. destruct (new_kind _ _ _ n2) as [krand n3] eqn:K3.
      destruct (enc_candidates _ _) as [es sc].
      do 3 match type of H with match ?o with Some _ => _ | None => None end = _ => destruct o; [|discriminate] end. injection H as <-. cbn [o_decls].
      destruct (defined && _); [|constructor]. rewrite !Forall_app. split; [|split]; apply relation_tame.
    - unfold generate_nonce in H. destruct (new_kind _ _ _ n) as [k n1] eqn:K1. destruct (nonce_axioms _ _ _ _ _ _ _ _ _ _ _ k); [|discriminate]. injection H as <-. apply relation_tame.
    - unfold generate_cells in H. destruct (protocol_max_var _ _ _); [|discriminate]. destruct (mapM _ _); [|discriminate]. injection H as <-. constructor.
    - unfold generate_unfolding in H. destruct (gp_steps _); [discriminate|]. injection H as <-. constructor.
  Qed.
  Lemma assumptions_tame l : forall n split o, outs l n split = Some o -> Forall tame (o_decls o).
  Proof.
    induction l as [|a l IH]; intros n split o H; cbn [generate_assumptions] in H; [injection H as <-; constructor|].
    destruct (out a n split) as [o1|] eqn:E1; [|discriminate]. destruct (outs l (o_next o1) (o_split o1)) as [o2|] eqn:E2; [|discriminate]. injection H as <-. cbn [o_decls].
    apply Forall_app. split; [eapply assumption_tame; exact E1|eapply IH; exact E2].
  Qed.
End New.

(** ** The whole file *)
Section WholeFile.
  Context (sig : fsym -> option (list sort * sort)) (table : nat -> option quantifier) (r : realm) (vampire_flag defined preprocess : bool)
    (anc : mref -> option ancestors) (scmp : sort -> sort -> comparison) (mfuel fuel : nat) (w : whole_problem)
    (no_bitstring legacy : bool) (skolem n split : nat) (le : declaration gsym -> declaration gsym -> bool) (ds : list (declaration gsym)) (axs : list eaxiom).
  Hypothesis HW : whole_file sig table r vampire_flag defined preprocess anc scmp mfuel fuel w no_bitstring legacy skolem n split le = Some (ds, axs).
  Notation p := (wp_gen w).

  Lemma whole_parts : exists ds0 a12 a3 o,
    generate_file sig table r no_bitstring legacy fuel skolem le p = Some (ds0, a12 ++ a3) /\
    generate_assumptions sig table r vampire_flag defined preprocess anc scmp mfuel fuel w (wp_assumptions w) n split = Some o /\
    Permutation ds (ds0 ++ o_decls o) /\ axs = a12 ++ map ABase (o_axioms o) ++ a3 /\ length a3 = S (length (gp_asserts p)).
  Proof.
    unfold whole_file in HW. unfold generate_file. destruct (problem_decls sig r p) as [d1|]; [|discriminate]. destruct (evaluate_decls sig table r no_bitstring skolem p) as [d2|]; [|discriminate].
    destruct (order_axioms p) as [a1|]; [|discriminate]. destruct (Evaluate_Model.generate _ _ _ _ _ _ _) as [a2|]; [|discriminate].
    destruct (generate_assumptions _ _ _ _ _ _ _ _ _ _ _ _ _ _) as [o|]; [|discriminate].
    destruct (mapM _ _) as [a3|] eqn:E3; [|discriminate]. destruct (rewrites_found _ _ _ _ _); [|discriminate]. injection HW as <- <-.
    exists (sort_decls le (d1 ++ [DSort (code SStep)] ++ d2)), (a1 ++ a2), (map ABase a3), o. split; [rewrite <- app_assoc; reflexivity|]. split; [reflexivity|]. split.
    - etransitivity; [apply sort_perm|]. transitivity ((d1 ++ [DSort (code SStep)] ++ d2) ++ o_decls o); [rewrite <- !app_assoc; reflexivity|].
      apply Permutation_app_tail. symmetry. apply sort_perm.
    - split; [rewrite <- app_assoc; reflexivity|]. rewrite map_length.
      assert (HM : forall A B (f : A -> option B) l l', mapM f l = Some l' -> length l' = length l).
      { induction l as [|x l IH]; intros l' H; cbn in H; [injection H as <-; reflexivity|]. destruct (f x); [|discriminate]. destruct (mapM f l) eqn:E; [|discriminate]. injection H as <-. cbn. f_equal. apply IH. reflexivity. }
      apply HM in E3. rewrite E3, app_length. cbn. lia.
  Qed.
  Lemma declared_whole ds0 o f : Permutation ds (ds0 ++ o_decls o) -> (declared ds f <-> declared ds0 f \/ In (GF f) (dfuns (o_decls o))).
  Proof.
    intros HP. rewrite !declared_in. unfold dfuns. rewrite (Permutation_in' eq_refl (Permutation_flat_map declares HP)), flat_map_app, in_app_iff. reflexivity.
  Qed.

  Hypothesis HC : closed_whole sig table w.
  Lemma in_readable ds0 o : Permutation ds (ds0 ++ o_decls o) -> forall f, readable ds0 f -> readable ds f.
  Proof. intros HP f [H|H]; [left; exact H|right]. apply (declared_whole ds0 o); [exact HP|left; exact H]. Qed.

  Lemma crypto_readable (S : sort -> Prop) : (forall s, In s (gp_sorts p) -> S s) -> defined = true -> answers_cells anc (wp_cells w) ->
    forall ds0 a12 a3 o, generate_file sig table r no_bitstring legacy fuel skolem le p = Some (ds0, a12 ++ a3) ->
    generate_assumptions sig table r vampire_flag defined preprocess anc scmp mfuel fuel w (wp_assumptions w) n split = Some o -> Permutation ds (ds0 ++ o_decls o) ->
    Forall (ax_in (readable ds) S) (map ABase (o_axioms o)).
  Proof.
    intros HS HD Hans ds0 a12 a3 o HG HO HP. rewrite HD in HO. pose proof (written_in _ _ _ _ _ _ _ _ _ _ HC Hans _ _ _ HO) as H.
    apply Forall_forall. intros a Ha. apply in_map_iff in Ha as (g & <- & Hg). rewrite Forall_forall in H. destruct (H g Hg) as [H1 H2]. apply ax_base. split; [|intros s Hs; apply HS; apply H2; exact Hs].
    intros f Hf. destruct (H1 f Hf) as [Hk|[_ Hn]].
    - eapply in_readable; [exact HP|]. destruct (parts _ _ _ _ _ _ _ _ _ _ _ HG) as (d1 & d2 & b1 & b2 & b3 & P1 & P2 & _ & _ & _ & P3 & _).
      eapply readable_known; [exact HG|exact P1|exact P2|exact P3|exact Hk].
    - right. apply (declared_whole ds0 o); [exact HP|right; exact Hn].
  Qed.
End WholeFile.

Lemma no_subterm_declared sig table r nb legacy fuel n le p ds axs f c : generate_file sig table r nb legacy fuel n le p = Some (ds, axs) -> ~ In (Problem_Model.DSubterm f c) ds.
Proof.
  intros HG H. destruct (parts _ _ _ _ _ _ _ _ _ _ _ HG) as (d1 & d2 & b1 & b2 & b3 & P1 & P2 & _ & _ & _ & P6 & _). rewrite P6 in H. apply (Permutation_in _ (sort_perm _ _)) in H.
  apply in_app_or in H as [H|[H|H]]; [|discriminate|].
  - unfold problem_decls, Problem_Model.declare in P1.
    match type of P1 with context [partition_functions ?a ?b ?c ?d ?e ?f ?g ?h] => destruct (partition_functions a b c d e f g h) as [[m free]|] eqn:E end; [|discriminate].
    injection P1 as <-. rewrite !in_app_iff in H. destruct H as [H|[H|H]]; [apply in_map_iff in H as (x & E' & _); discriminate|apply in_map_iff in H as (x & E' & _); discriminate|]. destruct H as [H|[]]. discriminate.
  - change (In (Problem_Model.DSubterm f c) d2) in H. unfold evaluate_decls in P2. destruct (relevant _) as [us|]; [|discriminate].
    apply (f_equal (fun o => match o with Some x => x | None => d2 end)) in P2. cbn beta iota in P2. rewrite <- P2 in H. clear P2. rewrite !in_app_iff in H.
    destruct H as [H|[H|[H|[H|H]]]].
    + apply in_map_iff in H as (x & E' & _). destruct r; discriminate.
    + destruct r; [destruct H|]. destruct H as [H|[]]; discriminate.
    + apply in_map_iff in H as (x & E' & _). discriminate.
    + destruct r; [destruct nb|]; [destruct H| |destruct H]. apply in_app_or in H as [H|H]; apply in_map_iff in H as (x & E' & _); discriminate.
    + revert H. generalize n. induction (map (classify sig table) (gp_funs p)) as [|x l IH]; intros m H; cbn in H; [exact H|].
      destruct x as [i args out| | | |k q|]; try (eapply IH; exact H). destruct (qt_inner q); try (eapply IH; exact H).
      apply in_app_or in H as [H|H]; [apply in_map_iff in H as (y & E' & _); discriminate|eapply IH; exact H].
Qed.
