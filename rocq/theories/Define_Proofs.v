From Coq Require Import List Arith Bool Lia.
From Verif Require Import Syntax_Model Traversal_Model Traversal_Spec Semantics_Spec Semantics_Proofs Subst_Model Subst_Proofs Sort_Model Order_Model Order_Spec
  Order_Proofs Macro_Model Binding_Proofs Macro_Proofs Unify_Model Unify_Proofs Graph_Model Expander_Model Expander_Spec Expander_Proofs Expander_Props Exists_Model Exists_Spec
  Exists_Proofs Search_Model Search_Spec Search_Proofs Search_Props Crypto_Model Crypto_Spec Define_Model Define_Spec.
Import ListNotations.

(** ** Symbols *)
Lemma sort_eqb_spec a b : sort_eqb a b = true <-> a = b.
Proof. unfold sort_eqb. destruct (sort_eq_dec a b); split; congruence. Qed.
Lemma symbol_unique k s i j : symbol k s i -> symbol k s j -> i = j.
Proof.
  intros H H'. destruct H as [i s|l s i l' Hn]; inversion H' as [|m ? ? m' Hm E]; subst; [reflexivity|].
  clear H'. revert m Hm E. induction l as [|p l IH]; intros [|q m] Hm E; cbn in *.
  - congruence.
  - injection E as E1 E2. subst. exfalso. apply Hm. left. reflexivity.
  - injection E as E1 E2. subst. exfalso. apply Hn. left. reflexivity.
  - injection E as E1 E2. apply (IH ltac:(tauto) m ltac:(tauto) E2).
Qed.
Lemma find_symbol fs s p : find (fun q => sort_eqb (fst q) s) fs = Some p -> symbol (KRegular fs) s (snd p).
Proof.
  intros H. cut (exists l l', fs = l ++ (s, snd p) :: l' /\ ~ In s (map fst l)).
  { intros (l & l' & -> & Hn). constructor. exact Hn. }
  induction fs as [|q fs IH]; [discriminate|]. cbn in H. destruct (sort_eqb (fst q) s) eqn:E.
  - injection H as <-. apply sort_eqb_spec in E. exists [], fs. destruct q as [t i]. cbn in *. subst. split; [reflexivity|intros []].
  - destruct (IH H) as (l & l' & -> & Hn). exists (q :: l), l'. split; [reflexivity|]. intros [<-|Hi]; [|auto].
    rewrite (proj2 (sort_eqb_spec _ _) eq_refl) in E. discriminate.
Qed.
Lemma f_a_spec get_sort k x m s a : get_sort m = Some s -> f_a get_sort true k x m = Some a -> exists i, symbol k s i /\ a = FFun (Fsubterm i) [x; m].
Proof.
  intros Hs H. destruct k as [i|fs]; cbn in H.
  - injection H as <-. exists i. split; [constructor|reflexivity].
  - rewrite Hs in H. destruct (find _ fs) as [p|] eqn:E; [|discriminate]. injection H as <-. exists (snd p). split; [apply find_symbol; exact E|reflexivity].
Qed.
Lemma atom_below get_sort k x m s a (M : structure) (rho : env M) : get_sort m = Some s -> f_a get_sort true k x m = Some a ->
  (holds a rho <-> below M k s (eval x rho) (eval m rho)).
Proof.
  intros Hs H. destruct (f_a_spec _ _ _ _ _ _ Hs H) as (i & Hi & ->). split.
  - intros Hh. exists i. split; [exact Hi|exact Hh].
  - intros (j & Hj & Hh). rewrite (symbol_unique _ _ _ _ Hi Hj). exact Hh.
Qed.

(** ** The values of the quantified variables *)
Section Bind.
  Context (M : structure) (ss : list sort) (n i : nat) (s : sort) (Hi : i < n).
  Notation vars := (sorts_to_variables n ss).
  Lemma nodup_vars : NoDup (map vid vars).
  Proof. rewrite sorts_ids. apply seq_NoDup. Qed.
  Lemma not_var : ~ In i (map vid vars).
  Proof. rewrite sorts_ids, in_seq. lia. Qed.
  Lemma bound_all (P : env M -> Prop) (rho : env M) :
    (forall es, typed (M:=M) (vars ++ [mkVar i s]) es -> P (bindv rho (vars ++ [mkVar i s]) es)) <->
    (forall ds d, args_of M ss ds -> dom M s d -> P (upd (bindv rho vars ds) i d)).
  Proof.
    split; intros H.
    - intros ds d Hds Hd. assert (Ht : typed (M:=M) vars ds) by (apply typed_args; rewrite sorts_sorts; exact Hds).
      specialize (H (ds ++ [d])). rewrite bindv_app in H by (apply typed_length; exact Ht). apply H. apply typed_app; [exact Ht|].
      constructor; [exact Hd|constructor].
    - intros es Hes. apply typed_app_inv in Hes as (ds & l & -> & Hds & Hl). inversion Hl as [|? d ? l' Hd Hl']; subst. inversion Hl'; subst.
      rewrite bindv_app by (apply typed_length; exact Hds). apply H; [apply typed_args in Hds; rewrite sorts_sorts in Hds; exact Hds|exact Hd].
  Qed.
  Lemma upd_vars (rho : env M) ds d : args_of M ss ds -> map (fun v => upd (bindv rho vars ds) i d (vid v)) vars = ds.
  Proof.
    intros Hds. assert (Hl : length vars = length ds).
    { rewrite <- (map_length vsort), sorts_sorts. apply args_of_length with (M := M). exact Hds. }
    etransitivity; [|exact (bindv_values vars rho ds nodup_vars Hl)]. apply map_ext_in. intros v Hv. unfold upd.
    destruct (Nat.eqb_spec (vid v) i) as [E|]; [|reflexivity]. exfalso. apply not_var. rewrite <- E. apply in_map. exact Hv.
  Qed.
  Lemma upd_app (rho : env M) f ds d : args_of M ss ds -> eval (FFun f (map FVar vars)) (upd (bindv rho vars ds) i d) = app f ds.
  Proof. intros Hds. cbn [eval]. rewrite map_map. cbn [eval]. rewrite upd_vars by exact Hds. reflexivity. Qed.
  Lemma upd_x (rho : env M) d : upd rho i d i = d.
  Proof. unfold upd. rewrite Nat.eqb_refl. reflexivity. Qed.
  Lemma nth_var j : nth_error vars j = option_map (mkVar (n + j)) (nth_error ss j).
  Proof.
    clear Hi. revert n j. induction ss as [|t l IH]; intros n [|j]; cbn; try reflexivity; [rewrite Nat.add_0_r; reflexivity|].
    rewrite IH. replace (n + 1 + j) with (n + S j) by lia. destruct (nth_error l j); cbn; f_equal; f_equal; lia.
  Qed.
  Lemma upd_nth (rho : env M) ds d j v e : args_of M ss ds -> nth_error vars j = Some v -> nth_error ds j = Some e ->
    upd (bindv rho vars ds) i d (vid v) = e.
  Proof.
    intros Hds Hv He. rewrite <- (upd_vars rho ds d Hds) in He. rewrite nth_error_map, Hv in He. cbn in He. congruence.
  Qed.
End Bind.

Lemma nth_sorts ss n j s : nth_error ss j = Some s -> exists v, nth_error (sorts_to_variables n ss) j = Some v /\ vsort v = s.
Proof. intros H. rewrite nth_var, H. cbn. eauto. Qed.
Lemma args_nth (M : structure) ss ds : args_of M ss ds -> forall j s, nth_error ss j = Some s -> exists d, nth_error ds j = Some d /\ dom M s d.
Proof.
  intros H. induction H as [|t d ss ds Hd H IH]; intros [|j] s Hj; cbn in *; try discriminate.
  - injection Hj as <-. eauto.
  - apply IH. exact Hj.
Qed.
Lemma mapM_nth {A B} (f : A -> option B) l l' : mapM f l = Some l' ->
  (forall j b, nth_error l' j = Some b -> exists a, nth_error l j = Some a /\ f a = Some b) /\
  (forall j a, nth_error l j = Some a -> exists b, nth_error l' j = Some b /\ f a = Some b).
Proof.
  revert l'. induction l as [|a l IH]; cbn; intros l' H.
  - injection H as <-. split; intros [|j] b; discriminate.
  - destruct (f a) as [b|] eqn:E; [|discriminate]. destruct (mapM f l) as [bs|]; [|discriminate]. injection H as <-.
    destruct (IH bs eq_refl) as [H1 H2]. split; intros [|j] c Hc; cbn in *; try (injection Hc as <-; eauto); eauto.
Qed.

Section Assertions.
  Context (get_sort : formula -> option sort) (Hvar : sorts_of get_sort) (r : realm) (se : search) (Hsound : is_sound_in_smt r (se_sort se) = true)
    (M : structure).
  Notation R := (below M (se_kind se)).

  Lemma function_assertion_spec fn ins out ax (rho : env M) : (forall args, get_sort (FFun fn args) = Some out) ->
    function_assertion get_sort r se fn ins = Some ax -> (holds ax rho <-> passes R (se_sort se) fn ins out).
  Proof.
    intros Hout H. unfold function_assertion, atom in H. rewrite Hsound in H.
    set (x := mkVar 0 (se_sort se)) in *. set (vars := sorts_to_variables 1 ins) in *.
    destruct (mapM _ vars) as [l|] eqn:El; [|discriminate]. destruct (f_a _ _ _ _ (FFun fn _)) as [a|] eqn:Ea; [|discriminate].
    injection H as <-. rewrite holds_all.
    match goal with |- (forall es, _ -> holds ?F _) <-> _ => transitivity (forall ds d, args_of M ins ds -> dom M (se_sort se) d -> holds F (upd (bindv rho vars ds) 0 d));
      [exact (bound_all M ins 1 0 (se_sort se) (holds F) rho)|] end.
    destruct (mapM_nth _ _ _ El) as [L1 L2]. clear El.
    pose proof (fun rho => atom_below _ _ _ _ _ _ M rho (Hout _) Ea) as HA.
    assert (HB : forall ds d, args_of M ins ds -> dom M (se_sort se) d ->
      (holds (ors l) (upd (bindv rho vars ds) 0 d) <-> exists j s e, nth_error ins j = Some s /\ nth_error ds j = Some e /\ R s d e)).
    { intros ds d Hds Hd. rewrite holds_ors. split.
      - intros (f & Hf & Hh). apply In_nth_error in Hf as [j Hj]. destruct (L1 j f Hj) as (v & Hv & Hfa).
        pose proof Hv as Hv'. unfold vars in Hv'. rewrite nth_var in Hv'. destruct (nth_error ins j) as [s|] eqn:Es; [|discriminate]. injection Hv' as Ev.
        destruct (args_nth M ins ds Hds j s Es) as (e & He & _). exists j, s, e. split; [exact Es|]. split; [exact He|].
        apply (atom_below _ _ _ _ _ _ M _ (Hvar v) Hfa) in Hh. cbn [eval] in Hh. rewrite <- Ev in Hh. cbn [vid vsort] in Hh.
        change (vid x) with 0 in Hh. rewrite upd_x in Hh. unfold vars in Hh. rewrite <- (upd_nth M ins 1 0 ltac:(lia) rho ds d j v e Hds Hv He).
        rewrite <- Ev. exact Hh.
      - intros (j & s & e & Es & He & Hr). destruct (nth_sorts ins 1 j s Es) as (v & Hv & Hs). destruct (L2 j v Hv) as (f & Hf & Hfa).
        exists f. split; [apply nth_error_In in Hf; exact Hf|]. apply (atom_below _ _ _ _ _ _ M _ (Hvar v) Hfa). cbn [eval].
        change (vid x) with 0. rewrite upd_x, Hs. unfold vars. rewrite (upd_nth M ins 1 0 ltac:(lia) rho ds d j v e Hds Hv He). exact Hr. }
    split; intros H ds d Hds Hd.
    - intros Hr. specialize (H ds d Hds Hd). rewrite holds_imp in H. lapply H; clear H.
      2: { apply HA. unfold vars. rewrite (upd_app M ins 1 0 ltac:(lia) rho fn ds d Hds). cbn [eval]. change (vid x) with 0. rewrite upd_x. exact Hr. }
      intros H. rewrite Hout in H. destruct (sort_eqb out (se_sort se)) eqn:Eo.
      + apply sort_eqb_spec in Eo. apply holds_or in H as [H|H]; [left; apply HB; auto|right]. split; [exact Eo|].
        apply holds_meq in H. unfold vars in H. rewrite (upd_app M ins 1 0 ltac:(lia) rho fn ds d Hds) in H. cbn [eval] in H. change (vid x) with 0 in H.
        rewrite upd_x in H. exact H.
      + left. apply HB; auto.
    - apply holds_imp. intros Hh. apply HA in Hh. unfold vars in Hh. rewrite (upd_app M ins 1 0 ltac:(lia) rho fn ds d Hds) in Hh. cbn [eval] in Hh.
      change (vid x) with 0 in Hh. rewrite upd_x in Hh. specialize (H ds d Hds Hd Hh). rewrite Hout. destruct (sort_eqb out (se_sort se)) eqn:Eo.
      + apply holds_or. destruct H as [H|[_ H]]; [left; apply HB; auto|right]. apply holds_meq. unfold vars.
        rewrite (upd_app M ins 1 0 ltac:(lia) rho fn ds d Hds). cbn [eval]. change (vid x) with 0. rewrite upd_x. exact H.
      + destruct H as [H|[E _]]; [apply HB; auto|]. apply sort_eqb_spec in E. congruence.
    Unshelve. all: lia.
  Qed.

  Lemma not_of_sort_spec ss axs (rho : env M) : not_of_sort get_sort r se ss = Some axs ->
    (Forall (fun ax => holds ax rho) axs <-> forall s, In s ss -> nothing_below R (se_sort se) s).
  Proof.
    intros H. unfold not_of_sort in H. destruct (mapM_nth _ _ _ H) as [H1 H2]. clear H. unfold atom in *. rewrite Hsound in *.
    assert (HA : forall s ax, option_map (fun a => mk_forall [mkVar 0 (se_sort se); mkVar 1 s] (fnot a))
        (f_a get_sort true (se_kind se) (FVar (mkVar 0 (se_sort se))) (FVar (mkVar 1 s))) = Some ax ->
        (holds ax rho <-> nothing_below R (se_sort se) s)).
    { intros s ax H. destruct (f_a _ _ _ _ _) as [a|] eqn:Ea; [|discriminate]. injection H as <-.
      change (FQ QForall [mkVar 0 (se_sort se); mkVar 1 s] (fnot a)) with (mk_forall [mkVar 0 (se_sort se); mkVar 1 s] (fnot a)). rewrite holds_all.
      pose proof (fun rho => atom_below _ _ _ _ _ _ M rho (Hvar _) Ea) as HA. split.
      - intros H x m Hx Hm Hr. specialize (H [x; m]). assert (Ht : typed (M:=M) [mkVar 0 (se_sort se); mkVar 1 s] [x; m]) by (repeat constructor; auto).
        specialize (H Ht). apply holds_not in H. apply H. apply HA. exact Hr.
      - intros H es Hes. inversion Hes as [|? x ? l Hx Hl]; subst. inversion Hl as [|? m ? l' Hm Hl']; subst. inversion Hl'; subst.
        apply holds_not. intros Hh. apply HA in Hh. exact (H x m Hx Hm Hh). }
    rewrite Forall_forall. split.
    - intros H s Hs. apply In_nth_error in Hs as [j Hj]. destruct (H2 j s Hj) as (ax & Hax & E). apply (HA s ax E). apply H. eapply nth_error_In; eauto.
    - intros H ax Hax. apply In_nth_error in Hax as [j Hj]. destruct (H1 j ax Hj) as (s & Hs & E). apply (HA s ax E). apply H. eapply nth_error_In; eauto.
  Qed.

  (** ** Functions that are not looked through *)
  Section Special.
    Context (steps : list pstep) (anc : mref -> option ancestors) (tq : nat -> ta_quant) (scmp : sort -> sort -> comparison) (mfuel fuel mv : nat) (keep : bool)
      (Hscmp : forall a b, scmp a b = Eq <-> a = b).
    Lemma visits_flat fn (vars : list var) st e : ~ hides fn -> se_nexts se (FFun fn (map FVar vars)) = map FVar vars -> (forall v, se_nexts se (FVar v) = []) ->
      visits steps anc tq (se_nexts se) (FFun fn (map FVar vars), st) e -> e = (FFun fn (map FVar vars), st) \/ exists v, In v vars /\ e = (FVar v, st).
    Proof.
      intros Hf Hn Hv H. assert (Hvv : forall v e, visits steps anc tq (se_nexts se) (FVar v, st) e -> e = (FVar v, st)).
      { intros v e' He. inversion He as [|f s a ? Ha He'|f s us u ? Hu Hin He']; subst; [reflexivity| |].
        - rewrite Hv in Ha. destruct Ha.
        - cbn in Hu. injection Hu as <-. destruct Hin. }
      inversion H as [|f s a ? Ha He|f s us u ? Hu Hin He]; subst; [left; reflexivity| |].
      - rewrite Hn in Ha. apply in_map_iff in Ha as (v & <- & Hv'). right. exists v. split; [exact Hv'|apply Hvv; exact He].
      - assert (E : us = []). { destruct fn; cbn in Hu; try congruence; exfalso; apply Hf; constructor. }
        subst. destruct Hin.
    Qed.

    Lemma special_spec fn ins out ax (rho : env M) : ~ hides fn -> (forall n, se_nexts se (FFun fn (map FVar (sorts_to_variables n ins))) = map FVar (sorts_to_variables n ins)) ->
      (forall v, se_nexts se (FVar v) = []) -> (forall args, get_sort (FFun fn args) = Some out) -> (forall s, exists d, dom M s d) ->
      special_assertion get_sort (se_sort se) true (se_kind se) steps anc tq mfuel (se_nexts se) scmp fuel mv (se_flags se) keep fn ins = Some ax ->
      (holds ax rho <-> stops R (se_sort se) fn ins out).
    Proof.
      intros Hh Hn Hv Hout Hne H. unfold special_assertion in H. replace (mv + 1 + 1) with (mv + 2) in H by lia. cbn zeta in H.
      set (x := mkVar (mv + 1) (se_sort se)) in *. set (vars := sorts_to_variables (mv + 2) ins) in *. set (ff := FFun fn (map FVar vars)) in *.
      unfold preprocess_term_to_formula, preprocess_term in H. destruct (preprocess_terms _ _ _ _ _ _ _ _ _ _ _ _ _ _) as [out_|] eqn:Eo; [|discriminate].
      cbn [option_map] in H. destruct (f_a _ _ _ _ ff) as [a|] eqn:Ea; [|discriminate]. injection H as <-.
      rewrite holds_all.
      match goal with |- (forall es, _ -> holds ?F _) <-> _ => transitivity (forall ds d, args_of M ins ds -> dom M (se_sort se) d -> holds F (upd (bindv rho vars ds) (mv + 1) d));
        [exact (bound_all M ins (mv + 2) (mv + 1) (se_sort se) (holds F) rho)|] end.
      pose proof (fun rho => atom_below _ _ _ _ _ _ M rho (Hout _) Ea) as HA.
      destruct (explores _ _ _ _ _ _ _ _ _ _ _ _ _ _ _ Eo) as [X1 X2].
      assert (Hnil : forall d, In d out_ -> fst d = []).
      { intros [bv g] Hd. destruct (X2 bv g Hd) as (m & bvs & f & st & [E|[]] & Hvis & _ & -> & _). injection E as <- <-.
        destruct (visits_flat fn vars _ _ Hh (Hn (mv + 2)) Hv Hvis) as [E|(v & _ & E)]; injection E as -> ->; reflexivity. }
      assert (HI : forall rho1 : env M, holds (into_exist_formula scmp out_) rho1 <->
        (get_sort ff = Some (se_sort se) /\ rho1 (mv + 1) = eval ff rho1) \/ exists v, In v vars /\ vsort v = se_sort se /\ rho1 (mv + 1) = rho1 (vid v)).
      { intros rho1. rewrite (@merge_equivalent scmp Hscmp M out_).
        - unfold disjunction. rewrite holds_ors. split.
          + intros (f & Hf & Hf'). apply in_map_iff in Hf as ([bv g] & <- & Hd). pose proof (Hnil _ Hd) as En. cbn in En, Hf'. subst bv. cbn in Hf'.
            destruct (X2 [] g Hd) as (m & bvs & f & st & [E|[]] & Hvis & Hs & _ & Hsay). injection E as <- <-.
            apply Hsay in Hf' as [He _]. change (vid x) with (mv + 1) in He.
            destruct (visits_flat fn vars _ _ Hh (Hn (mv + 2)) Hv Hvis) as [E|(v & Hin & E)]; injection E as -> ->.
            * left. split; [exact Hs|exact He].
            * right. exists v. split; [exact Hin|]. rewrite Hvar in Hs. injection Hs as Hs. split; [exact Hs|exact He].
          + intros [[Hs He]|(v & Hin & Hs & He)].
            * destruct (X1 ff [] ff (mkSt (se_flags se) [] None) (or_introl eq_refl) (vi_here _ _ _ _ _) Hs) as (g & Hg & Hsay). cbn in Hg.
              eexists. split; [apply in_map; exact Hg|]. cbn. apply Hsay. split; [exact He|]. intros _. exact I.
            * assert (Hvis : visits steps anc tq (se_nexts se) (ff, mkSt (se_flags se) [] None) (FVar v, mkSt (se_flags se) [] None)).
              { eapply vi_child; [|apply vi_here]. unfold ff, vars. rewrite Hn. apply in_map. exact Hin. }
              destruct (X1 ff [] _ _ (or_introl eq_refl) Hvis) as (g & Hg & Hsay); [rewrite Hvar, Hs; reflexivity|]. cbn in Hg.
              eexists. split; [apply in_map; exact Hg|]. cbn. apply Hsay. split; [exact He|]. intros _. exact I.
        - intros d Hd v w Hw. rewrite (Hnil d Hd) in Hw. destruct Hw.
        - exact Hne.
        - intros d e v Hd He Hw. rewrite (Hnil e He) in Hw. destruct Hw. }
      assert (Hlt : mv + 1 < mv + 2) by lia.
      split; intros H ds d Hds Hd.
      - intros Hr. specialize (H ds d Hds Hd). rewrite holds_imp in H. lapply H; clear H.
        2: { apply HA. unfold ff, vars. rewrite (upd_app M ins (mv + 2) (mv + 1) Hlt rho fn ds d Hds). cbn [eval]. change (vid x) with (mv + 1). rewrite upd_x. exact Hr. }
        intros H. apply HI in H. rewrite upd_x in H. destruct H as [[Hs He]|(v & Hin & Hs & He)].
        + right. unfold ff in Hs. rewrite Hout in Hs. injection Hs as Hs. split; [exact Hs|]. unfold ff, vars in He. rewrite (upd_app M ins (mv + 2) (mv + 1) Hlt rho fn ds d Hds) in He. exact He.
        + left. apply In_nth_error in Hin as [j Hj]. exists j. pose proof Hj as Hj'. unfold vars in Hj'. rewrite nth_var in Hj'.
          destruct (nth_error ins j) as [s|] eqn:Es; [|discriminate]. injection Hj' as Ev. rewrite <- Ev in Hs. cbn in Hs. rewrite Hs. split; [reflexivity|].
          destruct (args_nth M ins ds Hds j s Es) as (e & He' & _). rewrite He', He. f_equal. symmetry. unfold vars.
          exact (upd_nth M ins (mv + 2) (mv + 1) Hlt rho ds d j v e Hds Hj He').
      - apply holds_imp. intros Hx. apply HA in Hx. unfold ff, vars in Hx. rewrite (upd_app M ins (mv + 2) (mv + 1) Hlt rho fn ds d Hds) in Hx. cbn [eval] in Hx.
        change (vid x) with (mv + 1) in Hx. rewrite upd_x in Hx. apply HI. rewrite upd_x. destruct (H ds d Hds Hd Hx) as [(j & Es & He)|[Ho He]].
        + right. destruct (nth_sorts ins (mv + 2) j _ Es) as (v & Hv' & Hs). exists v. split; [eapply nth_error_In; exact Hv'|]. split; [exact Hs|]. symmetry.
          exact (upd_nth M ins (mv + 2) (mv + 1) Hlt rho ds d j v d Hds Hv' He).
        + left. unfold ff. rewrite Hout, Ho. split; [reflexivity|]. unfold vars. rewrite (upd_app M ins (mv + 2) (mv + 1) Hlt rho fn ds d Hds). exact He.
      Unshelve. all: lia.
    Qed.
  End Special.
End Assertions.

(** ** Which axioms there are *)
Lemma is_ignored_spec se s : is_ignored se s = true <-> In s (se_ignored se).
Proof.
  unfold is_ignored. rewrite existsb_exists. split.
  - intros (t & Ht & E). unfold fsym_eqb in E. destruct (fsym_eq_dec s t); [subst; exact Ht|discriminate].
  - intros H. exists s. split; [exact H|]. unfold fsym_eqb. destruct (fsym_eq_dec s s); congruence.
Qed.
Lemma default_spec s : is_default_subterm s = true <-> term_function s /\ ~ hides s.
Proof.
  destruct s; cbn; split; intros H; try discriminate; try (split; [constructor|intros Hh; inversion Hh]); try reflexivity;
    destruct H as [H1 H2]; try (inversion H1; fail); exfalso; apply H2; constructor.
Qed.
Lemma ta_fun_spec s : is_ta_fun s = true <-> term_function s.
Proof. destruct s; cbn; split; intros H; try discriminate; try constructor; try reflexivity; inversion H. Qed.
Lemma hides_dec s : {hides s} + {~ hides s}.
Proof. destruct s; try (left; constructor; fail); right; intros H; inversion H. Qed.
Lemma default_functions_spec funs se f ins : In (f, ins) (default_functions funs se) <->
  In (f, ins) funs /\ term_function f /\ ~ hides f /\ ~ In f (se_ignored se).
Proof.
  unfold default_functions. rewrite filter_In. cbn [fst]. rewrite andb_true_iff, default_spec, negb_true_iff, <- not_true_iff_false, is_ignored_spec. tauto.
Qed.
Lemma special_functions_spec funs se f ins : In (f, ins) (special_functions funs se) <->
  In (f, ins) funs /\ term_function f /\ (hides f \/ In f (se_ignored se)).
Proof.
  unfold special_functions. rewrite filter_In. cbn [fst]. rewrite andb_true_iff, orb_true_iff, negb_true_iff, <- not_true_iff_false, default_spec, is_ignored_spec, ta_fun_spec.
  destruct (hides_dec f); tauto.
Qed.
Lemma ta_sort_spec s : is_ta_sort s = false <-> plain_sort s.
Proof. destruct s; cbn; split; intros H; try discriminate; try constructor; try reflexivity; inversion H. Qed.
Lemma mapM_in {A B} (f : A -> option B) l l' : mapM f l = Some l' -> (forall b, In b l' <-> exists a, In a l /\ f a = Some b) /\ (forall a, In a l -> exists b, In b l' /\ f a = Some b).
Proof.
  intros H. destruct (mapM_nth _ _ _ H) as [H1 H2]. split.
  - intros b. split.
    + intros Hb. apply In_nth_error in Hb as [j Hj]. destruct (H1 j b Hj) as (a & Ha & E). exists a. split; [eapply nth_error_In; eauto|exact E].
    + intros (a & Ha & E). apply In_nth_error in Ha as [j Hj]. destruct (H2 j a Hj) as (b' & Hb & E'). assert (b' = b) by congruence. subst. eapply nth_error_In; eauto.
  - intros a Ha. apply In_nth_error in Ha as [j Hj]. destruct (H2 j a Hj) as (b & Hb & E). exists b. split; [eapply nth_error_In; eauto|exact E].
Qed.
Lemma append_spec a b l : append a b = Some l -> exists x y, a = Some x /\ b = Some y /\ l = x ++ y.
Proof. destruct a, b; cbn; try discriminate. intros H. injection H as <-. eauto. Qed.

Section Defined.
  Context (get_sort : formula -> option sort) (Hvar : sorts_of get_sort) (funs : list (fsym * list sort)) (out : fsym -> sort)
    (Hout : outs_of get_sort funs out) (sorts : list sort) (M : structure).

  Lemma function_assertions_spec r se axs (rho : env M) : is_sound_in_smt r (se_sort se) = true -> function_assertions get_sort r funs se = Some axs ->
    (Forall (fun ax => holds ax rho) axs <->
     forall f ins, In (f, ins) funs -> term_function f -> ~ hides f -> ~ In f (se_ignored se) -> passes (below M (se_kind se)) (se_sort se) f ins (out f)).
  Proof.
    intros Hs H. destruct (mapM_in _ _ _ H) as [H1 H2]. rewrite Forall_forall. split.
    - intros Hall f ins Hf Ht Hh Hi. assert (Hd : In (f, ins) (default_functions funs se)) by (apply default_functions_spec; auto).
      destruct (H2 _ Hd) as (ax & Hax & E). cbn in E. apply (function_assertion_spec get_sort Hvar r se Hs M f ins (out f) ax rho); [|exact E|apply Hall; exact Hax].
      intros args. eapply Hout; eauto.
    - intros Hp ax Hax. apply H1 in Hax as ([f ins] & Hd & E). cbn in E. apply default_functions_spec in Hd as (Hf & Ht & Hh & Hi).
      apply (function_assertion_spec get_sort Hvar r se Hs M f ins (out f) ax rho); [|exact E|auto]. intros args. eapply Hout; eauto.
  Qed.

  Context (steps : list pstep) (cells : list mcell) (anc : mref -> option ancestors) (tq : nat -> ta_quant)
    (scmp : sort -> sort -> comparison) (mfuel fuel : nat).

  Lemma sound_symbolic s : is_sound_in_smt RSymbolic s = true.
  Proof. unfold is_sound_in_smt. cbn. apply orb_true_r. Qed.

  Lemma define_spec se keep axs (rho : env M) :
    define_subterm get_sort RSymbolic funs sorts steps cells anc tq scmp mfuel fuel se keep = Some axs -> vampire (se_kind se) = false ->
    exists special, special_assertions get_sort RSymbolic funs steps cells anc tq scmp mfuel fuel se keep = Some special /\
    (Forall (fun ax => holds ax rho) axs <->
     (forall f ins, In (f, ins) funs -> term_function f -> ~ hides f -> ~ In f (se_ignored se) -> passes (below M (se_kind se)) (se_sort se) f ins (out f)) /\
     (forall s, In s sorts -> plain_sort s -> s <> se_sort se -> nothing_below (below M (se_kind se)) (se_sort se) s) /\
     Forall (fun ax => holds ax rho) special).
  Proof.
    intros H Hk. unfold define_subterm in H. rewrite Hk in H. apply append_spec in H as (x & sp & E & Esp & ->).
    apply append_spec in E as (fa & ns & Efa & Ens & ->). exists sp. split; [exact Esp|]. rewrite !Forall_app.
    rewrite (function_assertions_spec RSymbolic se fa rho (sound_symbolic _) Efa).
    unfold not_of_sort_auto in Ens. rewrite (not_of_sort_spec get_sort Hvar RSymbolic se (sound_symbolic _) M _ ns rho Ens).
    assert (Hin : forall s, In s (filter (fun s => negb (sort_eqb s (se_sort se)) && negb (is_ta_sort s) && (if evaluated_realm RSymbolic then negb (is_evaluated s) else true)) sorts) <->
      In s sorts /\ plain_sort s /\ s <> se_sort se).
    { intros s. rewrite filter_In. cbn [evaluated_realm]. rewrite andb_true_r, andb_true_iff, !negb_true_iff, ta_sort_spec, <- not_true_iff_false, sort_eqb_spec. tauto. }
    setoid_rewrite Hin. firstorder.
  Qed.

  (** The special functions that do not hide anything are the ignored ones. *)
  Lemma special_in se keep special f ins : special_assertions get_sort RSymbolic funs steps cells anc tq scmp mfuel fuel se keep = Some special ->
    In (f, ins) funs -> term_function f -> hides f \/ In f (se_ignored se) -> exists mv ax, protocol_max_var fuel steps cells = Some mv /\ In ax special /\
    special_assertion get_sort (se_sort se) true (se_kind se) steps anc tq mfuel (se_nexts se) scmp fuel mv (se_flags se) keep f ins = Some ax.
  Proof.
    intros H Hf Ht Hh. unfold special_assertions in H. destruct (protocol_max_var fuel steps cells) as [mv|]; [|discriminate].
    destruct (mapM_in _ _ _ H) as [_ H2]. destruct (H2 (f, ins)) as (ax & Hax & E); [apply special_functions_spec; auto|].
    rewrite sound_symbolic in E. exists mv, ax. auto.
  Qed.
End Defined.

(** ** Where the searches go below an ignored function *)
Definition flat (nexts : formula -> list formula) (fn : fsym) (ins : list sort) : Prop :=
  (forall n, nexts (FFun fn (map FVar (sorts_to_variables n ins))) = map FVar (sorts_to_variables n ins)) /\ (forall v, nexts (FVar v) = []).
Ltac flat_tac := split; [intros n; cbn|intros v; reflexivity].
Lemma uf_key_flat mac verify k f ins : In f [Fuser mac; Fuser verify] -> flat (se_nexts (uf_key mac verify k)) f ins.
Proof.
  intros _. flat_tac. destruct ins as [|a [|b [|c [|d ins]]]]; cbn; try reflexivity; rewrite ?andb_false_r; reflexivity.
Qed.
Lemma euf_key_flat sign pk k f ins : In f [Fuser sign; Fuser pk] -> flat (se_nexts (euf_key sign pk k)) f ins.
Proof. intros _. flat_tac. destruct ins as [|a [|b [|c [|d ins]]]]; cbn; try reflexivity; rewrite ?andb_false_r; reflexivity. Qed.
Lemma ctxt_key_flat enc dec k f ins : In f [Fuser enc; Fuser dec] -> flat (se_nexts (ctxt_key enc dec k)) f ins.
Proof. intros _. flat_tac. destruct ins as [|a [|b [|c [|d ins]]]]; cbn; try reflexivity; rewrite ?andb_false_r; reflexivity. Qed.
Lemma ctxt_rand_flat enc k f ins : In f [Fuser enc] -> flat (se_nexts (ctxt_rand enc k)) f ins.
Proof. intros _. flat_tac. destruct ins as [|a [|b [|c [|d ins]]]]; cbn; try reflexivity; rewrite ?andb_false_r; reflexivity. Qed.
Lemma uf_main_flat mac verify hmac k f ins : In f [Fuser mac; Fuser verify] -> flat (se_nexts (uf_main mac verify hmac k)) f ins.
Proof.
  intros Hf. flat_tac. destruct ins as [|a [|b [|c [|d ins]]]]; cbn; try reflexivity.
  destruct hmac; [|reflexivity]. destruct Hf as [<-|[<-|[]]]; reflexivity.
Qed.

(** ** The axioms are true of terms *)
Section True_.
  Context (get_sort : formula -> option sort) (Hvar : sorts_of get_sort) (funs : list (fsym * list sort)) (out : fsym -> sort)
    (Hout : outs_of get_sort funs out) (M : structure) (se : search).
  Definition seen_functions : list (fsym * list sort) := default_functions funs se.
  Context (Hws : well_sorted M funs out) (Hdis : forall s t d, dom M s d -> dom M t d -> s = t) (Hfree : free_over M funs)
    (Hterms : forall f ins, In (f, ins) funs -> ~ plain_sort (out f))
    (Hbelow : forall s x m, dom M (se_sort se) x -> dom M s m -> (below M (se_kind se) s x m <-> inside M seen_functions x m)).

  Lemma inside_inv x m : inside M seen_functions x m -> x = m \/ exists f ss ds d, In (f, ss) seen_functions /\ args_of M ss ds /\ m = app f ds /\ In d ds /\ inside M seen_functions x d.
  Proof. intros H. destruct H as [|f ss ds d Hf Ha Hd H]; [left; reflexivity|right]. exists f, ss, ds, d. auto. Qed.
  Lemma in_nth_args ss ds d : args_of M ss ds -> In d ds -> exists j s, nth_error ss j = Some s /\ nth_error ds j = Some d /\ dom M s d.
  Proof.
    intros H. induction H as [|s e ss ds He H IH]; intros Hd; [destruct Hd|]. destruct Hd as [<-|Hd].
    - exists 0, s. auto.
    - destruct (IH Hd) as (j & t & H1 & H2 & H3). exists (S j), t. auto.
  Qed.
  Lemma true_passes f ins : In (f, ins) seen_functions -> passes (below M (se_kind se)) (se_sort se) f ins (out f).
  Proof.
    intros Hf ds x Hds Hx Hr. pose proof Hf as Hf'. apply default_functions_spec in Hf' as (Hf' & _).
    pose proof (Hws f ins ds Hf' Hds) as Hd. apply Hbelow in Hr; auto.
    apply inside_inv in Hr as [->|(g & ts & es & e & Hg & Hes & E & He & Hr)].
    - right. split; [|reflexivity]. eapply Hdis; [exact Hd|exact Hx].
    - left. pose proof Hg as Hg'. apply default_functions_spec in Hg' as (Hg' & _). destruct (Hfree f ins ds g ts es Hf' Hg' Hds Hes E) as [_ ->].
      destruct (in_nth_args ins es e Hds He) as (j & s & H1 & H2 & H3). exists j, s, e. split; [exact H1|]. split; [exact H2|]. apply Hbelow; auto.
  Qed.
  Lemma true_stops f ins : In (f, ins) funs -> ~ In f (map fst seen_functions) -> stops (below M (se_kind se)) (se_sort se) f ins (out f).
  Proof.
    intros Hf Hn ds x Hds Hx Hr. right. pose proof (Hws f ins ds Hf Hds) as Hd. apply Hbelow in Hr; auto.
    apply inside_inv in Hr as [->|(g & ts & es & e & Hg & Hes & E & He & Hr)].
    - split; [|reflexivity]. eapply Hdis; [exact Hd|exact Hx].
    - exfalso. pose proof Hg as Hg'. apply default_functions_spec in Hg' as (Hg' & _). destruct (Hfree f ins ds g ts es Hf Hg' Hds Hes E) as [-> _].
      apply Hn. apply (in_map fst) in Hg. exact Hg.
  Qed.
  Lemma true_sort s : plain_sort s -> s <> se_sort se -> nothing_below (below M (se_kind se)) (se_sort se) s.
  Proof.
    intros Hs Hn x m Hx Hm Hr. apply Hbelow in Hr; auto. apply inside_inv in Hr as [->|(g & ts & es & e & Hg & Hes & -> & He & Hr)].
    - apply Hn. eapply Hdis; [exact Hm|exact Hx].
    - apply default_functions_spec in Hg as (Hg & _). pose proof (Hws g ts es Hg Hes) as Hd. apply (Hterms g ts Hg).
      rewrite <- (Hdis _ _ _ Hm Hd). exact Hs.
  Qed.
End True_.

(** ** Nonces *)
Section Nonces.
  Context (get_sort : formula -> option sort) (Hvar : sorts_of get_sort) (r : realm) (funs : list (fsym * list sort)) (out : fsym -> sort)
    (Hout : outs_of get_sort funs out) (sorts : list sort) (steps : list pstep) (cells : list mcell) (anc : mref -> option ancestors) (tq : nat -> ta_quant)
    (scmp : sort -> sort -> comparison) (mfuel fuel : nat) (k : skind) (M : structure).
  Notation R := (below M k).
  Lemma sound_name : is_sound_in_smt r SName = true.
  Proof. reflexivity. Qed.

  Lemma holds_forall2 v w F (rho : env M) : vid v <> vid w -> (holds (mk_forall [v; w] F) rho <->
    forall a b, dom M (vsort v) a -> dom M (vsort w) b -> holds F (upd (upd rho (vid v) a) (vid w) b)).
  Proof.
    intros Hn. rewrite holds_all. split.
    - intros H a b Ha Hb. apply (H [a; b]). repeat constructor; auto.
    - intros H es Hes. inversion Hes as [|? a ? l Ha Hl]; subst. inversion Hl as [|? b ? l' Hb Hl']; subst. inversion Hl'; subst. apply H; auto.
  Qed.
  Lemma same_spec ax (rho : env M) : nonce_same get_sort r (nonce k) = Some ax ->
    (holds ax rho <-> forall n n', dom M SName n -> dom M SName n' -> R SName n n' -> n = n').
  Proof.
    unfold nonce_same, atom. cbn [se_sort nonce se_kind]. rewrite sound_name. destruct (f_a _ _ _ _ _) as [a|] eqn:Ea; [|discriminate]. intros H. injection H as <-.
    change (FQ QForall ?l ?f) with (mk_forall l f). rewrite holds_forall2 by (cbn; discriminate). cbn [vid vsort].
    pose proof (fun rho => atom_below _ _ _ _ _ _ M rho (Hvar _) Ea) as HA. cbn [vsort eval vid] in HA. split.
    - intros H n n' Hn Hn' Hr. specialize (H n n' Hn Hn'). rewrite holds_imp in H. rewrite HA in H. specialize (H Hr). apply holds_meq in H. exact H.
    - intros H n n' Hn Hn'. apply holds_imp. rewrite HA. intros Hr. apply holds_meq. apply H; auto.
  Qed.
  Lemma injective_spec (rho : env M) : holds nonce_injective rho <-> names_distinct M.
  Proof.
    unfold nonce_injective. rewrite holds_forall2 by (cbn; discriminate). cbn [vid vsort]. split.
    - intros H n n' Hn Hn' E. specialize (H n n' Hn Hn'). rewrite holds_imp, !holds_meq in H. apply H. exact E.
    - intros H n n' Hn Hn'. rewrite holds_imp, !holds_meq. intros E. apply H; auto.
  Qed.
  Lemma fresh_spec ax (rho : env M) : nonce_fresh get_sort r (nonce k) = Some ax -> (holds ax rho <-> names_fresh (R SMessage)).
  Proof.
    unfold nonce_fresh, atom. cbn [se_sort nonce se_kind]. rewrite sound_name. destruct (f_a _ _ _ _ _) as [a|] eqn:Ea; [|discriminate]. intros H. injection H as <-.
    change (FQ QForall ?l ?f) with (mk_forall l f). rewrite holds_forall2 by (cbn; discriminate). cbn [vid vsort].
    pose proof (fun rho => atom_below _ _ _ _ _ _ M rho (Hvar _) Ea) as HA. cbn [vsort eval vid] in HA. split.
    - intros H n m Hn Hm E. specialize (H n m Hn Hm). rewrite holds_imp, holds_meq, HA in H. apply H. exact E.
    - intros H n m Hn Hm. rewrite holds_imp, holds_meq, HA. intros E. apply H; auto.
  Qed.

  Lemma nonce_spec axs (rho : env M) : nonce_axioms get_sort r funs sorts steps cells anc tq scmp mfuel fuel k = Some axs ->
    exists special, special_assertions get_sort r funs steps cells anc tq scmp mfuel fuel (nonce k) true = Some special /\
    (Forall (fun ax => holds ax rho) axs <->
     ((forall i, k <> KVampire i) -> (forall f ins, In (f, ins) funs -> term_function f -> ~ hides f -> passes R SName f ins (out f)) /\
                                     (forall s, In s sorts -> plain_sort s -> nothing_below R SName s)) /\
     Forall (fun ax => holds ax rho) special /\
     (forall n n', dom M SName n -> dom M SName n' -> R SName n n' -> n = n') /\ names_distinct M /\ names_fresh (R SMessage)).
  Proof.
    intros H. unfold nonce_axioms in H. apply append_spec in H as (x & y & Ex & Ey & ->). apply append_spec in Ey as (sp & z & Esp & Ez & ->).
    destruct (nonce_same _ _ _) as [a|] eqn:Ea; [|discriminate]. destruct (nonce_fresh _ _ _) as [b|] eqn:Eb; [|discriminate]. injection Ez as <-.
    exists sp. split; [exact Esp|]. rewrite !Forall_app, !Forall_cons_iff, (same_spec _ rho Ea), injective_spec, (fresh_spec _ rho Eb).
    assert (Hx : Forall (fun ax => holds ax rho) x <-> ((forall i, k <> KVampire i) -> (forall f ins, In (f, ins) funs -> term_function f -> ~ hides f -> passes R SName f ins (out f)) /\
                                     (forall s, In s sorts -> plain_sort s -> nothing_below R SName s))).
    { destruct k as [i|fs] eqn:Ek; cbn [vampire] in Ex.
      - injection Ex as <-. split; [|constructor]. intros _ Hk. exfalso. eapply Hk. reflexivity.
      - apply append_spec in Ex as (fa & ns & Efa & Ens & ->). rewrite Forall_app.
        rewrite (function_assertions_spec get_sort Hvar funs out Hout M r (nonce (KRegular fs)) fa rho sound_name Efa).
        rewrite (not_of_sort_spec get_sort Hvar r (nonce (KRegular fs)) sound_name M _ ns rho Ens). cbn [se_kind se_sort se_ignored nonce].
        assert (Hin : forall s, In s (filter (fun s => negb (sort_eqb s SName || is_ta_sort s)) sorts) <-> In s sorts /\ plain_sort s).
        { intros s. rewrite filter_In, negb_true_iff, orb_false_iff, ta_sort_spec. split; [tauto|]. intros [H1 H2]. split; [exact H1|]. split; [|exact H2].
          destruct s; try reflexivity. inversion H2. }
        setoid_rewrite Hin. split.
        + intros [H1 H2] _. split; [intros f ins Hf Ht Hh; apply H1; auto|intros s Hs Hp; apply H2; auto].
        + intros H. destruct H as [H1 H2]; [discriminate|]. split; [intros f ins Hf Ht Hh _; apply H1; auto|intros s [Hs Hp]; apply H2; auto]. }
    rewrite Hx. split.
    - intros (H1 & H2 & H3 & H4 & H5 & _). auto.
    - intros (H1 & H2 & H3 & H4 & H5). repeat (split; auto).
  Qed.
End Nonces.

Scheme made_mut := Induction for made Sort Prop with made_all_mut := Induction for made_all Sort Prop.

(** What is below a term is below one of the terms it is made of. *)
Section Derive.
  Context (M : structure) (rho : env M) (funs : list (fsym * list sort)) (out : fsym -> sort) (R : sort -> D M -> D M -> Prop) (n : D M) (Hn : dom M SName n)
    (Hws : well_sorted M funs out) (Hpass : forall f ins, In (f, ins) funs -> passes R SName f ins (out f)) (Hno : forall f ins, In (f, ins) funs -> out f <> SName).
  Definition leaves_ok (ls : list (sort * formula)) : Prop := forall s t, In (s, t) ls -> dom M s (eval t rho).
  Lemma made_dom s m ls : made funs out s m ls -> leaves_ok ls -> dom M s (eval m rho).
  Proof.
    intros H. apply (made_mut funs out (fun s m ls _ => leaves_ok ls -> dom M s (eval m rho))
      (fun ss ms ls _ => leaves_ok ls -> args_of M ss (map (fun a => eval a rho) ms))) with (l := ls); auto.
    - intros s0 t Hl. apply Hl. left. reflexivity.
    - intros f ins args ls0 Hf _ IH Hl. cbn [eval]. apply (Hws f ins); auto.
    - intros _. constructor.
    - intros s0 ss a args l ls0 _ IH1 _ IH2 Hl. constructor; [apply IH1|apply IH2]; intros t u Ht; apply Hl, in_app_iff; auto.
  Qed.
  Lemma derive s m ls : made funs out s m ls -> leaves_ok ls -> R s n (eval m rho) -> exists s' t, In (s', t) ls /\ R s' n (eval t rho).
  Proof.
    intros H. apply (made_mut funs out (fun s m ls _ => leaves_ok ls -> R s n (eval m rho) -> exists s' t, In (s', t) ls /\ R s' n (eval t rho))
      (fun ss ms ls _ => leaves_ok ls -> args_of M ss (map (fun a => eval a rho) ms) /\
         forall j s m, nth_error ss j = Some s -> nth_error (map (fun a => eval a rho) ms) j = Some m -> R s n m -> exists s' t, In (s', t) ls /\ R s' n (eval t rho)))
      with (s := s) (f := m); auto.
    - intros s0 t _ Hr. exists s0, t. split; [left; reflexivity|exact Hr].
    - intros f ins args ls0 Hf _ IH Hl Hr. destruct (IH Hl) as [Ha Hj]. cbn [eval] in Hr.
      destruct (Hpass f ins Hf _ n Ha Hn Hr) as [(j & s' & d & H1 & H2 & H3)|[E _]]; [eapply Hj; eauto|exfalso; eapply Hno; eauto].
    - intros _. split; [constructor|]. intros [|j] s0 m0; discriminate.
    - intros s0 ss a args l ls0 Hm IH1 _ IH2 Hl.
      assert (Hl1 : leaves_ok l) by (intros t u Ht; apply Hl, in_app_iff; auto). assert (Hl2 : leaves_ok ls0) by (intros t u Ht; apply Hl, in_app_iff; auto).
      destruct (IH2 Hl2) as [Ha Hj]. split; [constructor; [eapply made_dom; eauto|exact Ha]|]. intros [|j] s1 m0 H1 H2 Hr; cbn in H1, H2.
      + injection H1 as <-. injection H2 as <-. destruct (IH1 Hl1 Hr) as (s' & t & Ht & Hr'). exists s', t. split; [apply in_app_iff; auto|exact Hr'].
      + destruct (Hj j s1 m0 H1 H2 Hr) as (s' & t & Ht & Hr'). exists s', t. split; [apply in_app_iff; auto|exact Hr'].
  Qed.
End Derive.

(** ** Which keys may be split *)
Lemma visits_mono steps anc tq (n1 n2 : formula -> list formula) e e' : (forall f a, In a (n1 f) -> In a (n2 f)) ->
  visits steps anc tq n1 e e' -> visits steps anc tq n2 e e'.
Proof.
  intros Hs H. induction H as [e|f st a e Ha Hv IH|f st us u e Eu Hu Hv IH]; [constructor| |].
  - eapply vi_child; [apply Hs; exact Ha|exact IH].
  - eapply vi_unfold; eauto.
Qed.
Lemma terms_ok steps cells tq R : protocol_closed steps cells tq -> forall t bvs fl, In (t, bvs) (terms_and_bvars steps cells) -> ok R (t, mkSt fl bvs None).
Proof.
  intros (Hs & Ha & _) t bvs fl Hin. assert (Hc : closed_over bvs t).
  { unfold terms_and_bvars in Hin. apply in_app_iff in Hin as [Hin|Hin]; apply in_flat_map in Hin as (x & Hx & Hin).
    - destruct (Hs x Hx) as [H1 H2]. destruct Hin as [E|[E|[]]]; injection E as <- <-; assumption.
    - apply in_map_iff in Hin as (a & E & Hia). injection E as <- <-. exact (Ha x a Hx Hia). }
  destruct Hc as (Hn & Hsc & Hp). repeat split; cbn [fst snd ss_bound ss_guard].
  - exact Hp.
  - eapply within_sub; [apply scoped_within; [exact Hp|exact Hsc]|]. intros i Hi. apply in_app_iff. left. exact Hi.
  - exact Hn.
  - intros g [=].
Qed.

Section Split.
  Context (get_sort : formula -> option sort) (steps : list pstep) (cells : list mcell) (anc : mref -> option ancestors) (tq : nat -> ta_quant)
    (scmp : sort -> sort -> comparison) (mfuel fuel : nat) (Hscmp : forall a b, scmp a b = Eq <-> a = b)
    (Hclosed : protocol_closed steps cells tq) (Hans : answers_cells anc cells).

  Lemma split_spec r key split mv ax : split_axiom get_sort r steps cells anc tq scmp mfuel fuel key split mv = Some ax ->
    se_sort key = SName -> (forall f a, In a (se_nexts key f) -> In a (children f)) ->
    (forall t bvs e, In (t, bvs) (terms_and_bvars steps cells) -> visits steps anc tq children (t, mkSt NO_REC_MACRO bvs None) e -> ~ In (mv + 1) (map vid (ss_bound (snd e)))) ->
    forall (M : structure) (rho : env M), (forall s, exists d, dom M s d) ->
    (holds ax rho <-> forall d, dom M SName d -> tholds M (Fuser split) [d] ->
       ~ (forall t0 bvs t st ds, In (t0, bvs) (terms_and_bvars steps cells) -> visits steps anc tq (se_nexts key) (t0, mkSt NO_REC_MACRO bvs None) (t, st) ->
            get_sort t = Some SName -> typed (ss_bound st) ds -> eval t (bindv rho (ss_bound st) ds) <> d)).
  Proof.
    intros Hax Hsort Hsub Hcap M rho Hne. unfold split_axiom in Hax. rewrite Hsort in Hax.
    destruct (preprocess_terms _ _ _ _ _ _ _ _ _ _ _ _ _ _) as [out|] eqn:Eout; [|discriminate]. cbn [option_map] in Hax. injection Hax as <-.
    destruct (terms_spec _ _ _ _ _ _ _ _ _ _ _ _ _ _ _ Eout) as [Hvis Hres].
    set (k := mkVar (mv + 1) SName) in *. set (R := [mv + 1]).
    assert (Hok : forall t bvs e, In (t, bvs) (terms_and_bvars steps cells) -> visits steps anc tq (se_nexts key) (t, mkSt NO_REC_MACRO bvs None) e -> ok R e).
    { intros t bvs e Hin Hv. eapply visit_ok; [exact Hclosed|exact Hans|eapply visits_mono; [exact Hsub|exact Hv]|]. eapply terms_ok; eauto. }
    assert (Hform : forall d, In d out -> exists t bvs f st, In (t, bvs) (terms_and_bvars steps cells) /\
      visits steps anc tq (se_nexts key) (t, mkSt NO_REC_MACRO bvs None) (f, st) /\ get_sort f = Some SName /\ d = (ss_bound st, ands [meq (FVar k) f])).
    { intros d Hd. destruct (Hres d Hd) as (m & bvs & f & st & u & g0 & Hin & Hv0 & Es0 & Eg0 & ->).
      destruct (var_result _ _ _ _ _ _ _ _ _ _ _ Es0 Eg0) as [Hs ->]. exists m, bvs, f, st. auto. }
    assert (Hone : forall d, In d out -> one_sort (fst d)).
    { intros d Hd. destruct (Hform d Hd) as (t & bvs & f & st & Hin & Hv & _ & ->). cbn. destruct (Hok _ _ _ Hin Hv) as (_ & _ & Hnd & _).
      intros v w. apply same_var. exact Hnd. }
    assert (Hclash : no_clash out).
    { intros d e v Hd He Hv0 Hfree. destruct (Hform d Hd) as (t & bvs & f & st & Hin & Hv & _ & ->).
      destruct (Hform e He) as (t' & bvs' & f' & st' & Hin' & Hv' & _ & ->). cbn [fst snd] in *. destruct (Hok _ _ _ Hin Hv) as (_ & Hw & _ & _).
      assert (HwF : within (ands [meq (FVar k) f]) (map vid (ss_bound st) ++ R)).
      { apply within_fun. intros a [<-|[]]. apply meq_within; [apply within_var, in_app_iff; right; left; reflexivity|exact Hw]. }
      apply (fun H => free_within _ _ _ H HwF) in Hfree. apply in_app_iff in Hfree as [Hf|[Hf|[]]]; [exact Hf|].
      exfalso. apply (Hcap t' bvs' (f', st') Hin'); [eapply visits_mono; [exact Hsub|exact Hv']|]. cbn. rewrite Hf. apply in_map. exact Hv0. }
    assert (Hdis : forall d, holds (into_exist_formula scmp out) (upd rho (mv + 1) d) <->
      exists t0 bvs t st, In (t0, bvs) (terms_and_bvars steps cells) /\ visits steps anc tq (se_nexts key) (t0, mkSt NO_REC_MACRO bvs None) (t, st) /\
        get_sort t = Some SName /\ holds (mk_exists (ss_bound st) (ands [meq (FVar k) t])) (upd rho (mv + 1) d)).
    { intros d. rewrite (@merge_equivalent scmp Hscmp M out Hone (upd rho (mv + 1) d) Hne Hclash). unfold disjunction. rewrite holds_ors. split.
      - intros (g & Hg & Hh). apply in_map_iff in Hg as (q & <- & Hq). destruct (Hform q Hq) as (t & bvs & f & st & Hin & Hv & Hs & ->). exists t, bvs, f, st. auto.
      - intros (t & bvs & f & st & Hin & Hv & Hs & Hh). exists (mk_exists (ss_bound st) (ands [meq (FVar k) f])). split; [|exact Hh].
        destruct (Hvis t bvs f st Hin Hv) as (us & ou & _ & Eis & Ho). pose proof Eis as Eis2. unfold is_subterm, unified in Eis. rewrite Hs in Eis. cbn in Eis.
        injection Eis as <-. destruct (Ho _ eq_refl) as (g & Eg & Hgin). destruct (var_result _ _ _ _ _ _ _ _ _ _ _ Eis2 Eg) as [_ ->].
        apply in_map_iff. eexists. split; [|exact Hgin]. reflexivity. }
    assert (Heq : forall d t0 bvs t st ds, In (t0, bvs) (terms_and_bvars steps cells) -> visits steps anc tq (se_nexts key) (t0, mkSt NO_REC_MACRO bvs None) (t, st) ->
      typed (ss_bound st) ds -> (holds (ands [meq (FVar k) t]) (bindv (upd rho (mv + 1) d) (ss_bound st) ds) <-> d = eval t (bindv (upd rho (mv + 1) d) (ss_bound st) ds))).
    { intros d t0 bvs t st ds Hin Hv Ht. rewrite holds_and_list, Forall_cons_iff, holds_meq. cbn [eval k vid].
      rewrite bindv_other; [|apply (Hcap t0 bvs (t, st) Hin); eapply visits_mono; [exact Hsub|exact Hv]]. unfold upd at 1. rewrite Nat.eqb_refl.
      split; [tauto|]. intros H. split; [exact H|constructor]. }
    assert (Hval : forall t0 bvs t st d ds, In (t0, bvs) (terms_and_bvars steps cells) -> visits steps anc tq (se_nexts key) (t0, mkSt NO_REC_MACRO bvs None) (t, st) ->
      typed (ss_bound st) ds -> eval t (bindv rho (ss_bound st) ds) = eval t (bindv (upd rho (mv + 1) d) (ss_bound st) ds)).
    { intros t0 bvs t st d ds Hin Hv Ht. apply eval_agree. intros i Hi.
      destruct (visit_ok steps cells anc tq [] Hclosed Hans _ _ (visits_mono _ _ _ _ _ _ _ Hsub Hv) (terms_ok _ _ _ [] Hclosed _ _ _ Hin)) as (_ & Hw & _ & _).
      apply (fun H => free_within _ _ _ H Hw) in Hi. rewrite app_nil_r in Hi. apply bindv_in; [apply typed_length; exact Ht|exact Hi]. }
    assert (Hup : forall d, upd rho (mv + 1) d (mv + 1) = d) by (intros d; unfold upd; rewrite Nat.eqb_refl; reflexivity).
    match goal with |- holds ?f rho <-> _ => change f with (mk_forall [k] (fimp (FFun (Fuser split) [FVar k]) (into_exist_formula scmp out))) end.
    rewrite holds_all. split.
    - intros H d Dd Hsp Hno. specialize (H [d] ltac:(constructor; [exact Dd|constructor])). rewrite holds_imp in H.
      assert (Hh : holds (into_exist_formula scmp out) (upd rho (mv + 1) d)) by (apply H; change (tholds M (Fuser split) [upd rho (mv + 1) d (mv + 1)]); rewrite Hup; exact Hsp).
      apply Hdis in Hh as (t0 & bvs & t & st & Hin & Hv & Hs & Hex). apply holds_ex_elim in Hex. apply Hex. intros ds Ht Hh.
      apply (Heq d _ _ _ _ _ Hin Hv Ht) in Hh. apply (Hno t0 bvs t st ds Hin Hv Hs Ht). rewrite (Hval _ _ _ _ d ds Hin Hv Ht), <- Hh. reflexivity.
    - intros H ds Hds. inversion Hds as [|? d ? ? Dd Hds']; subst. inversion Hds'; subst. cbn [k vsort] in Dd. rewrite holds_imp. intros Hsp. change (tholds M (Fuser split) [upd rho (mv + 1) d (mv + 1)]) in Hsp. rewrite Hup in Hsp.
      change (bindv rho [k] [d]) with (upd rho (mv + 1) d).
      match goal with |- holds ?f ?r => destruct (holds_dec f r) as [Hd|Hd]; [exact Hd|] end. exfalso. apply (H d Dd Hsp).
      intros t0 bvs t st ds Hin Hv Hs Ht E. apply Hd, Hdis. exists t0, bvs, t, st. split; [exact Hin|]. split; [exact Hv|]. split; [exact Hs|].
      apply (holds_ex_intro _ _ _ ds Ht). apply (Heq d _ _ _ _ _ Hin Hv Ht). rewrite <- (Hval _ _ _ _ d ds Hin Hv Ht). symmetry. exact E.
  Qed.
End Split.

Lemma terms_spec' steps cells t bvs : In (t, bvs) (terms_and_bvars steps cells) <-> protocol_term steps cells t bvs.
Proof.
  unfold terms_and_bvars. rewrite in_app_iff, !in_flat_map. split.
  - intros [(s & Hs & Hin)|(c & Hc & Hin)].
    + destruct Hin as [E|[E|[]]]; injection E as <- <-; constructor; exact Hs.
    + apply in_map_iff in Hin as (a & E & Ha). injection E as <- <-. econstructor; eauto.
  - intros [s Hs|s Hs|c a Hc Ha].
    + left. exists s. split; [exact Hs|left; reflexivity].
    + left. exists s. split; [exact Hs|right; left; reflexivity].
    + right. exists c. split; [exact Hc|]. apply in_map_iff. exists a. auto.
Qed.

(** ** All the axioms of a relation *)
Section Full.
  Context (get_sort : formula -> option sort) (Hvar : sorts_of get_sort) (funs : list (fsym * list sort)) (out : fsym -> sort)
    (Hout : outs_of get_sort funs out) (sorts : list sort) (M : structure) (steps : list pstep) (cells : list mcell) (anc : mref -> option ancestors)
    (tq : nat -> ta_quant) (scmp : sort -> sort -> comparison) (mfuel fuel : nat) (Hscmp : forall a b, scmp a b = Eq <-> a = b) (Hne : forall s, exists d, dom M s d).

  Lemma special_full se keep special (rho : env M) :
    special_assertions get_sort RSymbolic funs steps cells anc tq scmp mfuel fuel se keep = Some special ->
    (forall f, In f (se_ignored se) -> term_function f /\ ~ hides f) -> (forall f ins, In f (se_ignored se) -> flat (se_nexts se) f ins) ->
    exists mv, protocol_max_var fuel steps cells = Some mv /\
    (Forall (fun ax => holds ax rho) special <->
     stops_at (below M (se_kind se)) (se_sort se) (se_ignored se) funs out /\
     (forall f ins ax, In (f, ins) funs -> hides f ->
        special_assertion get_sort (se_sort se) true (se_kind se) steps anc tq mfuel (se_nexts se) scmp fuel mv (se_flags se) keep f ins = Some ax -> holds ax rho)).
  Proof.
    intros H Hig Hfl. unfold special_assertions in H. destruct (protocol_max_var fuel steps cells) as [mv|]; [|discriminate]. exists mv. split; [reflexivity|].
    rewrite (sound_symbolic (se_sort se)) in H. destruct (mapM_in _ _ _ H) as [H1 H2]. rewrite Forall_forall. split.
    - intros Hall. split.
      + intros f ins Hf Hi. destruct (Hig f Hi) as [Ht Hh]. destruct (H2 (f, ins)) as (ax & Hax & E); [apply special_functions_spec; auto|]. cbn [fst snd] in E.
        destruct (Hfl f ins Hi) as [F1 F2].
        apply (special_spec get_sort Hvar se M steps anc tq scmp mfuel fuel mv keep Hscmp f ins (out f) ax rho Hh F1 F2 (fun args => Hout f ins args Hf) Hne E).
        apply Hall. exact Hax.
      + intros f ins ax Hf Hh E. apply Hall. apply H1. exists (f, ins). split; [|exact E]. apply special_functions_spec. repeat split; auto. destruct Hh; constructor.
    - intros [Hs Hh] ax Hax. apply H1 in Hax as ([f ins] & Hf & E). apply special_functions_spec in Hf as (Hf & Ht & Hhi). cbn [fst snd] in E.
      destruct (hides_dec f) as [Hd|Hd]; [eapply Hh; eauto|]. destruct Hhi as [|Hi]; [contradiction|]. destruct (Hfl f ins Hi) as [F1 F2].
      apply (special_spec get_sort Hvar se M steps anc tq scmp mfuel fuel mv keep Hscmp f ins (out f) ax rho Hd F1 F2 (fun args => Hout f ins args Hf) Hne E).
      apply Hs; auto.
  Qed.

  Lemma define_full se keep axs (rho : env M) :
    define_subterm get_sort RSymbolic funs sorts steps cells anc tq scmp mfuel fuel se keep = Some axs ->
    (forall f, In f (se_ignored se) -> term_function f /\ ~ hides f) -> (forall f ins, In f (se_ignored se) -> flat (se_nexts se) f ins) ->
    exists mv, protocol_max_var fuel steps cells = Some mv /\
    (Forall (fun ax => holds ax rho) axs <->
     ((forall i, se_kind se <> KVampire i) -> goes_through (below M (se_kind se)) (se_sort se) (se_ignored se) funs out sorts) /\
     stops_at (below M (se_kind se)) (se_sort se) (se_ignored se) funs out /\
     (forall f ins ax, In (f, ins) funs -> hides f ->
        special_assertion get_sort (se_sort se) true (se_kind se) steps anc tq mfuel (se_nexts se) scmp fuel mv (se_flags se) keep f ins = Some ax -> holds ax rho)).
  Proof.
    intros H Hig Hfl. destruct (vampire (se_kind se)) eqn:Ev.
    - unfold define_subterm in H. rewrite Ev in H. apply append_spec in H as (x & y & Ex & Ey & ->). injection Ex as <-. cbn [List.app].
      destruct (special_full se keep y rho Ey Hig Hfl) as (mv & Emv & Hiff). exists mv. split; [exact Emv|]. rewrite Hiff.
      destruct (se_kind se) as [i|]; [|discriminate]. split; [|tauto]. intros Hx. split; [|exact Hx]. intros Hk. exfalso. eapply Hk. reflexivity.
    - destruct (define_spec get_sort Hvar funs out Hout sorts M steps cells anc tq scmp mfuel fuel se keep axs rho H Ev) as (sp & Esp & Hiff).
      destruct (special_full se keep sp rho Esp Hig Hfl) as (mv & Emv & Hiff'). exists mv. split; [exact Emv|]. rewrite Hiff, Hiff'.
      unfold goes_through. destruct (se_kind se) as [i|l]; [discriminate|]. split; [tauto|]. intros (H1 & H2 & H3). destruct H1; [discriminate|]. auto.
  Qed.
End Full.
