(** Proofs about the evaluation axioms. *)
From Coq Require Import List Arith Bool Lia.
From Verif Require Import Syntax_Model Syntax_Proofs Traversal_Model Traversal_Spec Semantics_Spec Semantics_Proofs Subst_Model Subst_Proofs Order_Spec Order_Proofs
  Binding_Proofs Macro_Proofs Expander_Spec Expander_Proofs Sort_Model Evaluate_Model Evaluate_Spec.
Import ListNotations.

Section Eval.
  Context (osort : fsym -> option sort) (evs : list sort) (M : structure).
  Local Notation val := (value evs M).

  Lemma eval_ev f g s (rho : env M) : ev osort evs f = Some g -> term_sort osort f = Some s -> eval g rho = val s (eval f rho).
  Proof.
    unfold ev, value. intros H Hs. rewrite Hs in H. injection H as <-. destruct (existsb (sort_eqb s) evs); reflexivity.
  Qed.
  Lemma eval_ev_var v (rho : env M) : eval (ev_var evs v) rho = val (vsort v) (rho (vid v)).
  Proof. unfold ev_var, value. destruct (existsb _ evs); reflexivity. Qed.
  Lemma eval_vars vs (rho : env M) : map (fun a => eval a rho) (map FVar vs) = map (fun v => rho (vid v)) vs.
  Proof. rewrite map_map. reflexivity. Qed.
  Lemma eval_ev_vars vs (rho : env M) : map (fun a => eval a rho) (map (ev_var evs) vs) = map (fun v => val (vsort v) (rho (vid v))) vs.
  Proof. rewrite map_map. apply map_ext. intros v. apply eval_ev_var. Qed.

  Lemma sorts_nodup n ss : NoDup (map vid (sorts_to_variables n ss)).
  Proof. rewrite sorts_ids. apply seq_NoDup. Qed.
  Lemma sorted_values n ss ds (rho : env M) : typed (M:=M) (sorts_to_variables n ss) ds ->
    args_of M ss ds /\ map (fun v => bindv (M:=M) rho (sorts_to_variables n ss) ds (vid v)) (sorts_to_variables n ss) = ds /\
    map (fun v => val (vsort v) (bindv (M:=M) rho (sorts_to_variables n ss) ds (vid v))) (sorts_to_variables n ss) =
      map (fun p => val (fst p) (snd p)) (combine ss ds).
  Proof.
    intros H. pose proof (typed_length _ _ H) as Hl. pose proof (bindv_values _ rho ds (sorts_nodup n ss) Hl) as Hv.
    split; [apply typed_args in H; rewrite sorts_sorts in H; exact H|]. split; [exact Hv|].
    set (vs := sorts_to_variables n ss) in *. set (r := bindv rho vs ds) in *. rewrite <- Hv.
    rewrite <- (sorts_sorts n ss). fold vs. clearbody r. clear. induction vs as [|v vs IH]; [reflexivity|]. cbn. f_equal. exact IH.
  Qed.
End Eval.

(** ** Skolems *)
Section Skolem.
  Context (M : structure) (sk : nat -> list (D M) -> D M).
  Local Notation M' := (with_skolems M sk).

  Lemma sub_plain s args a : plain (FFun s args) -> In a args -> plain a.
  Proof. intros H Ha p q vs b Hp. apply In_nth_error in Ha as [i Hi]. apply (H (i :: p) q vs b). econstructor; eauto. Qed.
  Lemma sub_no_skolem s args a : no_skolem (FFun s args) -> In a args -> no_skolem a.
  Proof. intros H Ha p q vs Hp. apply In_nth_error in Ha as [i Hi]. apply (H (i :: p) q vs). econstructor; eauto. Qed.
  Lemma app_with s ds : (forall i, s <> Fskolem i) -> app (M:=M') s ds = app (M:=M) s ds.
  Proof.
    intros H. destruct s as [c| | | | | |c|s|i| |i|m|i|s|i|i|i|i|i|i]; try reflexivity.
    exfalso. eapply H. reflexivity.
  Qed.
  Lemma eval_with f (rho : env M) : plain f -> no_skolem f -> eval (M:=M') f rho = eval (M:=M) f rho.
  Proof.
    induction f as [v|s args IH|q vs b IH] using formula_ind'; intros Hp Hn; [reflexivity| |exfalso; eapply (Hp []); constructor].
    cbn [eval]. rewrite app_with by (intros i ->; eapply (Hn []); constructor). f_equal. apply map_ext_in. intros a Ha.
    rewrite Forall_forall in IH. apply IH; auto; [eapply sub_plain|eapply sub_no_skolem]; eauto.
  Qed.

  Lemma means_with osort evs w f : declared osort f -> means evs M w f -> means evs M' w f.
  Proof.
    intros Hd Hm. destruct f as [i args out| | |c|k q|]; try exact Hm. cbn in *. intros rho fs Hfs. specialize (Hm rho fs Hfs).
    destruct (qt_inner q) as [c|c|c l r]; unfold at_ in *.
    - destruct Hd as (_ & (_ & _ & Hp) & Hn & _). rewrite Hm. split; intros H ds Hds.
      + specialize (H ds Hds). unfold truth, value in *. cbn in *. rewrite eval_with; auto.
      + specialize (H ds Hds). unfold truth, value in *. cbn in *. rewrite eval_with in H; auto.
    - destruct Hd as (_ & (_ & _ & Hp) & Hn & _). rewrite Hm. split; intros H ds Hds.
      + specialize (H ds Hds). unfold truth, value in *. cbn in *. rewrite eval_with; auto.
      + specialize (H ds Hds). unfold truth, value in *. cbn in *. rewrite eval_with in H; auto.
    - destruct Hd as (_ & (_ & _ & Hpc) & (_ & _ & Hpl) & (_ & _ & Hpr) & _ & _ & _ & Hnc & Hnl & Hnr & _).
      destruct Hm as [Hw Hm]. split; [exact Hw|]. rewrite !eval_with by assumption. destruct Hm as [[H1 H2]|[H1 H2]]; [left|right].
      + split; [exact H1|exact H2].
      + split; [|exact H2]. intros ds Hds. specialize (H1 ds Hds). rewrite eval_with; auto.
  Qed.
End Skolem.

Lemma nodup_l {A} (l r : list A) : NoDup (l ++ r) -> NoDup l.
Proof.
  induction l as [|a l IH]; intros H; [constructor|]. cbn in H. apply NoDup_cons_iff in H as [H1 H2].
  constructor; [intros Hi; apply H1, in_app_iff; auto|auto].
Qed.
Lemma nodup_r {A} (l r : list A) : NoDup (l ++ r) -> NoDup r.
Proof. induction l as [|a l IH]; intros H; [exact H|]. cbn in H. apply NoDup_cons_iff in H as [_ H]. auto. Qed.

(** The skolems of a substitution take the chosen values. *)
Section Chosen.
  Context (M : structure).

  Lemma skolem_leaf free (rho1 : env M) fs : map (fun v => rho1 (vid v)) free = fs -> forall bound n ws (base : env M) v t,
    NoDup (map vid bound) -> length ws = length bound ->
    (forall j, j < length bound -> fint M (Fskolem (n + j)) fs = nth j ws (dinj M true)) ->
    base (vid v) = rho1 (vid v) ->
    frozen_ov (combine (map vid bound) (map (fun f => FFun f (map FVar free)) (map Fskolem (seq n (length bound))))) v = Some t ->
    eval t rho1 = bindv (M:=M) base bound ws (vid v).
  Proof.
    intros Hfs. induction bound as [|b bound IH]; intros n ws base v t Hn Hl Hsk Hb Ht.
    - destruct ws; [|discriminate]. cbn in *. injection Ht as <-. symmetry. exact Hb.
    - destruct ws as [|w ws]; [discriminate|]. injection Hl as Hl. apply NoDup_cons_iff in Hn as [Hnb Hn].
      rewrite frozen_ov_multiple in Ht. unfold multiple in Ht. cbn in Ht. rewrite bindv_cons. destruct (Nat.eqb_spec (vid b) (vid v)) as [E|E].
      + injection Ht as <-. rewrite bindv_other by (rewrite <- E; exact Hnb). unfold upd. rewrite E, Nat.eqb_refl.
        cbn [eval app]. rewrite eval_vars, Hfs. specialize (Hsk 0). cbn in Hsk. rewrite Nat.add_0_r in Hsk. apply Hsk. lia.
      + apply (IH (S n)); auto.
        * intros j Hj. specialize (Hsk (S j)). cbn in Hsk. rewrite Nat.add_succ_r in Hsk. apply Hsk. lia.
        * unfold upd. destruct (Nat.eqb_spec (vid v) (vid b)); [congruence|exact Hb].
        * rewrite frozen_ov_multiple. exact Ht.
  Qed.

  Lemma skolem_value q n ws (rho : env M) fs f g :
    let s := frozen_ov (combine (map vid (qt_bound q)) (map (fun f => FFun f (map FVar (qt_free q))) (map Fskolem (seq n (length (qt_bound q)))))) in
    closed_over (qt_free q ++ qt_bound q) f -> length (qt_free q) = length fs -> length ws = length (qt_bound q) ->
    (forall j, j < length (qt_bound q) -> fint M (Fskolem (n + j)) fs = nth j ws (dinj M true)) ->
    sapply s f = Some g -> eval g (bindv (M:=M) rho (qt_free q) fs) = at_ M q f rho fs ws.
  Proof.
    intros s (Hnd & Hsc & Hp) Hl Hlw Hsk Hs. unfold at_. eapply subst_meaning; [exact Hs|apply plain_no_capture; exact Hp|].
    intros p v t Hv _ Ht. symmetry. rewrite map_app in Hnd. pose proof (nodup_l _ _ Hnd) as Hf. pose proof (nodup_r _ _ Hnd) as Hb.
    refine (skolem_leaf (qt_free q) _ fs _ (qt_bound q) n ws _ v t Hb Hlw Hsk eq_refl Ht). apply bindv_values; auto.
  Qed.

  Lemma skolem_term_sort osort q n f g s0 :
    let s := frozen_ov (combine (map vid (qt_bound q)) (map (fun f => FFun f (map FVar (qt_free q))) (map Fskolem (seq n (length (qt_bound q)))))) in
    NoDup (map vid (qt_free q ++ qt_bound q)) -> plain f -> no_skolem f -> own_var (qt_free q ++ qt_bound q) f ->
    term_sort osort f = Some s0 -> sapply s f = Some g -> term_sort (skolem_sort osort n (qt_bound q)) g = Some s0.
  Proof.
    intros s Hnd Hp Hns Ho Hs Hg. destruct f as [v|h args|qq vs b]; [| |exfalso; eapply (Hp []); constructor].
    - cbn in Hg. unfold s in Hg. rewrite frozen_ov_multiple in Hg. unfold multiple in Hg. cbn in Hs, Ho. injection Hs as <-.
      apply in_app_iff in Ho. rewrite map_app in Hnd.
      assert (H : forall bound m, NoDup (map vid bound) -> In v bound \/ ~ In (vid v) (map vid bound) ->
        match maybe_get (combine (map vid bound) (map (fun f => FFun f (map FVar (qt_free q))) (map Fskolem (seq m (length bound))))) (vid v) with
        | Some t => exists j args, t = FFun (Fskolem (m + j)) args /\ nth_error bound j = Some v
        | None => True end).
      { clear. induction bound as [|b bound IH]; intros m Hn Hv; [exact I|]. cbn. apply NoDup_cons_iff in Hn as [Hnb Hn].
        destruct (Nat.eqb_spec (vid b) (vid v)) as [E|E].
        - exists 0, (map FVar (qt_free q)). rewrite Nat.add_0_r. split; [reflexivity|]. cbn. destruct Hv as [[->|Hv]|Hv]; [reflexivity| |].
          + exfalso. apply Hnb. rewrite E. apply in_map. exact Hv.
          + exfalso. apply Hv. left. exact E.
        - specialize (IH (S m) Hn). destruct (maybe_get _ (vid v)) as [t|]; [|exact I].
          destruct IH as (j & args & -> & Hj); [destruct Hv as [[->|Hv]|Hv]; [congruence|left; exact Hv|right; intros Hi; apply Hv; right; exact Hi]|].
          exists (S j), args. split; [f_equal; f_equal; lia|exact Hj]. }
      specialize (H (qt_bound q) n (nodup_r _ _ Hnd)). destruct (maybe_get _ (vid v)) as [t|].
      + injection Hg as <-. destruct H as (j & args & -> & Hj).
        { destruct Ho as [Ho|Ho]; [right|left; exact Ho]. intros Hi. revert Hnd Hi. apply (in_map vid) in Ho. revert Ho. clear.
          induction (map vid (qt_free q)) as [|a l IH]; cbn; [tauto|]. intros [->|Ho] Hn Hi; apply NoDup_cons_iff in Hn as [H1 H2];
            [apply H1, in_app_iff; auto|auto]. }
        cbn. destruct (Nat.leb_spec n (n + j)); [|lia]. rewrite Nat.add_comm, Nat.add_sub, Hj. reflexivity.
      + injection Hg as <-. reflexivity.
    - rewrite sapply_fun in Hg. destruct (mapM _ args); [|discriminate]. injection Hg as <-. cbn in *.
      destruct h; try exact Hs. exfalso. eapply (Hns []). constructor.
  Qed.
End Chosen.

(** ** Each axiom *)
Section Axioms.
  Context (osort : fsym -> option sort) (evs : list sort) (M : structure) (w : nat -> list (D M) -> list (D M)).
  Local Notation val := (value evs M).

  Lemma ev_defined f s : term_sort osort f = Some s -> exists g, ev osort evs f = Some g.
  Proof. intros H. unfold ev. rewrite H. eauto. Qed.

  Lemma base_all vs f a (rho : env M) : Some (ABase (mk_forall vs f)) = Some a ->
    (forall ds, typed (M:=M) vs ds -> holds f (bindv (M:=M) rho vs ds)) -> axiom_holds a rho.
  Proof. intros E H. injection E as <-. apply holds_all. exact H. Qed.

  Lemma function_ok i args out a (rho : env M) : declared osort (PUser i args out) -> means evs M w (PUser i args out) ->
    function_axiom osort evs i args = Some a -> axiom_holds a rho.
  Proof.
    intros [Ho _] Hm Ha. unfold function_axiom in Ha. destruct (ev _ _ _) as [pre|] eqn:E; [|discriminate]. injection Ha as <-. intros ds Hds.
    rewrite (eval_ev _ _ _ _ _ out _ E Ho). destruct (sorted_values evs M 0 args ds rho Hds) as (Ht & Hv & Hw).
    cbn [eval app]. rewrite eval_vars, eval_ev_vars, Hv, Hw. apply Hm. exact Ht.
  Qed.

  Lemma ite_ok a (rho : env M) : declared osort PIte -> means evs M w PIte -> ite_axiom osort evs = Some a -> axiom_holds a rho.
  Proof.
    intros Ho Hm Ha. unfold ite_axiom in Ha. destruct (ev _ _ _) as [e|] eqn:E; [|discriminate]. apply (base_all _ _ _ _ Ha). intros ds Hds. inversion Hds as [|? c ? ds1 Hc H1]; subst. inversion H1 as [|? l ? ds2 Hl H2]; subst.
    inversion H2 as [|? r ? ds3 Hr H3]; subst. inversion H3; subst. clear H1 H2 H3 Hds. apply holds_meq.
    rewrite (eval_ev _ _ _ _ _ SMessage _ E Ho). cbn [eval app map]. rewrite !eval_ev_var. cbn.
    destruct (Hm c l r) as [H1 H2]; [repeat constructor; auto|]. unfold truth in *.
    destruct (dtest M (val SCondition c)); [apply H1; reflexivity|apply H2; discriminate].
  Qed.

  Lemma eq_ok a (rho : env M) : declared osort PEq -> means evs M w PEq -> eq_axiom osort evs = Some a -> axiom_holds a rho.
  Proof.
    intros Ho Hm Ha. unfold eq_axiom in Ha. destruct (ev _ _ _) as [e|] eqn:E; [|discriminate]. apply (base_all _ _ _ _ Ha). intros ds Hds. inversion Hds as [|? c ? ds1 Hc H1]; subst. inversion H1 as [|? l ? ds2 Hl H2]; subst.
    inversion H2; subst. clear H1 H2 Hds. apply holds_meq. rewrite (eval_ev _ _ _ _ _ SCondition _ E Ho). cbn [eval app map meq].
    unfold meq. cbn [eval app map]. rewrite !eval_ev_var. cbn. apply Hm. repeat constructor; auto.
  Qed.

  Lemma conn_ok c a (rho : env M) : conditions_are_booleans evs M -> declared osort (PConn c) -> means evs M w (PConn c) ->
    conn_axiom osort evs c = Some a -> axiom_holds a rho.
  Proof.
    intros Hb Ho Hm Ha. cbn in Ho.
    assert (H1 : forall ds, typed (M:=M) (sorts_to_variables 0 (conn_args c)) ds -> forall e,
      ev osort evs (FFun (Fta (sym_conn c)) (map FVar (sorts_to_variables 0 (conn_args c)))) = Some e ->
      args_of M (conn_args c) ds /\ eval e (bindv (M:=M) rho (sorts_to_variables 0 (conn_args c)) ds) = val SCondition (fint M (Fta (sym_conn c)) ds)).
    { intros ds Hds e E. destruct (sorted_values evs M 0 _ ds rho Hds) as (Ht & Hv & _). split; [exact Ht|].
      rewrite (eval_ev _ _ _ _ _ SCondition _ E Ho). cbn [eval app]. rewrite eval_vars, Hv. reflexivity. }
    destruct c; cbn [conn_axiom conn_args sorts_to_variables sym_conn map] in *; destruct (ev _ _ _) as [e|] eqn:E; try discriminate;
      apply (base_all _ _ _ _ Ha); intros ds Hds; destruct (H1 ds Hds e eq_refl) as [Ht He]; specialize (Hm ds Ht); cbn [conn_args sym_conn] in *.
    all: try (inversion Hds as [|? x ? ds1 Hx Hr1]; subst; inversion Hr1 as [|? y ? ds2 Hy Hr2]; subst; inversion Hr2; subst; clear Hr1 Hr2).
    all: try (inversion Hds as [|? x ? ds1 Hx Hr1]; subst; inversion Hr1; subst; clear Hr1).
    all: try (inversion Hds; subst).
    - apply holds_meq. rewrite He, Hm. cbn [eval app map conn_evaluated]. rewrite !eval_ev_var. cbn. rewrite andb_true_r. reflexivity.
    - apply holds_meq. rewrite He, Hm. cbn [eval app map conn_evaluated]. rewrite !eval_ev_var. cbn. rewrite orb_false_r. reflexivity.
    - apply holds_imp. intros H. apply holds_not. unfold holds in *. rewrite He, Hm in H. rewrite eval_ev_var. cbn in *.
      rewrite dtest_inj in H. destruct (dtest M (val SCondition x)); discriminate.
    - apply holds_meq. rewrite He, Hm. cbn [eval app map conn_evaluated]. rewrite !eval_ev_var. cbn. reflexivity.
    - apply holds_meq. rewrite He, Hm. cbn [eval app map conn_evaluated]. rewrite !eval_ev_var. cbn. f_equal.
      pose proof (Hb x Hx) as Bx. pose proof (Hb y Hy) as By. cbn in Bx, By.
      destruct (deq M (val SCondition x) (val SCondition y)) eqn:Ed.
      + apply deq_spec in Ed. rewrite Ed. apply eqb_reflx.
      + destruct (dtest M (val SCondition x)) eqn:E1, (dtest M (val SCondition y)) eqn:E2; try reflexivity; exfalso;
          (assert (Et : val SCondition x = val SCondition y) by congruence); apply deq_spec in Et; congruence.
    - apply holds_meq. rewrite He, Hm. reflexivity.
    - apply holds_meq. rewrite He, Hm. reflexivity.
  Qed.

  Definition skolem_count (f : pfun) : nat :=
    match f with PQuant _ q => match qt_inner q with IFind _ _ _ => length (qt_bound q) | _ => 0 end | _ => 0 end.
  (** The skolems numbered from [n] take the values chosen by [w] for [f]. *)
  Definition takes (n : nat) (f : pfun) : Prop :=
    match f with
    | PQuant k q => match qt_inner q with
                    | IFind _ _ _ => forall j fs, j < length (qt_bound q) -> fint M (Fskolem (n + j)) fs = nth j (w k fs) (dinj M true)
                    | _ => True
                    end
    | _ => True
    end.

  Lemma quant_ok n k q l n' (rho : env M) : declared osort (PQuant k q) -> means evs M w (PQuant k q) -> takes n (PQuant k q) ->
    quant_axioms osort evs n k q = Some (l, n') -> n' = n + skolem_count (PQuant k q) /\ Forall (fun a => axiom_holds a rho) l.
  Proof.
    intros Hd Hm Hk Ha. unfold quant_axioms in Ha. destruct (ev osort evs (FFun (Fquant k) _)) as [e|] eqn:E; [|discriminate].
    cbn [declared means takes skolem_count] in *.
    assert (He : forall s fs, osort (Fquant k) = Some s -> typed (qt_free q) fs -> NoDup (map vid (qt_free q)) ->
      eval e (bindv rho (qt_free q) fs) = val s (fint M (Fquant k) fs)).
    { intros s fs Ho Hfs Hn. rewrite (eval_ev _ _ _ _ _ s _ E Ho). cbn [eval app]. rewrite eval_vars, bindv_values; auto.
      apply (typed_length _ _ Hfs). }
    destruct (qt_inner q) as [c|c|c lf rf] eqn:Eq; cbn [skolem_count].
    - destruct (ev osort evs c) as [c'|] eqn:Ec; [|discriminate]. injection Ha as <- <-. split; [lia|]. constructor; [|constructor].
      destruct Hd as (Ho & (Hn & _) & _ & Hs). rewrite map_app in Hn. apply nodup_l in Hn. apply (base_all _ _ _ _ eq_refl). intros fs Hfs.
      apply holds_imp. intros H. unfold holds in H. rewrite (He SCondition fs Ho Hfs Hn) in H. apply holds_all. intros ds Hds.
      unfold holds. rewrite (eval_ev _ _ _ _ _ SCondition _ Ec Hs). apply (proj1 (Hm rho fs Hfs) H ds Hds).
    - destruct (ev osort evs c) as [c'|] eqn:Ec; [|discriminate]. injection Ha as <- <-. split; [lia|]. constructor; [|constructor].
      destruct Hd as (Ho & (Hn & _) & _ & Hs). rewrite map_app in Hn. apply nodup_l in Hn. apply (base_all _ _ _ _ eq_refl). intros fs Hfs.
      apply holds_imp. intros H. unfold holds in H. rewrite (He SCondition fs Ho Hfs Hn) in H.
      destruct (holds_dec (mk_exists (qt_bound q) c') (bindv rho (qt_free q) fs)) as [Y|N]; [exact Y|exfalso].
      apply (proj2 (Hm rho fs Hfs)); [|exact H]. intros ds Hds Ht. apply N. apply (holds_ex_intro _ _ _ ds Hds).
      unfold holds. rewrite (eval_ev _ _ _ _ _ SCondition _ Ec Hs). exact Ht.
    - cbv zeta in Ha. set (s := frozen_ov _) in Ha.
      destruct (sapply s c) as [cs|] eqn:Sc; [|discriminate]. destruct (sapply s lf) as [ls|] eqn:Sl; [|discriminate].
      destruct (sapply s rf) as [rs|] eqn:Sr; [|discriminate]. destruct (ev osort evs c) as [c'|] eqn:Ec; [|discriminate].
      destruct (ev _ _ cs) as [cs'|] eqn:Ecs; [|discriminate]. destruct (ev _ _ ls) as [ls'|] eqn:Els; [|discriminate].
      destruct (ev _ _ rs) as [rs'|] eqn:Ers; [|discriminate]. injection Ha as <- <-. split; [reflexivity|].
      destruct Hd as (Ho & Hcc & Hcl & Hcr & Oc & Ol & Or & Nc & Nl & Nr & Sortc & Sortl & Sortr).
      assert (Hnd : NoDup (map vid (qt_free q ++ qt_bound q))) by apply Hcc.
      assert (Hcr' : closed_over (qt_free q ++ qt_bound q) rf).
      { destruct Hcr as (_ & Hsc & Hp). split; [exact Hnd|]. split; [|exact Hp]. intros f i Hf Hi. rewrite map_app, in_app_iff. left. eauto. }
      assert (Or' : own_var (qt_free q ++ qt_bound q) rf) by (destruct rf; cbn in *; auto; apply in_app_iff; auto).
      assert (Hnf : NoDup (map vid (qt_free q))) by (rewrite map_app in Hnd; eapply nodup_l; eauto).
      assert (V : forall f g g' s0 fs, closed_over (qt_free q ++ qt_bound q) f -> no_skolem f -> own_var (qt_free q ++ qt_bound q) f ->
        term_sort osort f = Some s0 -> sapply s f = Some g -> ev (skolem_sort osort n (qt_bound q)) evs g = Some g' -> typed (qt_free q) fs ->
        eval g' (bindv rho (qt_free q) fs) = val s0 (at_ M q f rho fs (w k fs))).
      { intros f g g' s0 fs Hc Hns Hov Hs Hg Hg' Hfs. destruct (Hm rho fs Hfs) as [Hw _].
        rewrite (eval_ev _ _ _ _ _ s0 _ Hg'); [f_equal|].
        - eapply skolem_value; eauto; [apply (typed_length _ _ Hfs)|symmetry; apply (typed_length _ _ Hw)].
        - eapply skolem_term_sort; eauto. apply Hc. }
      constructor; [|constructor; [|constructor]]; apply (base_all _ _ _ _ eq_refl); intros fs Hfs; destruct (Hm rho fs Hfs) as [Hw Hcase].
      + apply holds_or. destruct Hcase as [[H1 _]|[H1 _]]; [right|left].
        * unfold holds. rewrite (V c cs cs' SCondition fs); auto.
        * apply holds_all. intros ds Hds. apply holds_not. unfold holds. rewrite (eval_ev _ _ _ _ _ SCondition _ Ec Sortc). apply (H1 ds Hds).
      + apply holds_meq. rewrite (He SMessage fs Ho Hfs Hnf). cbn [eval app map]. rewrite (V c cs cs' SCondition fs), (V lf ls ls' SMessage fs) by auto.
        rewrite (V rf rs rs' SMessage fs) by auto. destruct Hcase as [[H1 H2]|[H1 H2]].
        * unfold truth in H1. rewrite H1. exact H2.
        * specialize (H1 _ Hw). unfold truth in H1. destruct (dtest M _); [congruence|]. rewrite H2. f_equal. unfold at_.
          apply eval_agree. intros i Hi. symmetry. apply bindv_other. intros Hb. rewrite map_app in Hnd.
          destruct Hcr as (_ & Hsc & _). specialize (Hsc rf i (or_introl eq_refl) Hi). revert Hnd Hsc Hb. clear.
          induction (map vid (qt_free q)) as [|a fr IH]; cbn; [tauto|]. intros Hn [->|H] Hb; apply NoDup_cons_iff in Hn as [N1 N2];
            [apply N1, in_app_iff; auto|auto].
  Qed.

  Fixpoint all_take (n : nat) (fs : list pfun) : Prop :=
    match fs with [] => True | f :: fs' => takes n f /\ all_take (n + skolem_count f) fs' end.

  Lemma loop_ok (rho : env M) : conditions_are_booleans evs M -> forall fs n l, Forall (declared osort) fs -> Forall (means evs M w) fs ->
    all_take n fs -> loop osort evs n fs = Some l -> Forall (fun a => axiom_holds a rho) l.
  Proof.
    intros Hb. induction fs as [|f fs IH]; intros n l Hd Hm Hk Hl; cbn in Hl; [injection Hl as <-; constructor|].
    apply Forall_cons_iff in Hd as [Hd Hds]. apply Forall_cons_iff in Hm as [Hm Hms]. destruct Hk as [Hk Hks].
    match type of Hl with match ?x with _ => _ end = _ => destruct x as [[l0 n']|] eqn:Ex; [|discriminate] end.
    destruct (loop osort evs n' fs) as [l1|] eqn:E1; [|discriminate]. injection Hl as <-.
    assert (H : n' = n + skolem_count f /\ Forall (fun a => axiom_holds a rho) l0).
    { destruct f as [i args out| | |c|k q|].
      - injection Ex as <- <-. cbn. split; [lia|constructor].
      - destruct (ite_axiom osort evs) as [a|] eqn:Ea; [|discriminate]. injection Ex as <- <-. cbn. split; [lia|].
        constructor; [eapply ite_ok; eauto|constructor].
      - destruct (eq_axiom osort evs) as [a|] eqn:Ea; [|discriminate]. injection Ex as <- <-. cbn. split; [lia|].
        constructor; [eapply eq_ok; eauto|constructor].
      - destruct (conn_axiom osort evs c) as [a|] eqn:Ea; [|discriminate]. injection Ex as <- <-. cbn [skolem_count]. split; [lia|].
        constructor; [eapply conn_ok; eauto|constructor].
      - eapply quant_ok; eauto.
      - injection Ex as <- <-. cbn. split; [lia|constructor]. }
    destruct H as [-> H0]. apply Forall_app. split; [exact H0|]. eapply IH; eauto.
  Qed.

  Lemma relevant_in fs : forall us i args, relevant fs = Some us -> In (i, args) us -> exists out, In (PUser i args out) fs.
  Proof.
    induction fs as [|f fs IH]; intros us i args H Hi; cbn in H; [injection H as <-; destruct Hi|].
    destruct f as [j a o| | |c|k q|]; try (destruct (IH _ _ _ H Hi) as [out Ho]; exists out; right; exact Ho).
    destruct (is_evaluatable o); [|discriminate]. destruct (relevant fs) as [l|]; [|discriminate]. injection H as <-.
    destruct Hi as [E|Hi]; [injection E as -> ->; exists o; left; reflexivity|].
    destruct (IH _ _ _ eq_refl Hi) as [out Ho]. exists out. right. exact Ho.
  Qed.

  Lemma generate_ok r nb n fs axs (rho : env M) : generate osort evs r nb false n fs = Some axs ->
    Forall (declared osort) fs -> Forall (means evs M w) fs -> conditions_are_booleans evs M -> all_take n fs ->
    (r = REvaluated -> forall s d, In s evs -> dom M s d -> fint M (Feval s) [d] = d) -> Forall (fun a => axiom_holds a rho) axs.
  Proof.
    intros H Hd Hm Hb Hk Hr. unfold generate in H. destruct (relevant fs) as [us|] eqn:Eu; [|discriminate].
    match type of H with match ?x with _ => _ end = _ => destruct x as [a|] eqn:Ea; [|discriminate] end.
    destruct (loop osort evs n fs) as [b|] eqn:Eb; [|discriminate]. injection H as <-. apply Forall_app. split; [|eapply loop_ok; eauto].
    destruct r.
    - assert (Hf : exists l, (if nb then Some [] else mapM (fun u => function_axiom osort evs (fst u) (snd u)) us) = Some l /\ a = l)
        by (destruct (if nb then _ else _) as [l|]; [|discriminate]; injection Ea as <-; exists l; rewrite app_nil_r; auto).
      destruct Hf as (l & El & ->). destruct nb; [injection El as <-; constructor|]. apply mapM_Forall2 in El.
      assert (Hu : forall i args, In (i, args) us -> exists out, In (PUser i args out) fs) by (intros; eapply relevant_in; eauto).
      clear Eu Ea. induction El as [|[i args] ax us l Hax El IH]; constructor; [|apply IH; intros; apply Hu; right; assumption].
      destruct (Hu i args (or_introl eq_refl)) as [out Ho]. rewrite Forall_forall in Hd, Hm. eapply function_ok; eauto.
    - injection Ea as <-. apply Forall_forall. intros ax Hax. apply in_map_iff in Hax as (s & <- & Hs).
      apply (base_all _ _ _ _ eq_refl). intros ds Hds. inversion Hds as [|? d ? ds' Hdom Hr']; subst. inversion Hr'; subst.
      apply holds_meq. cbn. apply Hr; auto.
  Qed.
End Axioms.

(** ** Choosing the skolems *)
Section Build.
  Context (M : structure) (w : nat -> list (D M) -> list (D M)).
  Fixpoint build (n : nat) (fs : list pfun) (i : nat) (ds : list (D M)) : D M :=
    match fs with
    | [] => dinj M true
    | f :: fs' =>
        if Nat.ltb i (n + skolem_count f)
        then match f with PQuant k _ => nth (i - n) (w k ds) (dinj M true) | _ => dinj M true end
        else build (n + skolem_count f) fs' i ds
    end.
  Lemma build_takes : forall fs n sk, (forall i ds, n <= i -> sk i ds = build n fs i ds) -> all_take (with_skolems M sk) w n fs.
  Proof.
    induction fs as [|f fs IH]; intros n sk H; cbn; [exact I|]. split.
    - unfold takes. destruct f as [| | | |k q|]; auto. cbn [build skolem_count] in H. destruct (qt_inner q) as [c|c|c l r]; auto. intros j ds Hj. cbn.
      rewrite H by lia. destruct (Nat.ltb_spec (n + j) (n + length (qt_bound q))); [|lia]. f_equal. lia.
    - apply IH. intros i ds Hi. rewrite H by lia. cbn [build]. destruct (Nat.ltb_spec i (n + skolem_count f)); [lia|reflexivity].
  Qed.
End Build.

Lemma generate_true osort evs r nb n fs axs : generate osort evs r nb false n fs = Some axs -> Forall (declared osort) fs ->
  forall (M : structure) w, Forall (means evs M w) fs -> conditions_are_booleans evs M ->
  (r = REvaluated -> forall s d, In s evs -> dom M s d -> fint M (Feval s) [d] = d) ->
  exists sk, forall rho : env (with_skolems M sk), Forall (fun a => axiom_holds a rho) axs.
Proof.
  intros H Hd M w Hm Hb Hr. exists (build M w n fs). intros rho. eapply (generate_ok osort evs (with_skolems M (build M w n fs)) w); eauto.
  - rewrite Forall_forall in *. intros f Hf. apply (means_with M _ osort evs w f); auto.
  - apply build_takes. reflexivity.
Qed.

(** ** What the axioms force *)
Section Forced.
  Context (osort : fsym -> option sort) (evs : list sort) (M : structure).
  Local Notation val := (value evs M).

  Lemma base_all_inv vs f (rho : env M) : axiom_holds (ABase (mk_forall vs f)) rho ->
    forall ds, typed (M:=M) vs ds -> holds f (bindv (M:=M) rho vs ds).
  Proof. apply holds_all. Qed.

  Lemma relevant_complete fs : forall us i args out, relevant fs = Some us -> In (PUser i args out) fs -> In (i, args) us.
  Proof.
    induction fs as [|f fs IH]; intros us i args out H Hi; [destruct Hi|]. cbn in H. destruct Hi as [->|Hi].
    - destruct (is_evaluatable out); [|discriminate]. destruct (relevant fs); [|discriminate]. injection H as <-. left. reflexivity.
    - destruct f as [j a o| | |c|k q|]; try solve [eapply IH; eauto]. destruct (is_evaluatable o); [|discriminate].
      destruct (relevant fs) as [l|]; [|discriminate]. injection H as <-. right. eapply IH; eauto.
  Qed.

  Definition own_axioms (n : nat) (f : pfun) : option (list eaxiom * nat) :=
    match f with
    | PUser _ _ _ | POther => Some ([], n)
    | PIte => option_map (fun a => ([a], n)) (ite_axiom osort evs)
    | PEq => option_map (fun a => ([a], n)) (eq_axiom osort evs)
    | PConn c => option_map (fun a => ([a], n)) (conn_axiom osort evs c)
    | PQuant k q => quant_axioms osort evs n k q
    end.
  Lemma loop_in fs : forall n l f, loop osort evs n fs = Some l -> In f fs -> exists m la m', own_axioms m f = Some (la, m') /\ incl la l.
  Proof.
    induction fs as [|g fs IH]; intros n l f H Hf; [destruct Hf|]. cbn in H. fold (own_axioms n g) in H.
    destruct (own_axioms n g) as [[l0 n']|] eqn:E0; [|discriminate]. destruct (loop osort evs n' fs) as [l1|] eqn:E1; [|discriminate].
    injection H as <-. destruct Hf as [->|Hf].
    - exists n, l0, n'. split; [exact E0|]. apply incl_appl, incl_refl.
    - destruct (IH _ _ _ E1 Hf) as (m & la & m' & Ho & Hi). exists m, la, m'. split; [exact Ho|]. apply incl_appr. exact Hi.
  Qed.

  Lemma forced_user nb n fs axs i args out : generate osort evs RSymbolic nb false n fs = Some axs -> nb = false ->
    Forall (declared osort) fs -> (forall rho : env M, Forall (fun a => axiom_holds a rho) axs) -> In (PUser i args out) fs ->
    forall w, means evs M w (PUser i args out).
  Proof.
    intros H -> Hd Hall Hin w. unfold generate in H. destruct (relevant fs) as [us|] eqn:Eu; [|discriminate].
    destruct (mapM _ us) as [l|] eqn:El; [|discriminate]. destruct (loop _ _ _ _) as [b|]; [|discriminate]. injection H as <-.
    apply mapM_Forall2 in El. pose proof (relevant_complete _ _ _ _ _ Eu Hin) as Hu.
    assert (exists ax, function_axiom osort evs i args = Some ax /\ In ax l) as (ax & Eax & Hax).
    { clear -El Hu. induction El as [|u ax us l Hax El IH]; [destruct Hu|]. destruct Hu as [->|Hu].
      - exists ax. split; [exact Hax|left; reflexivity].
      - destruct (IH Hu) as (a & Ha & Hi). exists a. split; [exact Ha|right; exact Hi]. }
    rewrite Forall_forall in Hd. destruct (Hd _ Hin) as [Ho _]. unfold function_axiom in Eax. destruct (ev _ _ _) as [pre|] eqn:E; [|discriminate].
    injection Eax as <-. intros ds Hds. specialize (Hall (fun _ => dinj M true)). rewrite Forall_forall in Hall.
    specialize (Hall (ARewrite (sorts_to_variables 0 args) pre (FFun (Fuser_eval i) (map (ev_var evs) (sorts_to_variables 0 args))))).
    assert (Hty : typed (M:=M) (sorts_to_variables 0 args) ds) by (apply typed_args; rewrite sorts_sorts; exact Hds).
    specialize (Hall ltac:(apply in_app_iff; left; rewrite app_nil_r; exact Hax) ds Hty).
    rewrite (eval_ev _ _ _ _ _ out _ E Ho) in Hall. destruct (sorted_values evs M 0 args ds (fun _ => dinj M true) Hty) as (_ & Hv & Hw).
    cbn [eval app] in Hall. rewrite eval_vars, eval_ev_vars, Hv, Hw in Hall. exact Hall.
  Qed.

  Lemma forced_find n k q c lf rf e la n' :
    osort (Fquant k) = Some SMessage /\ closed_over (qt_free q ++ qt_bound q) c /\ closed_over (qt_free q ++ qt_bound q) lf /\
    closed_over (qt_free q) rf /\ own_var (qt_free q ++ qt_bound q) c /\ own_var (qt_free q ++ qt_bound q) lf /\ own_var (qt_free q) rf /\
    no_skolem c /\ no_skolem lf /\ no_skolem rf /\
    term_sort osort c = Some SCondition /\ term_sort osort lf = Some SMessage /\ term_sort osort rf = Some SMessage ->
    (forall (rho : env M) fs s0, osort (Fquant k) = Some s0 -> typed (qt_free q) fs -> NoDup (map vid (qt_free q)) ->
        eval e (bindv rho (qt_free q) fs) = val s0 (fint M (Fquant k) fs)) ->
    (let free := qt_free q in let bound := qt_bound q in
     let skolems := map Fskolem (seq n (length bound)) in
     let s := frozen_ov (combine (map vid bound) (map (fun f => FFun f (map FVar free)) skolems)) in
     let ss := skolem_sort osort n bound in
     match sapply s c, sapply s lf, sapply s rf with
     | Some cs, Some ls, Some rs =>
         match ev osort evs c, ev ss evs cs, ev ss evs ls, ev ss evs rs with
         | Some c', Some cs', Some ls', Some rs' =>
             Some ([ABase (mk_forall free (for_ (mk_forall bound (fnot c')) cs'));
                    ABase (mk_forall free (meq e (FFun Fite [cs'; ls'; rs'])))], n + length bound)
         | _, _, _, _ => None
         end
     | _, _, _ => None
     end) = Some (la, n') ->
    (forall a, In a la -> forall rho : env M, axiom_holds a rho) ->
    forall (rho : env M) fs, typed (qt_free q) fs ->
      (exists ws, length ws = length (qt_bound q) /\ truth evs M (at_ M q c rho fs ws) /\
         val SMessage (fint M (Fquant k) fs) = val SMessage (at_ M q lf rho fs ws)) \/
      ((forall ds, typed (qt_bound q) ds -> ~ truth evs M (at_ M q c rho fs ds)) /\
       val SMessage (fint M (Fquant k) fs) = val SMessage (eval rf (bindv rho (qt_free q) fs))).
  Proof.
    intros (Hos & Hcc & Hcl & Hcr & Oc & Ol & Or & Nc & Nl & Nr & Sortc & Sortl & Sortr) He Ho Ha rho fs Hfs.
    cbv zeta in Ho. set (s := frozen_ov _) in Ho.
    destruct (sapply s c) as [cs|] eqn:Sc; [|discriminate]. destruct (sapply s lf) as [ls|] eqn:Sl; [|discriminate].
    destruct (sapply s rf) as [rs|] eqn:Sr; [|discriminate]. destruct (ev osort evs c) as [c'|] eqn:Ec; [|discriminate].
    destruct (ev _ _ cs) as [cs'|] eqn:Ecs; [|discriminate]. destruct (ev _ _ ls) as [ls'|] eqn:Els; [|discriminate].
    destruct (ev _ _ rs) as [rs'|] eqn:Ers; [|discriminate]. injection Ho as <- <-.
    assert (Hnd : NoDup (map vid (qt_free q ++ qt_bound q))) by apply Hcc.
    assert (Hcr' : closed_over (qt_free q ++ qt_bound q) rf).
    { destruct Hcr as (_ & Hsc & Hp). split; [exact Hnd|]. split; [|exact Hp]. intros f i Hf Hi. rewrite map_app, in_app_iff. left. eauto. }
    assert (Or' : own_var (qt_free q ++ qt_bound q) rf) by (destruct rf; cbn in *; auto; apply in_app_iff; auto).
    assert (Hnf : NoDup (map vid (qt_free q))) by (rewrite map_app in Hnd; eapply nodup_l; eauto).
    set (ws := map (fun j => fint M (Fskolem (n + j)) fs) (seq 0 (length (qt_bound q)))).
    assert (Hlw : length ws = length (qt_bound q)) by (unfold ws; rewrite map_length, seq_length; reflexivity).
    assert (Hws : forall j, j < length (qt_bound q) -> fint M (Fskolem (n + j)) fs = nth j ws (dinj M true)).
    { intros j Hj. unfold ws. rewrite (nth_indep _ _ (fint M (Fskolem (n + 0)) fs)) by (rewrite map_length, seq_length; exact Hj).
      rewrite (map_nth (fun j => fint M (Fskolem (n + j)) fs) (seq 0 (length (qt_bound q))) 0 j), seq_nth by exact Hj. reflexivity. }
    assert (V : forall f g g' s0, closed_over (qt_free q ++ qt_bound q) f -> no_skolem f -> own_var (qt_free q ++ qt_bound q) f ->
      term_sort osort f = Some s0 -> sapply s f = Some g -> ev (skolem_sort osort n (qt_bound q)) evs g = Some g' ->
      eval g' (bindv rho (qt_free q) fs) = val s0 (at_ M q f rho fs ws)).
    { intros f g g' s0 Hc Hns Hov Hs Hg Hg'. rewrite (eval_ev _ _ _ _ _ s0 _ Hg'); [f_equal|].
      - eapply skolem_value; eauto. apply (typed_length _ _ Hfs).
      - eapply skolem_term_sort; eauto. apply Hc. }
    pose proof (Ha _ (or_introl eq_refl) rho) as H1. pose proof (Ha _ (or_intror (or_introl eq_refl)) rho) as H2.
    apply base_all_inv with (ds := fs) in H1; [|exact Hfs]. apply base_all_inv with (ds := fs) in H2; [|exact Hfs].
    apply holds_meq in H2. rewrite (He rho fs SMessage Hos Hfs Hnf) in H2. cbn [eval app map] in H2.
    rewrite (V c cs cs' SCondition), (V lf ls ls' SMessage), (V rf rs rs' SMessage) in H2 by auto.
    destruct (dtest M (val SCondition (at_ M q c rho fs ws))) eqn:Et.
    - left. exists ws. split; [exact Hlw|]. split; [exact Et|exact H2].
    - right. apply holds_or in H1. destruct H1 as [H1|H1].
      + split.
        * intros ds Hds Ht. apply (proj1 (holds_all _ _ _) H1) in Hds. apply holds_not in Hds. apply Hds. unfold holds.
          rewrite (eval_ev _ _ _ _ _ SCondition _ Ec Sortc). exact Ht.
        * rewrite H2. f_equal. unfold at_. apply eval_agree. intros i Hi. apply bindv_other. intros Hb. rewrite map_app in Hnd.
          destruct Hcr as (_ & Hsc & _). specialize (Hsc rf i (or_introl eq_refl) Hi). revert Hnd Hsc Hb. clear.
          induction (map vid (qt_free q)) as [|a fr IH]; cbn; [tauto|]. intros Hn [->|H] Hb; apply NoDup_cons_iff in Hn as [N1 N2];
            [apply N1, in_app_iff; auto|auto].
      + exfalso. unfold holds in H1. rewrite (V c cs cs' SCondition) in H1 by auto. congruence.
  Qed.

  Lemma forced_others r nb lg n fs axs f : generate osort evs r nb lg n fs = Some axs -> Forall (declared osort) fs ->
    conditions_are_booleans evs M -> (forall rho : env M, Forall (fun a => axiom_holds a rho) axs) -> In f fs -> forced evs M f.
  Proof.
    intros H Hd Hb Hall Hin.
    assert (exists m la m', own_axioms m f = Some (la, m') /\ incl la axs) as (m & la & m' & Ho & Hi).
    { unfold generate in H. destruct (relevant fs) as [us|]; [|discriminate].
      match type of H with match ?x with _ => _ end = _ => destruct x as [a|]; [|discriminate] end.
      destruct (loop osort evs n fs) as [b|] eqn:Eb; [|discriminate]. injection H as <-.
      destruct (loop_in _ _ _ _ Eb Hin) as (m & la & m' & Ho & Hi). exists m, la, m'. split; [exact Ho|]. apply incl_appr. exact Hi. }
    assert (Ha : forall a, In a la -> forall rho : env M, axiom_holds a rho).
    { intros a Hin' rho. specialize (Hall rho). rewrite Forall_forall in Hall. apply Hall, Hi, Hin'. }
    rewrite Forall_forall in Hd. specialize (Hd f Hin). clear H Hall Hin Hi.
    destruct f as [i args out| | |c|k q|]; [exact I| | | | |exact I]; cbn [own_axioms] in Ho.
    - unfold ite_axiom in Ho. destruct (ev _ _ _) as [e|] eqn:E; [|discriminate]. injection Ho as <- <-.
      specialize (Ha _ (or_introl eq_refl) (fun _ => dinj M true)). cbn in Hd. intros c l r' Hargs.
      assert (Hty : typed (M:=M) [mkVar 0 SCondition; mkVar 1 SMessage; mkVar 2 SMessage] [c; l; r']) by (apply typed_args; exact Hargs).
      apply (base_all_inv [_; _; _]) with (ds := [c; l; r']) in Ha; [|exact Hty]. apply holds_meq in Ha.
      rewrite (eval_ev _ _ _ _ _ SMessage _ E Hd) in Ha. cbn [eval app map] in Ha. rewrite !eval_ev_var in Ha. cbn in Ha. rewrite Ha. unfold truth.
      destruct (dtest M (val SCondition c)); split; intros; congruence.
    - unfold eq_axiom in Ho. destruct (ev _ _ _) as [e|] eqn:E; [|discriminate]. injection Ho as <- <-.
      specialize (Ha _ (or_introl eq_refl) (fun _ => dinj M true)). cbn in Hd. intros a b Hargs.
      assert (Hty : typed (M:=M) [mkVar 0 SMessage; mkVar 1 SMessage] [a; b]) by (apply typed_args; exact Hargs).
      apply (base_all_inv [_; _]) with (ds := [a; b]) in Ha; [|exact Hty]. apply holds_meq in Ha.
      rewrite (eval_ev _ _ _ _ _ SCondition _ E Hd) in Ha. unfold meq in Ha. cbn [eval app map] in Ha. rewrite !eval_ev_var in Ha. exact Ha.
    - set (rho := fun _ : nat => dinj M true). cbn in Hd.
      destruct (conn_axiom osort evs c) as [ax|] eqn:Ec; [|discriminate]. injection Ho as <- <-. specialize (Ha _ (or_introl eq_refl) rho).
      assert (Hg : forall e, ev osort evs (FFun (Fta (sym_conn c)) (map FVar (sorts_to_variables 0 (conn_args c)))) = Some e ->
        forall ds, args_of M (conn_args c) ds -> typed (M:=M) (sorts_to_variables 0 (conn_args c)) ds /\
          eval e (bindv (M:=M) rho (sorts_to_variables 0 (conn_args c)) ds) = val SCondition (fint M (Fta (sym_conn c)) ds)).
      { intros e E ds Hds. assert (Hty : typed (M:=M) (sorts_to_variables 0 (conn_args c)) ds) by (apply typed_args; rewrite sorts_sorts; exact Hds).
        split; [exact Hty|]. destruct (sorted_values evs M 0 _ ds rho Hty) as (_ & Hv & _).
        rewrite (eval_ev _ _ _ _ _ SCondition _ E Hd). cbn [eval app]. rewrite eval_vars, Hv. reflexivity. }
      destruct c; cbn [conn_axiom conn_args sorts_to_variables sym_conn map forced means] in *; destruct (ev _ _ _) as [e|] eqn:E; try discriminate;
        injection Ec as <-; specialize (Hg e eq_refl).
      3: { intros d Hdom Ht. destruct (Hg [d]) as [Hty He]; [repeat constructor; exact Hdom|].
           apply (base_all_inv [_]) with (ds := [d]) in Ha; [|exact Hty]. unfold truth in *. rewrite <- He in Ht.
           apply (proj1 (holds_imp M _ _ _) Ha) in Ht. apply holds_not in Ht. unfold holds in Ht. rewrite eval_ev_var in Ht. exact Ht. }
      all: intros ds Hds; destruct (Hg ds Hds) as [Hty He]; rewrite <- He.
      all: try (inversion Hds as [|? x ? ds1 Hx Hr1]; subst; inversion Hr1 as [|? y ? ds2 Hy Hr2]; subst; inversion Hr2; subst; clear Hr1 Hr2).
      all: try (inversion Hds; subst).
      + apply (base_all_inv [_; _]) with (ds := [x; y]) in Ha; [|exact Hty]. apply holds_meq in Ha. rewrite Ha. cbn [eval app map conn_evaluated].
        rewrite !eval_ev_var. cbn. rewrite andb_true_r. reflexivity.
      + apply (base_all_inv [_; _]) with (ds := [x; y]) in Ha; [|exact Hty]. apply holds_meq in Ha. rewrite Ha. cbn [eval app map conn_evaluated].
        rewrite !eval_ev_var. cbn. rewrite orb_false_r. reflexivity.
      + apply (base_all_inv [_; _]) with (ds := [x; y]) in Ha; [|exact Hty]. apply holds_meq in Ha. rewrite Ha. cbn [eval app map conn_evaluated].
        rewrite !eval_ev_var. cbn. reflexivity.
      + apply (base_all_inv [_; _]) with (ds := [x; y]) in Ha; [|exact Hty]. apply holds_meq in Ha. rewrite Ha. cbn [eval app map conn_evaluated].
        rewrite !eval_ev_var. cbn. f_equal. pose proof (Hb x Hx) as Bx. pose proof (Hb y Hy) as By. cbn in Bx, By.
        destruct (deq M (val SCondition x) (val SCondition y)) eqn:Ed.
        * apply deq_spec in Ed. rewrite Ed. symmetry. apply eqb_reflx.
        * destruct (dtest M (val SCondition x)) eqn:E1, (dtest M (val SCondition y)) eqn:E2; try reflexivity; exfalso;
            (assert (Et : val SCondition x = val SCondition y) by congruence); apply deq_spec in Et; congruence.
      + apply (base_all_inv []) with (ds := []) in Ha; [|exact Hty]. apply holds_meq in Ha. exact Ha.
      + apply (base_all_inv []) with (ds := []) in Ha; [|exact Hty]. apply holds_meq in Ha. exact Ha.
    - cbn [forced]. unfold quant_axioms in Ho. cbn [declared] in Hd.
      destruct (ev osort evs (FFun (Fquant k) _)) as [e|] eqn:E; [|discriminate].
      assert (He : forall (rho : env M) fs s0, osort (Fquant k) = Some s0 -> typed (qt_free q) fs -> NoDup (map vid (qt_free q)) ->
        eval e (bindv rho (qt_free q) fs) = val s0 (fint M (Fquant k) fs)).
      { intros rho fs0 s0 Hos Hfs Hn. rewrite (eval_ev _ _ _ _ _ s0 _ E Hos). cbn [eval app]. rewrite eval_vars, bindv_values; auto.
        apply (typed_length _ _ Hfs). }
      destruct (qt_inner q) as [c|c|c lf rf]; [| |eapply forced_find; eauto]; destruct (ev osort evs c) as [c'|] eqn:Ec; try discriminate; injection Ho as <- <-;
        destruct Hd as (Hos & (Hn & _) & _ & Hs); rewrite map_app in Hn; apply nodup_l in Hn.
      + intros rho fs0 ds Hfs Hds Ht. specialize (Ha _ (or_introl eq_refl) rho). apply base_all_inv with (ds := fs0) in Ha; [|exact Hfs].
        unfold truth in Ht. rewrite <- (He rho fs0 _ Hos Hfs Hn) in Ht. apply (proj1 (holds_imp M _ _ _) Ha) in Ht.
        apply (proj1 (holds_all _ _ _) Ht) in Hds. unfold holds in Hds. rewrite (eval_ev _ _ _ _ _ SCondition _ Ec Hs) in Hds. exact Hds.
      + intros rho fs0 Hfs Ht Hnone. specialize (Ha _ (or_introl eq_refl) rho). apply base_all_inv with (ds := fs0) in Ha; [|exact Hfs].
        unfold truth in Ht. rewrite <- (He rho fs0 _ Hos Hfs Hn) in Ht. apply (proj1 (holds_imp M _ _ _) Ha) in Ht.
        apply (holds_ex_elim _ _ _ Ht). intros ds Hds Hh. apply (Hnone ds Hds). unfold holds in Hh.
        rewrite (eval_ev _ _ _ _ _ SCondition _ Ec Hs) in Hh. exact Hh.
  Qed.

  Lemma forced_identity nb lg n fs axs : generate osort evs REvaluated nb lg n fs = Some axs ->
    (forall rho : env M, Forall (fun a => axiom_holds a rho) axs) -> forall s d, In s evs -> dom M s d -> fint M (Feval s) [d] = d.
  Proof.
    intros H Hall s d Hs Hd. unfold generate in H. destruct (relevant fs); [|discriminate]. destruct (loop _ _ _ _) as [b|]; [|discriminate].
    injection H as <-. specialize (Hall (fun _ => dinj M true)). rewrite Forall_forall in Hall.
    specialize (Hall (identity_axiom s) ltac:(apply in_app_iff; left; apply in_map; exact Hs)).
    apply base_all_inv with (ds := [d]) in Hall; [|constructor; [exact Hd|constructor]]. apply holds_meq in Hall. exact Hall.
  Qed.
End Forced.
