From Coq Require Import List Arith Bool Lia.
From Verif Require Import Syntax_Model Syntax_Proofs Subst_Model Semantics_Spec Semantics_Proofs Order_Spec Binding_Proofs Sort_Model Sort_Proofs
  Evaluate_Model Evaluate_Spec Propagate_Model Propagate_Spec.
Import ListNotations.

Section Proofs.
  Context (osort : fsym -> option sort) (evs : list sort) (table : nat -> option quantifier) (funs : list pfun) (G : nat -> sort).
  Notation plain := (plain osort table funs G).
  Notation well := (well osort evs table funs G).
  Notation after := (after_eval osort evs table).
  Notation before := (before_eval osort evs table).

  Lemma sort_eqb_ok a b : sort_eqb a b = true <-> a = b.
  Proof. apply sort_eqb_spec. Qed.
  Lemma in_evs s : existsb (sort_eqb s) evs = true <-> In s evs.
  Proof.
    rewrite existsb_exists. split.
    - intros (x & Hx & E). apply sort_eqb_ok in E. subst; auto.
    - intros H. exists s. split; auto. apply sort_eqb_ok; auto.
  Qed.

  Lemma opaque_plain h s : opaque table h -> osort h = Some s -> forall n args,
    after (S n) (FFun h args) = ev osort evs (FFun h args).
  Proof.
    intros Ho Hs n args. destruct h; cbn in *; try contradiction; try reflexivity.
    - subst. reflexivity.
    - destruct (table i) as [q|]; [|contradiction]. destruct (qt_inner q); try contradiction. reflexivity.
  Qed.

  Lemma mapM_uniform (f : nat -> formula -> option formula) args :
    Forall (fun a => exists n0 a', forall n, n0 <= n -> f n a = Some a') args ->
    exists n0 l, forall n, n0 <= n -> mapM (f n) args = Some l.
  Proof.
    induction 1 as [|a l (n1 & a' & H1) _ (n2 & l' & H2)]; [exists 0, []; reflexivity|].
    exists (max n1 n2), (a' :: l'). intros n Hn. cbn. rewrite H1, H2 by lia. reflexivity.
  Qed.

  Lemma forall2_in {A B} (R : A -> B -> Prop) l l' : Forall2 R l l' -> Forall (fun b => exists a, R a b) l'.
  Proof. induction 1; constructor; eauto. Qed.

  Lemma step_total h g args : maybe_evaluated h = Some g ->
    (exists n0 l, forall n, n0 <= n -> mapM (after n) args = Some l) ->
    exists n0 f', forall n, n0 <= n -> after n (FFun h args) = Some f'.
  Proof.
    intros Hg (n0 & l & Hl). exists (S n0), (FFun g l). intros [|n] Hn; [lia|]. cbn [after_eval]. rewrite Hg, Hl by lia. reflexivity.
  Qed.

  Lemma after_total t : forall s, plain s t -> exists n0 t', forall n, n0 <= n -> after n t = Some t'.
  Proof.
    induction t as [v|h args IH|q vs b IH] using formula_ind'; intros s Hp.
    - inversion Hp; subst. exists 1. destruct (maybe_evaluated_sort (vsort v)) eqn:E.
      + exists (FVar (mkVar (vid v) s)). intros [|n] Hn; [lia|]. cbn [after_eval]. rewrite E. reflexivity.
      + eexists. intros [|n] Hn; [lia|]. cbn [after_eval]. rewrite E. reflexivity.
    - assert (Hargs : forall ss, Forall2 plain ss args -> exists n0 l, forall n, n0 <= n -> mapM (after n) args = Some l).
      { intros ss H. apply mapM_uniform. apply forall2_in in H. rewrite Forall_forall in *.
        intros a Ha. destruct (H a Ha) as (s' & Hs'). eauto. }
      inversion Hp as [|? ? ? ? ? Hf|c ? ? Hf|a b ? Ha Hb|? ? ? Ho Hs]; subst.
      + eapply step_total; [reflexivity|eauto].
      + destruct c; (eapply step_total; [reflexivity|eauto]).
      + eapply step_total; [reflexivity|]. apply (Hargs [SMessage; SMessage]). auto.
      + exists 1. eexists. intros [|n] Hn; [lia|]. rewrite opaque_plain with (s := s); auto. unfold ev. cbn. rewrite Hs. reflexivity.
    - inversion Hp.
  Qed.

  Section Meaning.
    Context (M : structure) (HM : evaluation osort evs funs M) (Hdecl : Forall (declared osort) funs).

    Lemma app_plain h ds : match h with Fb _ | Fite => False | _ => True end -> app (M:=M) h ds = fint M h ds.
    Proof. destruct h; cbn; tauto. Qed.

    Lemma value_in s d : In s evs -> value evs M s d = fint M (Feval s) [d].
    Proof. intros H. unfold value. apply in_evs in H. rewrite H. reflexivity. Qed.

    Lemma plain_dom t : forall s rho, plain s t -> typed_env G M rho -> dom M s (eval t rho).
    Proof.
      rewrite Forall_forall in Hdecl. destruct t as [v|h args|q vs b]; intros s rho Hp Hr; inversion Hp as [? Hv|? ? ? ? Hin|c ? Hin|? ? Hin|? ? ? Ho]; subst.
      - cbn. rewrite Hv. apply Hr.
      - apply Hdecl in Hin. cbn in Hin. cbn [eval]. rewrite app_plain by exact I. apply (ev_dom _ _ _ _ HM). tauto.
      - apply Hdecl in Hin. cbn in Hin. cbn [eval]. rewrite app_plain by exact I. apply (ev_dom _ _ _ _ HM). tauto.
      - apply Hdecl in Hin. cbn in Hin. cbn [eval]. rewrite app_plain by exact I. apply (ev_dom _ _ _ _ HM). tauto.
      - cbn [eval]. rewrite app_plain by (destruct h; cbn in *; tauto). apply (ev_dom _ _ _ _ HM). auto.
    Qed.

    Lemma ev_value t s rho t' : term_sort osort t = Some s -> ev osort evs t = Some t' -> eval (M:=M) t' rho = value evs M s (eval t rho).
    Proof. unfold ev, value. intros -> [= <-]. destruct (existsb (sort_eqb s) evs); reflexivity. Qed.

    Lemma plain_args rho ss args : Forall2 plain ss args -> typed_env G M rho ->
      args_of M ss (map (fun a => eval a rho) args).
    Proof. intros H Hr. induction H; cbn; constructor; auto. eapply plain_dom; eauto. Qed.

    Lemma values_args n rho ss args args' :
      (forall t s t', plain s t -> after n t = Some t' -> eval (M:=M) t' rho = value evs M s (eval t rho)) ->
      Forall2 plain ss args -> mapM (after n) args = Some args' ->
      map (fun a => eval (M:=M) a rho) args' = map (fun p => value evs M (fst p) (snd p)) (combine ss (map (fun a => eval a rho) args)).
    Proof.
      intros H Hf. revert args'. induction Hf as [|s a ss args Hs Hf IH]; intros args' Hm; cbn in *.
      - injection Hm as <-. reflexivity.
      - destruct (after n a) as [a'|] eqn:Ea; [|discriminate]. destruct (mapM (after n) args) as [l|]; [|discriminate].
        injection Hm as <-. cbn. f_equal; eauto.
    Qed.

    Lemma after_meaning n : forall t s t' rho, typed_env G M rho -> plain s t -> after n t = Some t' ->
      eval (M:=M) t' rho = value evs M s (eval t rho).
    Proof.
      destruct (ev_means _ _ _ _ HM) as (w & Hw). pose proof (ev_booleans _ _ _ _ HM) as Hb.
      rewrite Forall_forall in Hw.
      induction n as [|n IH]; intros t s t' rho Hr Hp Ha; [discriminate|].
      inversion Hp as [v Hv He|i ss out args Hin Hf|c args Hin Hf|a b Hin Hta Htb|h s' args Ho Hs]; subst.
      - cbn [after_eval] in Ha. destruct (maybe_evaluated_sort (vsort v)) eqn:E.
        + exfalso. destruct (vsort v); cbn in *; congruence.
        + eapply ev_value; eauto.
      - cbn [after_eval maybe_evaluated] in Ha. destruct (mapM (after n) args) as [l|] eqn:El; [|discriminate]. injection Ha as <-.
        specialize (Hw _ Hin). cbn in Hw. cbn [eval]. rewrite !app_plain by exact I. rewrite Hw by (apply plain_args; auto).
        f_equal. eapply values_args; eauto.
      - assert (Ha' : option_map (FFun (Fb (conn_evaluated c))) (mapM (after n) args) = Some t') by (destruct c; exact Ha).
        clear Ha. destruct (mapM (after n) args) as [l|] eqn:El; [|discriminate]. injection Ha' as <-.
        specialize (Hw _ Hin). cbn in Hw. pose proof (plain_args rho _ _ Hf Hr) as Hargs. pose proof (Hw _ Hargs) as E.
        cbn [eval]. rewrite (app_plain (Fta _)) by exact I. rewrite E. clear E Hw Hin.
        assert (Hvals := values_args n rho _ _ _ (fun t s t' Hp Ha => IH t s t' rho Hr Hp Ha) Hf El).
        rewrite Hvals. clear Hvals El IH Hp.
        destruct c; cbn [conn_args] in Hf, Hargs; inversion Hf as [|? a1 ? r1 P1 Hf1]; subst; cbn;
          try (inversion Hf1 as [|? a2 ? r2 P2 Hf2]; subst); cbn; try (inversion Hf2; subst; cbn);
          rewrite ?andb_true_r, ?orb_false_r; try reflexivity.
        f_equal. pose proof (plain_dom _ _ rho P1 Hr) as D1. pose proof (plain_dom _ _ rho P2 Hr) as D2.
        apply Hb in D1. apply Hb in D2.
        set (x := value evs M SCondition (eval a1 rho)) in *. set (y := value evs M SCondition (eval a2 rho)) in *.
        destruct (dtest M x) eqn:Ex, (dtest M y) eqn:Ey; cbn.
        + apply deq_spec. rewrite D1, D2. reflexivity.
        + destruct (deq M x y) eqn:Exy; [|reflexivity]. apply deq_spec in Exy. rewrite Exy in Ex. congruence.
        + destruct (deq M x y) eqn:Exy; [|reflexivity]. apply deq_spec in Exy. rewrite Exy in Ex. congruence.
        + apply deq_spec. rewrite D1, D2. reflexivity.
      - cbn [after_eval maybe_evaluated] in Ha. cbn [mapM] in Ha.
        destruct (after n a) as [a'|] eqn:Ea; [|discriminate]. destruct (after n b) as [b'|] eqn:Eb; [|discriminate].
        injection Ha as <-. specialize (Hw _ Hin). cbn in Hw. cbn [eval map]. rewrite (app_plain (Fta _)) by exact I.
        rewrite Hw by (constructor; [eapply plain_dom; eauto|constructor; [eapply plain_dom; eauto|constructor]]).
        cbn. rewrite (IH a SMessage a' rho Hr Hta Ea), (IH b SMessage b' rho Hr Htb Eb). reflexivity.
      - rewrite opaque_plain with (s := s) in Ha by auto. eapply ev_value; [exact Hs|exact Ha].
    Qed.

    Lemma quantify_typed (q : quant) vs : Forall (fun v => vsort v = G (vid v)) vs -> forall (k k' : env M -> bool) rho,
      (forall r, typed_env G M r -> k r = k' r) -> typed_env G M rho -> quantify q vs rho k = quantify q vs rho k'.
    Proof.
      induction 1 as [|v vs Hv Hvs IH]; intros k k' rho Hk Hr; cbn; [auto|].
      assert (Hu : forall d, dom M (vsort v) d -> typed_env G M (upd rho (vid v) d)).
      { intros d Hd i. unfold upd. destruct (Nat.eqb_spec i (vid v)) as [->|]; [rewrite <- Hv; auto|apply Hr]. }
      destruct q; [apply ex_ext|apply all_ext]; intros d Hd; apply IH; auto.
    Qed.
  End Meaning.

  Lemma go_before n l : (fix go (l : list formula) : option (list (bool * formula)) :=
              match l with
              | [] => Some []
              | a :: l' => match before n a, go l' with Some x, Some xs => Some (x :: xs) | _, _ => None end
              end) l = mapM (before n) l.
  Proof. induction l as [|a l IH]; [reflexivity|]. cbn. rewrite IH. destruct (before n a); [|reflexivity]. destruct (mapM (before n) l); reflexivity. Qed.

  Lemma before_fun n h args : (forall s, h <> Feval s) ->
    before n (FFun h args) = option_map (fun l : list (bool * formula) => (existsb fst l, FFun h args)) (mapM (before n) args).
  Proof. intros H. destruct h; try (exfalso; eapply H; reflexivity); cbn; rewrite go_before; reflexivity. Qed.

  Lemma mapM_uniform2 {A} (f : nat -> formula -> option A) args :
    Forall (fun a => exists n0 a', forall n, n0 <= n -> f n a = Some a') args ->
    exists n0 l, forall n, n0 <= n -> mapM (f n) args = Some l.
  Proof.
    induction 1 as [|a l (n1 & a' & H1) _ (n2 & l' & H2)]; [exists 0, []; reflexivity|].
    exists (max n1 n2), (a' :: l'). intros n Hn. cbn. rewrite H1, H2 by lia. reflexivity.
  Qed.

  Lemma before_all f : well f -> exists n0 x, forall n, n0 <= n -> before n f = Some x.
  Proof.
    induction f as [v|h args IH|q vs b IH] using formula_ind'; intros Hw.
    - exists 0, (false, FVar v). reflexivity.
    - inversion Hw as [|s t Hs Ht|h' args' Hh Hf|]; subst.
      + destruct (after_total t s Ht) as (n0 & t' & H). exists n0, (true, t'). intros n Hn. cbn. rewrite H by auto. reflexivity.
      + assert (Hm : exists n0 l, forall n, n0 <= n -> mapM (before n) args = Some l).
        { apply (mapM_uniform2 before). rewrite Forall_forall in *. auto. }
        destruct Hm as (n0 & l & H). exists n0. eexists. intros n Hn. rewrite before_fun, H by auto. reflexivity.
    - inversion Hw as [| | |? ? ? Hv Hb]; subst. destruct (IH Hb) as (n0 & x & H).
      exists n0. eexists. intros n Hn. cbn. rewrite H by auto. reflexivity.
  Qed.

  Lemma before_meaning M n f : evaluation osort evs funs M -> Forall (declared osort) funs -> well f -> forall x, before n f = Some x ->
    forall rho : env M, typed_env G M rho -> eval (snd x) rho = eval f rho.
  Proof.
    intros HM Hd. induction f as [v|h args IH|q vs b IH] using formula_ind'; intros Hw x Hx rho Hr.
    - injection Hx as <-. reflexivity.
    - inversion Hw as [|s t Hs Ht|h' args' Hh Hf|]; subst.
      + cbn [before_eval] in Hx. destruct (after n t) as [t'|] eqn:E; [|discriminate]. injection Hx as <-. cbn [snd].
        rewrite (after_meaning M HM Hd n t s t' rho Hr Ht E). rewrite value_in by auto. reflexivity.
      + rewrite before_fun in Hx by auto. destruct (mapM (before n) args); [|discriminate]. injection Hx as <-. reflexivity.
    - inversion Hw as [| | |? ? ? Hv Hb]; subst. cbn [before_eval] in Hx.
      destruct (before n b) as [[[] b']|] eqn:E; [| |discriminate]; injection Hx as <-; [|reflexivity].
      cbn [snd fst eval]. f_equal. apply quantify_typed; auto. intros r Hr'. f_equal. apply (IH Hb (true, b') eq_refl r Hr').
  Qed.

  Lemma before_elsewhere n f : forall x, before n f = Some x -> ~ is_evaluation (matrix f) -> x = (fst x, f).
  Proof.
    induction f as [v|h args IH|q vs b IH] using formula_ind'; intros x Hx Hn.
    - injection Hx as <-. reflexivity.
    - rewrite before_fun in Hx by (intros s ->; apply Hn; exact I).
      destruct (mapM (before n) args); [|discriminate]. injection Hx as <-. reflexivity.
    - cbn [before_eval] in Hx. destruct (before n b) as [y|] eqn:E; [|discriminate]. cbn in Hx, Hn.
      pose proof (IH _ eq_refl Hn) as Hy. destruct y as [[] b']; cbn in *; injection Hx as <-; cbn; congruence.
  Qed.
End Proofs.
