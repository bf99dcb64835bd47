From Coq Require Import List Arith Bool Lia.
From Verif Require Import Syntax_Model Syntax_Proofs Traversal_Model Traversal_Spec Traversal_Proofs
  Semantics_Spec Semantics_Proofs Subst_Model Subst_Spec Subst_Proofs
  Sort_Model Sort_Spec Sort_Proofs Parser_Model Parser_Spec.
Import ListNotations.

(* ---------- terms ---------- *)
Section TermInd.
  Variable P : term -> Prop.
  Hypothesis Hlet : forall x ty t1 t2, P t1 -> P t2 -> P (TLet x ty t1 t2).
  Hypothesis Hif : forall c l r, P c -> P l -> P r -> P (TIf c l r).
  Hypothesis Hfind : forall vs c l r, P c -> P l -> P r -> P (TFind vs c l r).
  Hypothesis Hquant : forall q vs b, P b -> P (TQuant q vs b).
  Hypothesis Hvar : forall x, P (TVar x).
  Hypothesis Happ : forall f l, Forall P l -> P (TApp f l).
  Hypothesis Hinfix : forall o l, Forall P l -> P (TInfix o l).
  Hypothesis Hstep0 : forall m f, P (TStepMac m f None).
  Hypothesis Hstep : forall m f l, Forall P l -> P (TStepMac m f (Some l)).
  Hypothesis Hmac : forall m l, Forall P l -> P (TMac m l).

  Fixpoint term_ind' (t : term) : P t :=
    let fix all (l : list term) : Forall P l :=
      match l with [] => Forall_nil P | a :: l' => Forall_cons a (term_ind' a) (all l') end in
    match t with
    | TLet x ty t1 t2 => Hlet x ty t1 t2 (term_ind' t1) (term_ind' t2)
    | TIf c l r => Hif c l r (term_ind' c) (term_ind' l) (term_ind' r)
    | TFind vs c l r => Hfind vs c l r (term_ind' c) (term_ind' l) (term_ind' r)
    | TQuant q vs b => Hquant q vs b (term_ind' b)
    | TVar x => Hvar x
    | TApp f l => Happ f l (all l)
    | TInfix o l => Hinfix o l (all l)
    | TStepMac m f None => Hstep0 m f
    | TStepMac m f (Some l) => Hstep m f l (all l)
    | TMac m l => Hmac m l (all l)
    end.
End TermInd.

Lemma all_Forall (Q : term -> Prop) l :
  (fix all (l : list term) : Prop := match l with [] => True | a :: l' => Q a /\ all l' end) l <-> Forall Q l.
Proof.
  induction l as [|a l IH]; [intuition constructor|]. rewrite IH. split; [intros []; auto|intros H; inversion H; auto].
Qed.
Lemma everywhere_app P f l : everywhere P (TApp f l) <-> P (TApp f l) /\ Forall (everywhere P) l.
Proof. cbn. rewrite all_Forall. reflexivity. Qed.
Lemma everywhere_infix P o l : everywhere P (TInfix o l) <-> P (TInfix o l) /\ Forall (everywhere P) l.
Proof. cbn. rewrite all_Forall. reflexivity. Qed.
Lemma everywhere_mac P m l : everywhere P (TMac m l) <-> P (TMac m l) /\ Forall (everywhere P) l.
Proof. cbn. rewrite all_Forall. reflexivity. Qed.
Lemma everywhere_here P t : everywhere P t -> P t.
Proof. destruct t; cbn; tauto. Qed.

(* ---------- monad ---------- *)
Lemma bind_done {A B} (m : M A) (k : A -> M B) s b s' :
  bind m k s = Done b s' <-> exists a s1, m s = Done a s1 /\ k a s1 = Done b s'.
Proof.
  unfold bind. destruct (m s) as [| | |a s1] eqn:E; split.
  1,3,5: discriminate. 1,2,3: intros (? & ? & H & _); discriminate.
  - eauto.
  - intros (a' & s1' & H & K). injection H as <- <-. exact K.
Qed.

Ltac inv_bind :=
  repeat match goal with
  | H : bind _ _ _ = Done _ _ |- _ => apply bind_done in H; destruct H as (? & ? & ? & H); cbn beta in H
  | H : ret _ _ = Done _ _ |- _ => unfold ret in H; injection H; clear H; intros; subst
  | H : fail _ = Done _ _ |- _ => discriminate H
  | H : panic _ = Done _ _ |- _ => discriminate H
  end.

Definition same (s s' : pst) : Prop := p_bv s' = p_bv s /\ p_qs s' = p_qs s.
Lemma same_refl s : same s s. Proof. split; reflexivity. Qed.
Lemma same_trans a b c : same a b -> same b c -> same a c.
Proof. intros [A1 A2] [B1 B2]. split; congruence. Qed.

Lemma lift_same {A} f s (a : A) s' : lift f s = Done a s' -> same s s'.
Proof. unfold lift. destruct (f (p_heap s)) as [[h [x|e]]|]; intros H; inversion H; subst. split; reflexivity. Qed.
Lemma readp_same p s a s' : readp p s = Done a s' -> s' = s.
Proof. unfold readp. intros H. injection H as _ <-. reflexivity. Qed.
Lemma newsig_same k s sg s' : newsig k s = Done sg s' -> same s s' /\ sg = snd (signature (p_heap s) k) /\ p_heap s' = fst (signature (p_heap s) k).
Proof.
  unfold newsig. destruct (signature (p_heap s) k) as [h g]. intros H. injection H as <- <-. cbn. split; [split; reflexivity|auto].
Qed.
Lemma when_same {A} (es : option A) f s u s' : (forall a s u s', f a s = Done u s' -> same s s') -> when es f s = Done u s' -> same s s'.
Proof. destruct es; cbn; intros H E; [eapply H; eauto|]. injection E as _ <-. apply same_refl. Qed.

(* ---------- scoping ---------- *)
Lemma numbered_nil : numbered [].
Proof. intros [|i] x v H; discriminate. Qed.
Lemma numbered_snoc b x v : numbered b -> vid v = length b -> numbered (b ++ [(x, v)]).
Proof.
  intros H E i y w Hn. destruct (Nat.lt_ge_cases i (length b)).
  - rewrite nth_error_app1 in Hn; eauto.
  - rewrite nth_error_app2 in Hn; auto. destruct (i - length b) as [|k] eqn:K; [|destruct k; discriminate].
    injection Hn as <- <-. lia.
Qed.
Lemma numbered_in b x v : numbered b -> In (x, v) b -> vid v < length b.
Proof. intros H Hi. apply In_nth_error in Hi. destruct Hi as [i Hi]. rewrite (H _ _ _ Hi). apply nth_error_Some. congruence. Qed.

Lemma occurs_free_var_inv i v : occurs_free i (FVar v) -> i = vid v.
Proof. intros (p & w & H & <- & _). inversion H; reflexivity. Qed.
Lemma occurs_free_fun_inv i s args : occurs_free i (FFun s args) -> exists a, In a args /\ occurs_free i a.
Proof.
  intros (p & v & H & E & N). inversion H as [|? ? k q a g Hk Ha|]; subst.
  exists a. split; [eapply nth_error_In; eauto|]. exists q, v. split; auto. split; auto.
  intros B. apply N. eapply ba_fun; eauto.
Qed.
Lemma occurs_free_quant_inv i q vs b : occurs_free i (FQ q vs b) -> occurs_free i b /\ ~ In i (map vid vs).
Proof.
  intros (p & v & H & E & N). inversion H; subst. split.
  - exists p0, v. split; auto. split; auto. intros B. apply N. apply ba_quant. exact B.
  - intros Hi. apply N. apply in_map_iff in Hi. destruct Hi as (w & Ew & Hw). eapply ba_here; eauto.
Qed.

Lemma ws_var n v : vid v < n -> well_scoped n (FVar v).
Proof. intros H. split; [intros i Hi; apply occurs_free_var_inv in Hi; lia|intros i Hi; inversion Hi]. Qed.
Lemma ws_fun n s args : Forall (well_scoped n) args -> well_scoped n (FFun s args).
Proof.
  rewrite Forall_forall. intros H. split.
  - intros i Hi. apply occurs_free_fun_inv in Hi. destruct Hi as (a & Ha & Hi). apply (H a Ha); auto.
  - intros i Hi. inversion Hi as [| |s' args' a Ha Hb]; subst. apply (H a Ha); auto.
Qed.
Lemma ws_quant n q vs b : (forall v, In v vs -> n <= vid v) -> (forall i, n <= i < n + length vs -> In i (map vid vs)) ->
  well_scoped (n + length vs) b -> well_scoped n (FQ q vs b).
Proof.
  intros Hvs Hall [H1 H2]. split.
  - intros i Hi. apply occurs_free_quant_inv in Hi. destruct Hi as [Hi Hn]. specialize (H1 i Hi).
    destruct (Nat.lt_ge_cases i n); auto. exfalso. apply Hn, Hall. lia.
  - intros i Hi. inversion Hi as [q' vs' b' v Hv E|q' vs' b' Hb|]; subst; auto. specialize (H2 i Hb). lia.
Qed.

Lemma Forall_firstn' {A} (P : A -> Prop) n l : Forall P l -> Forall P (firstn n l).
Proof. intros H. revert n. induction H; intros [|n]; cbn; auto. Qed.

(* ---------- lists of names ---------- *)
Lemma find_app' {A} (p : A -> bool) l1 l2 : find p (l1 ++ l2) = match find p l1 with Some z => Some z | None => find p l2 end.
Proof. induction l1 as [|a l1 IH]; cbn; auto. destruct (p a); auto. Qed.

Lemma find_rev_nodup b x : NoDup (map fst b) -> find (fun e : name * var => Nat.eqb (fst e) x) (rev b) = find (fun e : name * var => Nat.eqb (fst e) x) b.
Proof.
  induction b as [|e b IH]; intros Hn; [reflexivity|]. inversion Hn as [|? ? Hy Hb]; subst. cbn [rev find].
  rewrite find_app', IH by auto. cbn [find]. change (@fst nat var e) with (@fst name var e). destruct (Nat.eqb (fst e) x) eqn:E.
  - apply Nat.eqb_eq in E.
    destruct (find (fun e : name * var => Nat.eqb (fst e) x) b) as [w|] eqn:F; auto.
    apply find_some in F. destruct F as [Hi Hz]. apply Nat.eqb_eq in Hz. exfalso. apply Hy. rewrite E, <- Hz. apply in_map. auto.
  - destruct (find _ b); reflexivity.
Qed.

Lemma scope_snoc {M : structure} b (rho : env M) x v d : numbered b -> vid v = length b -> forall y,
  scope_of (b ++ [(x, v)]) (upd rho (vid v) d) y = bind_name (scope_of b rho) x (vsort v) d y.
Proof.
  intros Hb Hv y. unfold scope_of, bind_name. rewrite rev_app_distr. cbn [rev List.app find]. change (fst (x, v)) with x.
  rewrite Nat.eqb_sym. destruct (Nat.eq_dec y x) as [->|Hne].
  - rewrite Nat.eqb_refl. unfold upd. rewrite Nat.eqb_refl. reflexivity.
  - apply Nat.eqb_neq in Hne. rewrite Hne. match goal with |- context [find ?p (rev b)] => destruct (find p (rev b)) as [[z w]|] eqn:F end; [|reflexivity].
    apply find_some in F. destruct F as [F _]. apply in_rev in F. apply numbered_in in F; auto.
    unfold upd. replace (Nat.eqb (vid w) (vid v)) with false; [reflexivity|]. symmetry. apply Nat.eqb_neq. lia.
Qed.

Lemma scope_agree {M : structure} b (rho rho' : env M) : numbered b -> (forall i, i < length b -> rho i = rho' i) ->
  forall y, scope_of b rho y = scope_of b rho' y.
Proof.
  intros Hb H y. unfold scope_of. match goal with |- context [find ?p (rev b)] => destruct (find p (rev b)) as [[z w]|] eqn:F end; [|reflexivity].
  apply find_some in F. destruct F as [F _]. apply in_rev in F. apply numbered_in in F; auto. rewrite H; auto.
Qed.

(* ---------- the denotation only depends on the scope pointwise ---------- *)
Section Ext.
  Variable M : structure.
  Variable env : penv.
  Variable qsem : qkind -> list sort -> (list (D M) -> list (D M)) -> D M.
  Variable mval : callee -> realm -> list (D M) -> list (D M) -> D M.
  Hypothesis qext : extensional M qsem.

  Definition eqsc (a b : scope M) : Prop := forall x, a x = b x.
  Lemma bind_name_ext a b x s d : eqsc a b -> eqsc (bind_name a x s d) (bind_name b x s d).
  Proof. intros H y. unfold bind_name. destruct (Nat.eq_dec y x); auto. Qed.
  Lemma bind_names_ext vs : forall ds a b, eqsc a b -> eqsc (bind_names a vs ds) (bind_names b vs ds).
  Proof. induction vs as [|[x s] vs IH]; intros [|d ds] a b H; cbn; auto. apply IH, bind_name_ext, H. Qed.
  Lemma squantify_ext q vs : forall a b k k', eqsc a b -> (forall a b, eqsc a b -> k a = k' b) -> squantify q vs a k = squantify q vs b k'.
  Proof.
    induction vs as [|[x s] vs IH]; intros a b k k' H Hk; cbn; auto.
    destruct q; [apply ex_ext|apply all_ext]; intros d _; apply IH; auto using bind_name_ext.
  Qed.
  Lemma fn_value_ext r f v v' : (forall r, v r = v' r) -> fn_value M env r f v = fn_value M env r f v'.
  Proof. intros H. unfold fn_value. destruct (denotes env f r); auto. unfold apply_fn. rewrite H. reflexivity. Qed.
  Lemma infix_value_ext o r v v' : (forall r, v r = v' r) -> infix_value M o r v = infix_value M o r v'.
  Proof. intros H. destruct o, r; cbn; rewrite H; reflexivity. Qed.

  Lemma value_ext : forall t r a b, eqsc a b -> value env qsem mval t r a = value env qsem mval t r b.
  Proof.
    induction t as [x ty t1 t2 IH1 IH2|c l d IHc IHl IHd|vs c l d IHc IHl IHd|q vs b IHb|x|f args IH|o ts IH|m f|m f l IH|m l IH]
      using term_ind'; intros r a b' H; cbn [value].
    - apply IH2. intros y. unfold bind_name. destruct (Nat.eq_dec y x); auto.
      f_equal. f_equal. apply IH1; auto.
    - rewrite (IHc r a b'), (IHl r a b'), (IHd r a b'); auto.
    - f_equal. apply qext. intros ds _. rewrite (IHc _ _ (bind_names b' (binders env vs) ds)), (IHl _ _ (bind_names b' (binders env vs) ds)), (IHd _ a b'); auto using bind_names_ext.
    - destruct r.
      + apply qext. intros ds _. f_equal. apply IHb, bind_names_ext, H.
      + f_equal. apply squantify_ext; auto. intros. f_equal. apply IHb; auto.
    - rewrite H. reflexivity.
    - apply fn_value_ext. intros r'. apply map_ext_in. intros e He. rewrite Forall_forall in IH. apply IH; auto.
    - apply infix_value_ext. intros r'. apply map_ext_in. intros e He. rewrite Forall_forall in IH. apply IH; auto.
    - reflexivity.
    - rewrite Forall_forall in IH. f_equal; apply map_ext_in; intros e He; apply IH; auto.
    - rewrite Forall_forall in IH. f_equal; apply map_ext_in; intros e He; apply IH; auto.
  Qed.
End Ext.

Lemma zip_args_snd {A} : forall (l : list A) ps rep, exists n, map snd (zip_args ps rep l) = firstn n l /\
  (rep = None -> length (zip_args ps rep l) = Nat.min (length ps) (length l)) /\ (rep <> None -> map snd (zip_args ps rep l) = l).
Proof.
  induction l as [|a l IH]; intros ps rep; cbn.
  - exists 0. rewrite Nat.min_0_r. auto.
  - destruct ps as [|p ps].
    + destruct rep as [p|].
      * destruct (IH [] (Some p)) as (n & H1 & H2 & H3). exists (S n). cbn. rewrite H1. split; auto. split; [discriminate|].
        intros H. rewrite <- H1, H3; auto.
      * exists 0. split; auto. split; [reflexivity|congruence].
    + destruct (IH ps rep) as (n & H1 & H2 & H3). exists (S n). cbn. rewrite H1. split; auto.
      split; [intros E; rewrite H2; auto|]. intros H. rewrite <- H1, H3; auto.
Qed.


Lemma pairs_all (P : term -> Prop) o ts : (forall a b, P a -> P b -> P (TInfix o [a; b])) -> Forall P ts -> Forall P (pairs o ts).
Proof.
  intros H. induction ts as [|a [|b ts] IH]; intros F; cbn; auto. inversion F as [|? ? Ha F']; subst. inversion F' as [|? ? Hb F2]; subst.
  constructor; auto.
Qed.

(* ---------- substitution without capture ---------- *)
Lemma binds_above_binds f p i : binds_above f p i -> binds i f.
Proof.
  induction 1 as [q vs b p i v Hv E|q vs b p i H IH|s args k a p i Hk H IH].
  - eapply bi_here; eauto.
  - apply bi_quant; auto.
  - eapply bi_fun; eauto. eapply nth_error_In; eauto.
Qed.
Lemma sapply_binds : forall f s g i, sapply s f = Some g -> binds i g -> binds i f \/ exists v t, s v = Some t /\ binds i t.
Proof.
  induction f as [v|h args IH|q vs b IH] using formula_ind'; intros s g i H B.
  - right. exists v, g. auto.
  - rewrite sapply_fun in H. destruct (mapM (sapply s) args) as [l|] eqn:E; [|discriminate]. injection H as <-.
    apply mapM_Forall2 in E. inversion B as [| |? ? a Ha Hb]; subst.
    assert (H : exists a0, In a0 args /\ sapply s a0 = Some a).
    { clear -E Ha. induction E as [|x y l1 l2 Hxy _ IHl]; [destruct Ha|]. destruct Ha as [<-|Ha]; [exists x; cbn; auto|].
      destruct (IHl Ha) as (a0 & ? & ?). exists a0. cbn. auto. }
    destruct H as (a0 & Ha0 & Hs). rewrite Forall_forall in IH. destruct (IH a0 Ha0 s a i Hs Hb) as [?|?]; auto.
    left. eapply bi_fun; eauto.
  - cbn in H. destruct (sapply s b) as [b'|] eqn:E; [|discriminate]. injection H as <-.
    inversion B as [? ? ? v Hv Ev|? ? ? Hb|]; subst; [left; eapply bi_here; eauto|].
    destruct (IH s b' i E Hb); auto. left. apply bi_quant. auto.
Qed.

Lemma sapply_free : forall f s g i, (forall v, binds (vid v) f -> s v = Some (FVar v)) -> sapply s f = Some g -> occurs_free i g ->
  exists v t, occurs_free (vid v) f /\ s v = Some t /\ occurs_free i t.
Proof.
  induction f as [v|h args IH|q vs b IH] using formula_ind'; intros s g i Hb H O.
  - exists v, g. split; [apply occurs_free_var|auto].
  - rewrite sapply_fun in H. destruct (mapM (sapply s) args) as [l|] eqn:E; [|discriminate]. injection H as <-.
    apply mapM_Forall2 in E. apply occurs_free_fun_inv in O. destruct O as (a & Ha & O).
    assert (H : exists a0, In a0 args /\ sapply s a0 = Some a).
    { clear -E Ha. induction E as [|x y l1 l2 Hxy _ IHl]; [destruct Ha|]. destruct Ha as [<-|Ha]; [exists x; cbn; auto|].
      destruct (IHl Ha) as (a0 & ? & ?). exists a0. cbn. auto. }
    destruct H as (a0 & Ha0 & Hs). rewrite Forall_forall in IH. destruct (IH a0 Ha0 s a i) as (v & t & H1 & H2 & H3); auto.
    + intros v Hv. apply Hb. eapply bi_fun; eauto.
    + exists v, t. split; [eapply occurs_free_fun; eauto|auto].
  - cbn in H. destruct (sapply s b) as [b'|] eqn:E; [|discriminate]. injection H as <-. apply occurs_free_quant_inv in O. destruct O as [O N].
    destruct (IH s b' i) as (v & t & H1 & H2 & H3); auto; [intros v Hv; apply Hb, bi_quant, Hv|].
    exists v, t. split; [|auto]. apply occurs_free_quant; auto. intros Hin. apply in_map_iff in Hin. destruct Hin as (w & Ew & Hw).
    rewrite Hb in H2 by (eapply bi_here; eauto). injection H2 as <-. apply occurs_free_var_inv in H3. subst i. apply N. rewrite <- Ew. apply in_map, Hw.
Qed.

Lemma maybe_get_seq : forall k a (fs : list formula) i, length fs = k ->
  maybe_get (combine (seq a k) fs) i = if (a <=? i) then nth_error fs (i - a) else None.
Proof.
  induction k as [|k IH]; intros a fs i L; destruct fs as [|f fs]; try discriminate; cbn [seq combine maybe_get].
  - destruct (a <=? i); auto. destruct (i - a); auto.
  - destruct (Nat.eqb a i) eqn:E.
    + apply Nat.eqb_eq in E. subst. rewrite Nat.leb_refl, Nat.sub_diag. reflexivity.
    + apply Nat.eqb_neq in E. injection L as L. rewrite IH by auto. destruct (Nat.leb_spec (S a) i), (Nat.leb_spec a i); try lia; auto.
      replace (i - a) with (S (i - S a)) by lia. reflexivity.
Qed.

Lemma body_meaning {M : structure} k t fs g (rho : env M) : well_scoped k t -> length fs = k ->
  (forall f i, In f fs -> occurs_free i f -> ~ binds i t) ->
  sapply (multiple (combine (seq 0 k) fs)) t = Some g ->
  eval g rho = eval t (fun i => match nth_error fs i with Some f => eval f rho | None => rho i end).
Proof.
  intros [W1 W2] L Hc H. eapply subst_meaning; eauto.
  - intros p v Hp. unfold multiple. rewrite maybe_get_seq by auto. cbn. rewrite Nat.sub_0_r. split.
    + intros B. apply binds_above_binds, W2 in B. rewrite (proj2 (nth_error_None fs (vid v))) by lia. reflexivity.
    + intros B t' i Ht Hi Ba. destruct (nth_error fs (vid v)) as [f|] eqn:E.
      * injection Ht as <-. apply (Hc f i); [eapply nth_error_In; eauto|auto|eapply binds_above_binds; eauto].
      * injection Ht as <-. apply occurs_free_var_inv in Hi. subst i. auto.
  - intros p v t' _ _ Ht. unfold multiple in Ht. rewrite maybe_get_seq in Ht by auto. cbn in Ht. rewrite Nat.sub_0_r in Ht.
    destruct (nth_error fs (vid v)); injection Ht as <-; reflexivity.
Qed.

(* ---------- macros ---------- *)
Lemma numbered_named l : forall b, numbered b -> numbered (b ++ named_vars (length b) l).
Proof.
  induction l as [|[x s] l IH]; intros b Hb; cbn; [rewrite app_nil_r; auto|].
  replace (b ++ (x, mkVar (length b) s) :: named_vars (S (length b)) l) with ((b ++ [(x, mkVar (length b) s)]) ++ named_vars (S (length b)) l)
    by (rewrite <- app_assoc; reflexivity).
  replace (S (length b)) with (length (b ++ [(x, mkVar (length b) s)])) by (rewrite app_length; cbn; lia).
  apply IH. apply numbered_snoc; auto.
Qed.
Lemma named_vars_length l : forall n, length (named_vars n l) = length l.
Proof. induction l as [|[x s] l IH]; intros n; cbn; auto. Qed.
Lemma named_vars_names l : forall n, map fst (named_vars n l) = map fst l.
Proof. induction l as [|[x s] l IH]; intros n; cbn; auto. rewrite IH. auto. Qed.
Lemma named_vars_app l l' : forall n, named_vars n (l ++ l') = named_vars n l ++ named_vars (n + length l) l'.
Proof.
  induction l as [|[x s] l IH]; intros n; cbn; [rewrite Nat.add_0_r; auto|]. rewrite IH. f_equal. f_equal. f_equal. lia.
Qed.
Lemma scope_named {M : structure} l : forall b (rho : env M), numbered b ->
  eqsc M (scope_of (b ++ named_vars (length b) l) rho) (bind_names (scope_of b rho) l (map rho (seq (length b) (length l)))).
Proof.
  induction l as [|[x s] l IH]; intros b rho Hb y; cbn [named_vars bind_names seq map length].
  - rewrite app_nil_r. reflexivity.
  - set (v := mkVar (length b) s).
    replace (b ++ (x, v) :: named_vars (S (length b)) l) with ((b ++ [(x, v)]) ++ named_vars (S (length b)) l)
      by (rewrite <- app_assoc; reflexivity).
    replace (S (length b)) with (length (b ++ [(x, v)])) by (rewrite app_length; cbn; lia).
    rewrite IH by (apply numbered_snoc; auto). apply bind_names_ext. intros z.
    etransitivity; [|exact (scope_snoc b rho x v (rho (length b)) Hb eq_refl z)].
    apply scope_agree; [apply numbered_snoc; auto|]. intros i _. unfold upd. cbn. destruct (Nat.eqb i (length b)) eqn:E; auto.
    apply Nat.eqb_eq in E. subst. auto.
Qed.

Lemma with_bv_done {A} b (m : Parser_Model.M A) s a s' : with_bv b m s = Done a s' ->
  exists s1, m (mkPst (p_heap s) b (p_qs s)) = Done a s1 /\ s' = mkPst (p_heap s1) (p_bv s) (p_qs s1).
Proof.
  unfold with_bv. intros H. apply bind_done in H; destruct H as (b0 & s0 & H0 & H). unfold getbv in H0. injection H0 as <- <-.
  apply bind_done in H; destruct H as (u & s1 & H1 & H). unfold setbv in H1. injection H1 as _ <-.
  apply bind_done in H; destruct H as (a' & s2 & H2 & H). apply bind_done in H; destruct H as (u2 & s3 & H3 & H).
  unfold setbv in H3. injection H3 as _ <-. unfold ret in H. injection H as <- <-. eauto.
Qed.

Lemma seq_values {M : structure} (fs : list formula) (rho : env M) : 
  map (fun i => match nth_error fs i with Some f => eval f rho | None => rho i end) (seq 0 (length fs)) = map (fun f => eval f rho) fs.
Proof.
  assert (G : forall fs (k : nat) h, (forall i, h (k + i) = match nth_error fs i with Some f => eval f rho | None => rho (k + i) end) ->
     map h (seq k (length fs)) = map (fun f => eval f rho) fs).
  { clear fs. induction fs as [|f fs IH]; intros k h H; cbn; auto. f_equal.
    - specialize (H 0). rewrite Nat.add_0_r in H. exact H.
    - apply IH. intros i. specialize (H (S i)). rewrite Nat.add_succ_r in H. exact H. }
  apply G. reflexivity.
Qed.

Lemma apply_substitution_multiple ids fs t g : apply_substitution ids fs t = Some g -> length ids = length fs -> sapply (multiple (combine ids fs)) t = Some g.
Proof. intros H L. destruct (c05 ids fs t) as (_ & _ & _ & _ & _ & C). rewrite <- (proj1 (C L)). exact H. Qed.

(* A property of formulas closed under function application holds of elaborated terms that bind nothing. *)
Definition no_binder (f : formula) : Prop := forall i, ~ binds i f.
Lemma nb_var v : no_binder (FVar v). Proof. intros i H. inversion H. Qed.
Lemma nb_fun s l : Forall no_binder l -> no_binder (FFun s l).
Proof. intros H i B. inversion B; subst. rewrite Forall_forall in H. eapply H; eauto. Qed.

Section NoBinder.
  Variable env : penv.
  Definition goodb (rec : term -> realm -> option proxy -> Parser_Model.M formula) : Prop :=
    forall t r es s f s', flat env t -> rec t r es s = Done f s' -> no_binder f.
  Variable fuel : nat.
  Variable rec : term -> realm -> option proxy -> Parser_Model.M formula.
  Hypothesis Hrec : goodb rec.

  Lemma mapMM_nb {A} (tm : A -> term) (rl : A -> realm) (ex : A -> option proxy) : forall l s fs s', Forall (fun a => flat env (tm a)) l ->
    mapMM (fun a => rec (tm a) (rl a) (ex a)) l s = Done fs s' -> Forall no_binder fs.
  Proof.
    induction l as [|a l IH]; intros s fs s' Hp H; cbn [mapMM] in H.
    - unfold ret in H. injection H as <- <-. constructor.
    - apply bind_done in H; destruct H as (f & s1 & H1 & H). apply bind_done in H; destruct H as (fs' & s2 & H2 & H).
      unfold ret in H. injection H as <- <-. inversion Hp as [|? ? Ht Hl]; subst. constructor; eauto.
  Qed.
  Lemma app_nb r es fc args s f s' : Forall (flat env) args -> parse_application rec r es fc args s = Done f s' -> no_binder f.
  Proof.
    intros Hp H. unfold parse_application in H.
    apply bind_done in H; destruct H as (sg & s0 & H0 & H).
    apply bind_done in H; destruct H as (o & s1 & H1 & H).
    apply bind_done in H; destruct H as (nargs & s2 & H2 & H).
    destruct (zip_args_snd args (sargs sg) (srep sg)) as (n & Hz & _).
    apply mapMM_nb with (tm := snd) (rl := fun _ => match match o with Some s => sort_realm s | None => None end with Some r' => r' | None => r end) (ex := fun x => Some (fst x)) in H2.
    2:{ rewrite <- Forall_map, Hz. apply Forall_firstn'. auto. }
    destruct (args_size_ok (fc_kind fc) (length nargs)); [|discriminate]. cbn [negb] in H.
    apply bind_done in H; destruct H as (o2 & s3 & H3 & H).
    apply bind_done in H; destruct H as ([[f0 fr] hs] & s4 & H4 & H).
    apply bind_done in H; destruct H as (f1 & s5 & H5 & H).
    apply bind_done in H; destruct H as (oo & s6 & H6 & H).
    apply bind_done in H; destruct H as (u & s7 & H7 & H). unfold ret in H. injection H as <- <-.
    assert (N0 : no_binder f0).
    { destruct (fc_name fc) as [[]|]; unfold ret, panic in H4; try discriminate; injection H4 as <- <- <- <-; repeat (apply nb_fun; constructor; auto); apply nb_fun; auto. }
    destruct r, (sym_realm fr), hs as [[]|]; unfold ret, panic in H5; try discriminate; injection H5 as <- <-; auto;
      cbn; apply nb_fun; auto.
  Qed.
  Lemma var_nb r es v s f s' : parse_variable r es v s = Done f s' -> no_binder f.
  Proof.
    intros H. unfold parse_variable in H. destruct (vsort v); cbn [maybe_evaluated_sort] in H; try discriminate; destruct r; cbn beta iota in H; try discriminate;
      match type of H with
      | context [Feval] => apply bind_done in H; destruct H as (u & s1 & H1 & H); unfold ret in H; injection H as <- <-; apply nb_fun; constructor; auto using nb_var
      | _ => destruct es; [apply bind_done in H; destruct H as (u & s1 & H1 & H)|]; unfold ret in H; injection H as <- <-; apply nb_var
      end.
  Qed.
  Lemma newq_nb k vars cs s f s' : new_quantifier fuel k vars cs s = Done f s' -> no_binder f.
  Proof.
    intros H. unfold new_quantifier in H. apply bind_done in H; destruct H as (l & s1 & H1 & H).
    apply bind_done in H; destruct H as (i & s2 & H2 & H). unfold ret in H. injection H as <- <-.
    apply nb_fun. apply Forall_forall. intros a Ha. apply in_map_iff in Ha. destruct Ha as (v & <- & _). apply nb_var.
  Qed.
  Lemma qf_app f l : flat env (TApp f l) <-> Forall (flat env) l.
  Proof. rewrite Forall_forall. split; [intros H; inversion H; auto|constructor; auto]. Qed.
  Lemma qf_infix f l : flat env (TInfix f l) <-> Forall (flat env) l.
  Proof. rewrite Forall_forall. split; [intros H; inversion H; auto|constructor; auto]. Qed.
  Lemma sapply_nb s f g : no_binder f -> (forall v t, s v = Some t -> no_binder t) -> sapply s f = Some g -> no_binder g.
  Proof. intros Hf Hs H i B. destruct (sapply_binds _ _ _ _ H B) as [B'|(v & t & Hv & B')]; [exact (Hf i B')|exact (Hs v t Hv i B')]. Qed.
  Lemma fold_nb g r es : forall ts acc s f s', Forall (flat env) ts -> no_binder acc -> fold_infix rec g r es acc ts s = Done f s' -> no_binder f.
  Proof.
    induction ts as [|t ts IH]; intros acc s f s' Hp Ha H; cbn [fold_infix] in H.
    - unfold ret in H. injection H as <- <-. auto.
    - apply bind_done in H; destruct H as (h & s1 & H1 & H). inversion Hp; subst. apply IH in H; auto.
      apply nb_fun. constructor; auto. constructor; eauto.
  Qed.
  Lemma andor_nb r es b ts s f s' : Forall (flat env) ts -> parse_andor rec r es b ts s = Done f s' -> no_binder f.
  Proof.
    intros Hp H. destruct r; cbn [parse_andor] in H.
    - destruct ts as [|t ts]; [discriminate|]. inversion Hp; subst. apply bind_done in H; destruct H as (h & s1 & H1 & H).
      apply fold_nb in H; auto. eauto.
    - apply app_nb in H; auto.
  Qed.
  Lemma lift_opt_done {A} (o : option A) s a s' : lift_opt o s = Done a s' -> o = Some a /\ s' = s.
  Proof. unfold lift_opt. destruct o; [|discriminate]. unfold ret. intros H. injection H as <- <-. auto. Qed.
  Lemma multiple_nb ids fs v t : Forall no_binder fs -> multiple (combine ids fs) v = Some t -> no_binder t.
  Proof.
    unfold multiple. intros F. revert ids. induction F as [|f fs Hf F IH]; intros [|i ids] H; cbn in H; try (injection H as <-; apply nb_var).
    destruct (Nat.eqb i (vid v)); [injection H as <-; auto|]. eapply IH; eauto.
  Qed.
  Lemma frozen_nb ids fs v t : Forall no_binder fs -> frozen ids fs v = Some t -> no_binder t.
  Proof. intros F H. apply frozen_get_some in H. eapply multiple_nb; eauto. Qed.
  Lemma mapMM_length {A B} (f : A -> Parser_Model.M B) : forall l s fs s', mapMM f l s = Done fs s' -> length fs = length l.
  Proof.
    induction l as [|a l IH]; intros s fs s' H; cbn [mapMM] in H; [unfold ret in H; injection H as <- <-; auto|].
    apply bind_done in H; destruct H as (b & s1 & H1 & H). apply bind_done in H; destruct H as (bs & s2 & H2 & H).
    unfold ret in H. injection H as <- <-. cbn. erewrite IH; eauto.
  Qed.
  Lemma macro_nb m args r es s f s' : flat env (TMac m args) -> parse_macro env rec r es m args s = Done f s' -> no_binder f.
  Proof.
    intros Hp H. unfold parse_macro in H. destruct (e_macros env m) as [mc|] eqn:Em; [|discriminate].
    assert ((forall a, In a args -> flat env a) /\ flat env (mc_body mc)) as [Ha Hb] by (inversion Hp; subst; auto).
    destruct (Nat.eqb (length (mc_args mc)) (length args)) eqn:L; [|discriminate]. apply Nat.eqb_eq in L. cbn [negb] in H.
    apply bind_done in H; destruct H as (fs & s1 & H1 & H). pose proof (mapMM_length _ _ _ _ _ H1) as Lf. rewrite combine_length in Lf.
    apply (mapMM_nb (fun sa : (name * sort) * term => snd sa) (fun sa => match sort_realm (snd (fst sa)) with Some r' => r' | None => r end) (fun sa => Some (PStatic (snd (fst sa))))) in H1.
    2:{ apply Forall_forall. intros [p a] Hx. apply Ha. eapply in_combine_r; eauto. }
    apply bind_done in H; destruct H as (t & s2 & H2 & H). apply with_bv_done in H2. destruct H2 as (s3 & H2 & _). apply Hrec in H2; auto.
    apply lift_opt_done in H. destruct H as [H _]. apply apply_substitution_multiple in H; [|rewrite seq_length; lia].
    eapply sapply_nb; [exact H2| |exact H]. intros v u. apply multiple_nb; auto.
  Qed.
  (** What is between the parentheses of [message(f)] is the name of a step, not a variable. *)
  Lemma const_step r f s h s' : parse_const_var env rec r (Some (PStatic SStep)) f s = Done h s' ->
    (exists v, h = FVar v) \/ parse_app env rec r (Some (PStatic SStep)) f [] s = Done h s'.
  Proof.
    intros H. unfold parse_const_var in H. apply bind_done in H; destruct H as (b & s1 & H1 & H). unfold getbv in H1. injection H1 as <- <-.
    match type of H with context [find ?p (p_bv s)] => destruct (find p (p_bv s)) as [[y v]|] end; [left|right; exact H].
    unfold parse_variable in H. destruct (vsort v); cbn [maybe_evaluated_sort] in H; try discriminate; destruct r; cbn beta iota in H; try discriminate;
      apply bind_done in H; destruct H as (u & s1 & H1 & H); unfold ret in H; injection H as <- <-; try discriminate H1; eexists; reflexivity.
  Qed.
  Lemma app_fun_nb r es f args s g nargs s' : Forall (flat env) args -> parse_app env rec r es f args s = Done (FFun g nargs) s' -> Forall no_binder nargs.
  Proof.
    intros Ha H. unfold parse_app in H. apply bind_done in H; destruct H as (fc & s1 & H1 & H). apply app_nb in H; auto.
    apply Forall_forall. intros a Hin i B. apply (H i). eapply bi_fun; eauto.
  Qed.
  Lemma step_mac_nb b fn args r es s f s' : flat env (TStepMac b fn args) -> parse_step_mac env rec r es b fn args s = Done f s' -> no_binder f.
  Proof.
    intros Hp H. unfold parse_step_mac in H. apply bind_done in H; destruct H as (h & s1 & H1 & H).
    destruct h as [v|g nargs|q vs c]; try discriminate.
    assert (Hn : Forall no_binder nargs).
    { destruct args as [l|].
      - eapply app_fun_nb; [|exact H1]. apply Forall_forall. inversion Hp; auto.
      - apply const_step in H1. destruct H1 as [(v & [=])|H1]. eapply app_fun_nb; [|exact H1]. constructor. }
    destruct (e_functions env fn) as [[g' k nm [st|]]|] eqn:Ef; try discriminate.
    assert (Hb : flat env (if b then st_msg st else st_cond st)) by (inversion Hp; subst; eauto).
    apply bind_done in H; destruct H as (t & s2 & H2 & H). apply with_bv_done in H2. destruct H2 as (s3 & H2 & _). apply Hrec in H2; auto.
    destruct (Nat.eqb (length nargs) (length (st_args st))); [|discriminate]. cbn [negb] in H. apply lift_opt_done in H. destruct H as [H _].
    eapply sapply_nb; [exact H2| |exact H]. intros v u. apply frozen_nb. apply Forall_app. split; auto. constructor; [|constructor].
    apply nb_fun. constructor; [|constructor]. apply nb_fun. auto.
  Qed.
  Lemma step_nb : goodb (parse_step env fuel rec).
  Proof.
    intros t r es s f s' Hp H. destruct t as [x ty t1 t2|c l d|vs c l d|q vs b|x|fn args|o ts|msg fn args|m args]; cbn [parse_step] in H; try (exfalso; inversion Hp; fail).
    - assert (flat env c /\ flat env l /\ flat env d) as (P1 & P2 & P3) by (inversion Hp; auto). unfold parse_if in H.
      apply bind_done in H; destruct H as (c' & s1 & H1 & H). apply bind_done in H; destruct H as (l' & s2 & H2 & H).
      apply bind_done in H; destruct H as (d' & s3 & H3 & H). unfold ret in H. injection H as <- <-.
      apply nb_fun. repeat (apply Forall_cons); [eapply (Hrec c); eauto|eapply (Hrec l); eauto|eapply (Hrec d); eauto|apply Forall_nil].
    - unfold parse_find in H. do 6 (apply bind_done in H; destruct H as (? & ? & _ & H)).
      apply bind_done in H; destruct H as (? & ? & _ & H).
      apply bind_done in H; destruct H as (g & ? & Hg & H). apply newq_nb in Hg. unfold ret in H. injection H as <- <-.
      destruct r; auto. apply nb_fun. auto.
    - unfold parse_const_var in H. apply bind_done in H; destruct H as (b & s1 & H1 & H).
      match type of H with match ?z with _ => _ end _ = _ => destruct z as [[y v]|] end.
      + apply var_nb in H. auto.
      + apply bind_done in H; destruct H as (fc & s2 & H2 & H). apply app_nb in H; auto.
    - unfold parse_app in H. apply bind_done in H; destruct H as (fc & s2 & H2 & H). apply app_nb in H; auto. apply qf_app in Hp. auto.
    - assert (Ha : forall o ts, Forall (flat env) ts -> Forall (flat env) (pairs o ts)).
      { intros o0 ts0. apply pairs_all. intros. apply qf_infix. auto. }
      pose proof Hp as Hl. apply qf_infix in Hl.
      destruct o; cbn [parse_infix] in H.
      + destruct (Nat.eqb (length ts) 2); [eapply app_nb; eauto|]. eapply Hrec; [|exact H]. apply qf_infix. auto.
      + destruct r; [|eapply app_nb; eauto]. eapply Hrec; [|exact H]. apply qf_infix. auto.
      + eapply Hrec; [|exact H]. apply qf_app. constructor; [apply qf_infix; auto|constructor].
      + eapply andor_nb; eauto.
      + eapply andor_nb; eauto.
      + eapply app_nb; eauto.
      + destruct r; [|eapply app_nb; eauto]. eapply Hrec; [|exact H]. apply qf_infix. auto.
    - apply step_mac_nb in H; auto.
    - apply macro_nb in H; auto.
  Qed.
End NoBinder.
Lemma parse_nb env : forall fuel, goodb env (parse env fuel).
Proof.
  induction fuel as [|k IH]; [intros t r es s f s' _ H; discriminate|]. cbn [parse]. apply step_nb. auto.
Qed.
