From Coq Require Import List Arith Bool Lia.
From Verif Require Import Syntax_Model Syntax_Proofs Traversal_Spec Semantics_Spec.
Import ListNotations.

Section Facts.
  Variable M : structure.

  Lemma all_false s p : all_ M s p = false <-> ~ (forall d, dom M s d -> p d = true).
  Proof.
    rewrite <- all_spec. destruct (all_ M s p); intuition congruence.
  Qed.

  Lemma all_ext s p q : (forall d, dom M s d -> p d = q d) -> all_ M s p = all_ M s q.
  Proof.
    intros H. apply eq_true_iff_eq. rewrite !all_spec. split; intros Hp d Hd.
    - rewrite <- H; auto.
    - rewrite H; auto.
  Qed.

  Lemma ex_ext s p q : (forall d, dom M s d -> p d = q d) -> @ex_ M s p = @ex_ M s q.
  Proof. intros H. unfold ex_. f_equal. apply all_ext. intros d Hd. rewrite H; auto. Qed.

  (** An element found by a quantifier exists up to double negation only; the weak form suffices. *)
  Lemma ex_intro_ s p d : dom M s d -> p d = true -> @ex_ M s p = true.
  Proof.
    intros Hd Hp. unfold ex_. destruct (all_ M s (fun d => negb (p d))) eqn:E; [|reflexivity].
    rewrite all_spec in E. specialize (E d Hd). rewrite Hp in E. discriminate.
  Qed.

  Lemma ex_elim_ s p (b : bool) : @ex_ M s p = true -> (forall d, dom M s d -> p d = true -> b = true) -> b = true.
  Proof.
    intros He H. destruct b; [reflexivity|]. exfalso. unfold ex_ in He.
    rewrite negb_true_iff in He. apply all_false in He. apply He. intros d Hd.
    destruct (p d) eqn:E; [|reflexivity]. specialize (H d Hd E). discriminate.
  Qed.

  Lemma deq_refl (a : D M) : deq M a a = true.
  Proof. apply deq_spec; reflexivity. Qed.

  Lemma holds_meq a b rho : holds (M:=M) (meq a b) rho <-> eval (M:=M) a rho = eval b rho.
  Proof. unfold holds, meq; cbn. rewrite dtest_inj. apply deq_spec. Qed.

  Lemma holds_and_list l rho : holds (M:=M) (ands l) rho <-> Forall (fun f => holds (M:=M) f rho) l.
  Proof.
    unfold holds, ands; cbn. rewrite dtest_inj, forallb_forall, Forall_forall. split; intros H x Hx.
    - apply H. apply in_map_iff. eauto.
    - apply in_map_iff in Hx as (f & <- & Hf). auto.
  Qed.

  Lemma dtest_ors l rho : dtest M (eval (ors l) rho) = existsb (fun f => dtest M (eval f rho)) l.
  Proof. unfold ors; cbn. rewrite dtest_inj. induction l; cbn; congruence. Qed.

  Lemma dtest_ands l rho : dtest M (eval (ands l) rho) = forallb (fun f => dtest M (eval f rho)) l.
  Proof. unfold ands; cbn. rewrite dtest_inj. induction l; cbn; congruence. Qed.

  Lemma dtest_imp a b rho : dtest M (eval (fimp a b) rho) = implb (dtest M (eval a rho)) (dtest M (eval b rho)).
  Proof. cbn. apply dtest_inj. Qed.

  Lemma dtest_not a rho : dtest M (eval (fnot a) rho) = negb (dtest M (eval a rho)).
  Proof. cbn. apply dtest_inj. Qed.

  Lemma holds_imp a b rho : holds (M:=M) (fimp a b) rho <-> (holds (M:=M) a rho -> holds (M:=M) b rho).
  Proof.
    unfold holds. rewrite dtest_imp. destruct (dtest M (eval a rho)), (dtest M (eval b rho)); cbn; intuition congruence.
  Qed.

  Lemma holds_not a rho : holds (M:=M) (fnot a) rho <-> ~ holds (M:=M) a rho.
  Proof.
    unfold holds. rewrite dtest_not. destruct (dtest M (eval a rho)); cbn; intuition congruence.
  Qed.

  (** Quantification over lists. *)
  Lemma quantify_ext q : forall vs rho k k',
      (forall rho', k rho' = k' rho') -> quantify (M:=M) q vs rho k = quantify q vs rho k'.
  Proof.
    induction vs as [|v vs IH]; intros rho k k' H; cbn; [auto|].
    destruct q; [apply ex_ext|apply all_ext]; intros d _; apply IH; auto.
  Qed.

  (** Two environments that agree on the ids [k]/[k'] look at. *)
  Lemma quantify_agree q (P : nat -> Prop) : forall vs rho rho' k k',
      (forall i, P i -> ~ In i (map vid vs) -> rho i = rho' i) ->
      (forall r r', (forall i, P i -> r i = r' i) -> k r = k' r') ->
      quantify (M:=M) q vs rho k = quantify q vs rho' k'.
  Proof.
    induction vs as [|v vs IH]; intros rho rho' k k' Hr Hk; cbn.
    - apply Hk. intros i Hi. apply Hr; auto.
    - assert (Hd : forall d, quantify (M:=M) q vs (upd rho (vid v) d) k = quantify q vs (upd rho' (vid v) d) k').
      { intros d. apply IH; [|exact Hk]. intros i Hi Hn. unfold upd.
        destruct (Nat.eqb_spec i (vid v)); [reflexivity|]. apply Hr; auto. cbn. intros [?|?]; auto. }
      destruct q; [apply ex_ext|apply all_ext]; intros d _; apply Hd.
  Qed.

  Lemma holds_forall vs f rho :
    holds (M:=M) (FQ QForall vs f) rho <->
    (forall ds, Forall2 (fun v d => dom M (vsort v) d) vs ds ->
       holds (M:=M) f (fold_left (fun r vd => upd r (vid (fst vd)) (snd vd)) (combine vs ds) rho)).
  Proof.
    unfold holds; cbn. rewrite dtest_inj. revert rho. induction vs as [|v vs IH]; intros rho; cbn.
    - split.
      + intros H ds Hds. inversion Hds; subst. exact H.
      + intros H. apply (H []). constructor.
    - rewrite all_spec. split.
      + intros H ds Hds. inversion Hds as [|? d ? ds' Hd Hds']; subst. cbn.
        specialize (H d Hd). rewrite IH in H. apply H; auto.
      + intros H d Hd. apply IH. intros ds Hds. apply (H (d :: ds)). constructor; auto.
  Qed.

  (** Introduction form; elimination for existentials only yields double negation, see [holds_exists_neg]. *)
  Lemma holds_exists_intro vs f rho ds :
    Forall2 (fun v d => dom M (vsort v) d) vs ds ->
    holds (M:=M) f (fold_left (fun r vd => upd r (vid (fst vd)) (snd vd)) (combine vs ds) rho) ->
    holds (M:=M) (FQ QExists vs f) rho.
  Proof.
    unfold holds; cbn. rewrite dtest_inj. intros H. revert rho. induction H as [|v d vs ds Hd _ IH]; intros rho H; cbn in *.
    - exact H.
    - apply ex_intro_ with d; auto.
  Qed.

  Lemma holds_exists_elim vs f rho (b : bool) :
    holds (M:=M) (FQ QExists vs f) rho ->
    (forall ds, Forall2 (fun v d => dom M (vsort v) d) vs ds ->
       holds (M:=M) f (fold_left (fun r vd => upd r (vid (fst vd)) (snd vd)) (combine vs ds) rho) -> b = true) ->
    b = true.
  Proof.
    unfold holds; cbn. rewrite dtest_inj. revert rho. induction vs as [|v vs IH]; intros rho He H; cbn in *.
    - apply (H []); auto.
    - eapply ex_elim_; [exact He|]. intros d Hd He'. eapply IH; [exact He'|].
      intros ds Hds. apply (H (d :: ds)). constructor; auto.
  Qed.

  Lemma holds_mk_forall vs f rho : holds (M:=M) (mk_forall vs f) rho <-> holds (M:=M) (FQ QForall vs f) rho.
  Proof. destruct vs; [|reflexivity]. unfold holds; cbn. rewrite dtest_inj. reflexivity. Qed.
  Lemma holds_mk_exists vs f rho : holds (M:=M) (mk_exists vs f) rho <-> holds (M:=M) (FQ QExists vs f) rho.
  Proof. destruct vs; [|reflexivity]. unfold holds; cbn. rewrite dtest_inj. reflexivity. Qed.

  (** Coincidence: the value only depends on the free ids. *)
  Lemma occurs_free_var v : occurs_free (vid v) (FVar v).
  Proof. exists [], v. repeat split; [constructor|]. intros H; inversion H. Qed.
  Lemma occurs_free_fun i s args a : In a args -> occurs_free i a -> occurs_free i (FFun s args).
  Proof.
    intros Ha (p & v & Hp & Hv & Hb). apply In_nth_error in Ha as (k & Hk).
    exists (k :: p), v. repeat split; auto; [econstructor; eauto|].
    intros H; inversion H; subst. apply Hb. congruence.
  Qed.
  Lemma occurs_free_quant i q vs b : ~ In i (map vid vs) -> occurs_free i b -> occurs_free i (FQ q vs b).
  Proof.
    intros Hn (p & v & Hp & Hv & Hb). exists (0 :: p), v. repeat split; auto; [constructor; auto|].
    intros H; inversion H; subst; auto. apply Hn. apply in_map_iff. eauto.
  Qed.

  Lemma eval_agree : forall f rho rho',
      (forall i, occurs_free i f -> rho i = rho' i) -> eval (M:=M) f rho = eval f rho'.
  Proof.
    induction f as [v|s args IH|q vs b IH] using formula_ind'; intros rho rho' H; cbn.
    - apply H, occurs_free_var.
    - f_equal. rewrite Forall_forall in IH. apply map_ext_in. intros a Ha. apply IH; auto.
      intros i Hi. apply H. eapply occurs_free_fun; eauto.
    - f_equal. apply quantify_agree with (P := fun i => occurs_free i b).
      + intros i Hi Hn. apply H. apply occurs_free_quant; auto.
      + intros r r' Hr. f_equal. apply IH. exact Hr.
  Qed.
End Facts.

(** A finite structure: elements [0..n], truth test [<> 0], every sort ranges over everything. *)
Lemma fin_all_spec n p : fin_all n p = true <-> forall d, d <= n -> p d = true.
Proof.
  unfold fin_all. rewrite forallb_forall. split; intros H d Hd.
  - apply H. apply in_seq. lia.
  - apply H. apply in_seq in Hd. lia.
Qed.

Definition b2n (b : bool) : nat := if b then 1 else 0.
Definition n2b (n : nat) : bool := negb (Nat.eqb n 0).
Lemma n2b_b2n b : n2b (b2n b) = b.
Proof. destruct b; reflexivity. Qed.

Definition finM (n : nat) (fi : fsym -> list nat -> nat) : structure :=
  mkStructure nat (fun _ d => d <= n) b2n n2b n2b_b2n Nat.eqb Nat.eqb_eq
    (fun _ p => fin_all n p) (fun _ p => fin_all_spec n p) fi.
