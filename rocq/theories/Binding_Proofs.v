(** Quantified lists of variables as lists of values. *)
From Coq Require Import List Arith Bool Lia FinFun.
From Verif Require Import Syntax_Model Subst_Model Traversal_Spec Semantics_Spec Semantics_Proofs Subst_Proofs Order_Model Order_Spec.
Import ListNotations.

Section Binding.
  Context {M : structure}.

  Definition bindv (rho : env M) (vs : list var) (ds : list (D M)) : env M :=
    fold_left (fun r vd => upd r (vid (fst vd)) (snd vd)) (combine vs ds) rho.

  Lemma bindv_cons rho v vs d ds : bindv rho (v :: vs) (d :: ds) = bindv (upd rho (vid v) d) vs ds.
  Proof. reflexivity. Qed.

  Lemma bindv_other vs : forall rho ds i, ~ In i (map vid vs) -> bindv rho vs ds i = rho i.
  Proof.
    induction vs as [|v vs IH]; intros rho [|d ds] i Hi; try reflexivity.
    rewrite bindv_cons, IH; [|intros H; apply Hi; right; auto]. unfold upd.
    destruct (Nat.eqb_spec i (vid v)) as [->|]; [|reflexivity]. exfalso. apply Hi. left; auto.
  Qed.

  Lemma bindv_values vs : forall rho ds, NoDup (map vid vs) -> length vs = length ds ->
    map (fun v => bindv rho vs ds (vid v)) vs = ds.
  Proof.
    induction vs as [|v vs IH]; intros rho [|d ds] Hn Hl; try discriminate; [reflexivity|].
    cbn [map] in *. inversion Hn as [|? ? Hv Hn']; subst. injection Hl as Hl. rewrite bindv_cons. f_equal; [|apply IH; auto].
    rewrite bindv_other by auto. unfold upd. rewrite Nat.eqb_refl. reflexivity.
  Qed.

  Definition typed (vs : list var) (ds : list (D M)) : Prop := Forall2 (fun v d => dom M (vsort v) d) vs ds.

  Lemma typed_length vs ds : typed vs ds -> length vs = length ds.
  Proof. induction 1; cbn; congruence. Qed.
  Lemma typed_args vs ds : typed vs ds <-> args_of M (map vsort vs) ds.
  Proof.
    unfold typed, args_of. split.
    - induction 1; constructor; auto.
    - revert ds. induction vs as [|v vs IH]; intros ds H; inversion H; subst; constructor; auto.
  Qed.

  Lemma holds_all vs f rho : holds (M:=M) (mk_forall vs f) rho <-> forall ds, typed vs ds -> holds (M:=M) f (bindv rho vs ds).
  Proof. rewrite holds_mk_forall. apply holds_forall. Qed.
  Lemma holds_ex_intro vs f rho ds : typed vs ds -> holds (M:=M) f (bindv rho vs ds) -> holds (M:=M) (mk_exists vs f) rho.
  Proof. rewrite holds_mk_exists. apply holds_exists_intro. Qed.
  Lemma holds_ex_elim vs f rho : holds (M:=M) (mk_exists vs f) rho ->
    (forall ds, typed vs ds -> ~ holds (M:=M) f (bindv rho vs ds)) -> False.
  Proof.
    rewrite holds_mk_exists. intros H Hn. enough (false = true) by discriminate.
    eapply holds_exists_elim; [exact H|]. intros ds Hds Hf. exfalso. eapply Hn; eauto.
  Qed.
  Lemma holds_dec (f : formula) rho : {holds (M:=M) f rho} + {~ holds (M:=M) f rho}.
  Proof. unfold holds. destruct (dtest M (eval f rho)); [left; auto|right; congruence]. Qed.

  Lemma eval_fv_step k vs rho : eval (M:=M) (fv (Fstep k) vs) rho = inst M k (map (fun v => rho (vid v)) vs).
  Proof. unfold fv, inst. cbn. rewrite map_map. reflexivity. Qed.

  Lemma map_vid_add k vs : map vid (map (fun v => var_add v k) vs) = map (fun i => i + k) (map vid vs).
  Proof. rewrite !map_map. reflexivity. Qed.
  Lemma NoDup_shift k l : NoDup l -> NoDup (map (fun i => i + k) l).
  Proof. intros H. apply Injective_map_NoDup; auto. intros a b E. lia. Qed.
  Lemma vsort_add k vs : map vsort (map (fun v => var_add v k) vs) = map vsort vs.
  Proof. rewrite map_map. reflexivity. Qed.

  Lemma max_var_gt vs v : In v vs -> vid v < max_var vs.
  Proof. apply (max_var_or_max_gt vs 0). Qed.
  Lemma max_var_not_in vs k : max_var vs <= k -> ~ In k (map vid vs).
  Proof. intros H Hin. apply in_map_iff in Hin as (v & <- & Hv). apply max_var_gt in Hv. lia. Qed.
  Lemma shifted_apart vs ws i : In i (map vid vs) -> ~ In i (map vid (map (fun v => var_add v (max_var vs)) ws)).
  Proof.
    intros Hi H. rewrite map_vid_add in H. apply in_map_iff in H as (j & <- & _).
    apply in_map_iff in Hi as (v & E & Hv). apply max_var_gt in Hv. lia.
  Qed.
End Binding.
