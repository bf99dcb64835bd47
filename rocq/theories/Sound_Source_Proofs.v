From Coq Require Import List Arith Bool Lia Permutation.
From Verif Require Import Syntax_Model Syntax_Proofs Traversal_Spec Semantics_Spec Semantics_Proofs Order_Model Sort_Model Evaluate_Model Macro_Model Parser_Model Parser_Spec Problem_Model Problem_Spec Problem_Proofs Problem_Props
  File_Model Assumption_Model Assumption_Spec Expander_Spec Expander_Props Sentence_Spec Arity_Spec Source_Model Source_Spec Source_Proofs Source_Props Source_Problem_Spec Source_Problem_Proofs Source_Problem_Props Source_Closed_Spec
  Source_Closed_Proofs Source_Closed_More_Proofs Source_Closed_Props Arity_Source_Spec Arity_Source_Proofs Arity_Source_Props Sound_Spec Sound_Proofs Sound_Source_Spec.
From Verif Require Smt_Model Smt_Spec.
Import ListNotations.

(** ** The steps of an accepted file *)
Lemma step_names l : NoDup (names_of l) -> NoDup (map sa_name (steps_of l)) /\ incl (map sa_name (steps_of l)) (names_of l).
Proof.
  induction l as [|i l IH]; [intros _; split; [constructor|intros ? []]|]. intros H.
  assert (E : names_of (i :: l) = names_of [i] ++ names_of l) by (unfold names_of; cbn [flat_map]; rewrite app_nil_r; reflexivity).
  assert (E' : steps_of (i :: l) = steps_of [i] ++ steps_of l) by (unfold steps_of; cbn [flat_map]; rewrite app_nil_r; reflexivity).
  rewrite E in *. rewrite E', map_app. apply NoDup_app_iff in H as (H1 & H2 & H3). destruct (IH H2) as [N I].
  assert (One : NoDup (map sa_name (steps_of [i])) /\ incl (map sa_name (steps_of [i])) (names_of [i])).
  { destruct i; cbn; (split; [repeat constructor; intros []|]); try (intros ? []; fail). apply incl_refl. }
  destruct One as [N1 I1]. split.
  - apply NoDup_app_iff. split; [exact N1|]. split; [exact N|]. intros x Hx Hx'. apply (H3 x); [apply I1, Hx|apply I, Hx'].
  - intros x Hx. apply in_or_app. apply in_app_iff in Hx as [Hx|Hx]; [left; apply I1, Hx|right; apply I, Hx].
Qed.
Lemma completed_names bs bf kw l : well_declared bs bf kw l -> NoDup (names_of (completed l)).
Proof.
  intros W. unfold completed. destruct (in_dec Nat.eq_dec 6 (names_of l)) as [Hi|Hi]; [apply (wd_names _ _ _ _ W)|].
  unfold names_of. rewrite flat_map_app. apply NoDup_app_iff. split; [apply (wd_names _ _ _ _ W)|]. split; [repeat constructor; intros []|].
  intros x Hx [<-|[]]. exact (Hi Hx).
Qed.
Lemma steps_told_apart bs bf kw sh l so il p qs w : builtins bs bf kw -> declare_all bs bf kw sh l = DOk so -> problem_read l (so_env so) qs il p ->
  gp_steps (wp_gen w) = pa_steps p -> told_apart w.
Proof.
  intros B D R E. unfold told_apart. rewrite E. clear E w. pose proof (C97_declared _ _ _ _ _ _ B D) as HD. destruct (accepted_only bs bf kw sh l B so D) as (W & _ & _).
  destruct (step_names _ (completed_names _ _ _ _ W)) as [N I]. destruct (pr_steps _ _ _ _ _ R) as (a0 & as' & P & _ & F).
  assert (N' : NoDup (map sa_name (a0 :: as'))) by (eapply Permutation_NoDup; [apply Permutation_map, Permutation_sym, P|exact N]).
  assert (I' : incl (map sa_name (a0 :: as')) (names_of (completed l))).
  { intros x Hx. apply I. eapply Permutation_in; [apply Permutation_map, P|exact Hx]. }
  remember (a0 :: as') as al eqn:Eal. clear Eal P N I. split.
  - induction F as [|a s al ps (j & st & S & T) F IH]; [constructor|]. cbn [map] in *. inversion_clear N' as [|? ? Na Nr]. constructor.
    + intros Hj. apply in_map_iff in Hj as (s2 & Es & Hs). destruct (Forall2_right _ _ _ _ F Hs) as (a2 & Ha2 & j2 & st2 & S2 & T2).
      apply Na. destruct S as ((fc & L & Y & _) & _). destruct S2 as ((fc2 & L2 & Y2 & _) & _).
      assert (sa_name a2 = sa_name a) as <-; [|apply in_map; exact Ha2].
      eapply (de_distinct _ _ _ _ HD); [apply I'; right; apply in_map; exact Ha2|apply I'; left; reflexivity|exact L2|exact L|].
      rewrite Y, Y2. rewrite <- (sr_fun _ _ _ _ _ T2), <- (sr_fun _ _ _ _ _ T), Es. reflexivity.
    + apply IH; [exact Nr|]. intros x Hx. apply I'. right. exact Hx.
  - intros s Hs. destruct (Forall2_right _ _ _ _ F Hs) as (a & _ & j & st & _ & T). apply (sr_ids _ _ _ _ _ T).
Qed.

(** ** The problems of a file *)
Lemma yielded_parts p b k pk : yielded k (pbl_new p b) = Some pk ->
  incl (pb_assertions pk) (TRUE :: pb_assertions p ++ pb_lemmas p) /\ In (pb_query pk) (pb_query p :: pb_lemmas p) /\ incl (pb_lemmas pk) (pb_query p :: pb_lemmas p).
Proof.
  destruct b.
  - intros H. destruct (Nat.le_gt_cases k (List.length (pb_lemmas p))) as [Hk|Hk]; [|unfold pbl_new in H; rewrite yielded_past in H; [discriminate|rewrite app_length; cbn; lia]].
    rewrite iterate_lemmas in H by exact Hk. apply (f_equal (fun o => match o with Some x => x | None => pk end)) in H. subst pk. cbn [pb_assertions pb_query pb_lemmas].
    assert (I : incl (pb_lemmas p ++ [pb_query p]) (pb_query p :: pb_lemmas p)).
    { intros x Hx. apply in_app_iff in Hx as [Hx|[Hx|[]]]; [right; exact Hx|left; exact Hx]. }
    split; [|split].
    + intros x Hx. apply in_app_iff in Hx as [Hx|[Hx|Hx]]; [right; apply in_or_app; left; exact Hx|left; exact Hx|right; apply in_or_app; right].
      rewrite <- (firstn_skipn k). apply in_or_app. left. exact Hx.
    + apply I, nth_In. rewrite app_length. cbn. lia.
    + intros x Hx. apply I. rewrite <- (firstn_skipn (S k)). apply in_or_app. right. exact Hx.
  - destruct k as [|k]; [|destruct k; discriminate]. cbn. intros [= <-]. split; [intros x Hx; right; apply in_or_app; left; exact Hx|]. split; [left; reflexivity|intros x Hx; right; exact Hx].
Qed.
Lemma asking_assembled p w b k pk : assembled p w -> yielded k (pbl_new (mkProblem (pa_asserts p) (pa_lemmas p) (pa_query p)) b) = Some pk -> assembled p (asking w pk).
Proof.
  intros A H. apply yielded_parts in H as (H1 & H2 & H3). constructor; cbn; [apply A|apply A|exact H1|exact H2|apply A|exact H3|reflexivity].
Qed.
Lemma direct_true : direct TRUE.
Proof. intros p s args H. inversion H as [|? ? ? ? ? ? Hn|]; subst; [intros []|]. destruct i; discriminate Hn. Qed.
Lemma settled_true sig table w : settled sig table w TRUE.
Proof. left. intros H. inversion H. Qed.
Lemma shadowing_of bs bf kw sh l so : builtins bs bf kw -> declare_all bs bf kw sh l = DOk so -> e_shadowing (penv_of (so_env so)) = sh.
Proof. intros B D. destruct (accepted_only bs bf kw sh l B so D) as (_ & E & _). rewrite E. cbn [so_env full_source]. unfold full_env. rewrite env_all_eq. reflexivity. Qed.

Lemma source_sound bs bf kw l so es il fuel p s' sig r w b K ground crypto skolem :
  read_from bs bf kw l so es il fuel p s' sig w -> direct_parts (p_qs s') p ->
  weaker ground -> (forall k, invariant (skolems_of sig (table_of (p_qs s')) w (skolem k)) K) -> all_proved sig (table_of (p_qs s')) r K ground w p b crypto skolem ->
  forall M qsem mval, K M -> execution sig (table_of (p_qs s')) r w M -> (forall k, assumed (skolems_of sig (table_of (p_qs s')) w (skolem k)) M (crypto k)) -> model_of (penv_of (so_env so)) (p_qs s') l M qsem mval ->
  forall t, (In t (queries_of l) \/ b = true /\ il = false /\ In t (lemmas_of l)) -> dtest M (value (penv_of (so_env so)) qsem mval t REvaluated (fun _ => None)) = true.
Proof.
  intros [B D T G C P H [Bl F] A Ca S U Se] Di HG HK Pr M qsem mval HM HE Hc Mo t Ht.
  destruct (C102_problem_partial _ _ _ _ _ _ _ _ _ _ _ B D G P H) as [R _].
  pose proof (shadowing_of _ _ _ _ _ _ B D) as Sh. rewrite Forall_forall in C.
  pose proof (steps_told_apart _ _ _ _ _ _ _ _ _ w B D R (am_steps _ _ A)) as Ta.
  assert (Val : forall t f, formula_read (penv_of (so_env so)) (p_qs s') t f -> counted (penv_of (so_env so)) t -> forall rho : Semantics_Spec.env M,
    eval f rho = value (penv_of (so_env so)) qsem mval t REvaluated (fun _ => None)).
  { intros t0 f [_ E] Ct rho. apply E; [exact Sh|exact Ct|apply Mo|apply Mo|apply Mo]. }
  destruct (ex_inhabited _ _ _ _ _ HE) as [some _]. set (rho := fun _ : nat => some SBool).
  assert (Ho : forall x, In x (pa_orders p) -> forall rho : Semantics_Spec.env M, holds (order_axiom x) rho).
  { intros x Hx rho'. destruct (Forall2_right _ _ _ _ (pr_orders _ _ _ _ _ R) Hx) as (o & Ho & _ & E).
    assert (Hi : In (IOrder o) l) by (apply in_flat_map in Ho as (i & Hi & Ho); destruct i; try (destruct Ho; fail); destruct Ho as [->|[]]; exact Hi).
    destruct (C _ Hi) as (N & C1 & C2 & C3). unfold holds. rewrite (E Sh N C1 C2 C3 M qsem mval (mo_calls _ _ _ _ _ _ Mo) (mo_binders _ _ _ _ _ _ Mo) (mo_table _ _ _ _ _ _ Mo)).
    apply (mo_orders _ _ _ _ _ _ Mo), Ho. }
  assert (Ha : forall a, In a (pa_asserts p) -> forall rho : Semantics_Spec.env M, holds a rho).
  { intros a Hx rho'. destruct (Forall2_right _ _ _ _ (pr_asserts _ _ _ _ _ R) Hx) as (o & Ho' & E).
    assert (Hi : In (IAssert o) l) by (apply in_flat_map in Ho' as (i & Hi & Hx'); destruct i; try (destruct Hx'; fail); destruct Hx' as [->|[]]; exact Hi).
    unfold holds. rewrite (Val _ _ E (C _ Hi)). apply (mo_asserts _ _ _ _ _ _ Mo), Ho'. }
  assert (One : forall k pk, yielded k (pbl_new (mkProblem (pa_asserts p) (pa_lemmas p) (pa_query p)) b) = Some pk -> follows (fun X => X = M) (pb_assertions pk) (pb_query pk)).
  { intros k pk Hy X -> rho' Has. pose proof (asking_assembled _ _ _ _ _ A Hy) as A'. destruct (yielded_parts _ _ _ _ Hy) as (I1 & I2 & _). cbn [pb_assertions pb_lemmas pb_query] in I1, I2.
    assert (Iall : forall f, In f (pb_assertions pk ++ [pb_query pk]) -> f = TRUE \/ In f (pa_query p :: pa_asserts p ++ pa_lemmas p)).
    { intros f Hf. apply in_app_iff in Hf as [Hf|[<-|[]]].
      - apply I1 in Hf as [<-|Hf]; [left; reflexivity|right; right; exact Hf].
      - destruct I2 as [I2|I2]; right; [left; exact I2|right; apply in_or_app; right; exact I2]. }
    destruct (Pr k pk Hy) as (vf & defined & pre & anc & scmp & mfuel & fuel' & nb & n & split & le & ds & axs & out & xs & kind & o & file & HW & Hg & Ec & Hans & Hfr & HX & HF & HUn).
    refine (problem_sound sig (table_of (p_qs s')) r (asking w pk) _ _ _ _ vf defined pre anc scmp mfuel fuel' nb (skolem k) n split le ds axs xs kind o file K ground
      HW _ Hans Hfr _ HX HF HG (HK k) HUn M HM _ _ rho' _ Has).
    - destruct U as [U1 U2 U3]. constructor; [exact U1|exact U2|exact U3].
    - exact Ta.
    - constructor; [apply (dp_quants _ _ Di)| |].
      + cbn. rewrite (am_orders _ _ A). apply (dp_orders _ _ Di).
      + cbn. intros f Hf. destruct (Iall _ Hf) as [->|Hf']; [apply direct_true|apply (dp_formulas _ _ Di), Hf'].
    - eapply C101_scoped_partial; eauto.
    - eapply C108_source; eauto.
    - cbn. intros f Hf. destruct (Iall _ Hf) as [->|Hf']; [apply settled_true|]. destruct (Se _ Hf') as [Hs|Hs]; [left; exact Hs|right; exact Hs].
    - destruct HE. constructor; assumption.
    - intros out' Ho'. rewrite Ho' in Hg. apply (f_equal (fun o => match o with Some x => x | None => out end)) in Hg. subst out'. rewrite <- Ec. apply Hc.
    - cbn. rewrite (am_orders _ _ A). intros x Hx. apply Ho, Hx. }
  assert (Fo : follows (fun X => X = M) (pa_asserts p) (pa_query p) /\ (b = true -> forall f, In f (pa_lemmas p) -> follows (fun X => X = M) (pa_asserts p) f)).
  { destruct b.
    - destruct (C41_sound _ _ One) as [O1 O2]. split; [exact O1|]. intros _. exact O2.
    - split; [|discriminate]. apply (One 0 _ eq_refl). }
  destruct Fo as [Fq Fl]. destruct Ht as [Ht|(Hb & Hil & Ht)].
  - destruct (pr_query _ _ _ _ _ R) as (q & Eq & Rq). rewrite Eq in Ht. destruct Ht as [<-|[]].
    assert (Hi : In (IQuery q) l).
    { assert (Hq : In q (queries_of l)) by (rewrite Eq; left; reflexivity). apply in_flat_map in Hq as (i & Hi & Hx'). destruct i; try (destruct Hx'; fail). destruct Hx' as [->|[]]. exact Hi. }
    rewrite <- (Val _ _ Rq (C _ Hi) rho). apply (Fq M eq_refl). intros a Hx. apply Ha, Hx.
  - pose proof (pr_lemmas _ _ _ _ _ R) as Rl. rewrite Hil in Rl. destruct (Forall2_left _ _ _ _ Rl Ht) as (f & Hf & Rf).
    assert (Hi : In (ILemma t) l) by (apply in_flat_map in Ht as (i & Hi & Hx'); destruct i; try (destruct Hx'; fail); destruct Hx' as [->|[]]; exact Hi).
    rewrite <- (Val _ _ Rf (C _ Hi) rho). apply (Fl Hb f Hf M eq_refl). intros a Hx. apply Ha, Hx.
Qed.
