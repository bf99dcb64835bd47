From Coq Require Import List Arith Bool Lia.
From Verif Require Import Syntax_Model Syntax_Proofs Traversal_Model Traversal_Spec Traversal_Proofs Semantics_Spec Subst_Spec Subst_Model Semantics_Proofs Subst_Proofs
  Order_Model Order_Spec Order_Proofs Macro_Model Binding_Proofs Macro_Proofs Unify_Model Unify_Proofs Graph_Model Graph_Proofs Expander_Model Expander_Spec Expander_Proofs Expander_Props
  Exists_Model Exists_Spec Exists_Proofs Search_Model Search_Spec.
Import ListNotations.

(** *** The pile *)
Section Pile.
  Context {U P : Type} (step : formula -> P -> option (list (content U P))).
  Inductive pushes : content U P -> content U P -> Prop :=
  | pu_here c : pushes c c
  | pu_step f p l c d : step f p = Some l -> In c l -> pushes c d -> pushes (Next f p) d.
  Definition no_panic (c : content U P) : Prop := forall f p, pushes c (Next f p) -> step f p <> None.

  Lemma pushes_next f p l d : step f p = Some l -> (pushes (Next f p) d <-> d = Next f p \/ exists c, In c l /\ pushes c d).
  Proof.
    intros E. split.
    - intros H. inversion H as [|? ? l' c ? E' Hc Hp]; subst; [auto|]. rewrite E in E'. injection E' as <-. eauto.
    - intros [->|(c & Hc & Hp)]; [constructor|]. econstructor; eauto.
  Qed.
  Lemma pushes_result r d : pushes (Resutl r) d <-> d = Resutl r.
  Proof. split; [inversion 1; reflexivity|intros ->; constructor]. Qed.

  Lemma ppile_next_spec n : forall pile o, ppile_next step n pile = Some o ->
    match o with
    | None => forall c, In c pile -> no_panic c /\ forall r, ~ pushes c (Resutl r)
    | Some (r0, rest) => (Forall no_panic rest -> Forall no_panic pile) /\
        forall r, (exists c, In c pile /\ pushes c (Resutl r)) <-> r = r0 \/ exists c, In c rest /\ pushes c (Resutl r)
    end.
  Proof.
    induction n as [|n IH]; intros pile o; cbn; [discriminate|]. destruct pile as [|[r0|f p] rest].
    - intros [= <-] c [].
    - intros [= <-]. split.
      + intros H. constructor; auto. intros f p Hp. rewrite pushes_result in Hp. discriminate.
      + intros r. split.
        * intros (c & [<-|Hc] & Hp); [rewrite pushes_result in Hp; injection Hp as <-; auto|right; eauto].
        * intros [->|(c & Hc & Hp)]; [exists (Resutl r0); split; [left; reflexivity|constructor]|exists c; cbn; auto].
    - destruct (step f p) as [l|] eqn:E; [|discriminate]. intros H. apply IH in H.
      assert (Hin : forall c, In c (rev l ++ rest) <-> In c l \/ In c rest) by (intros c; rewrite in_app_iff, <- in_rev; reflexivity).
      destruct o as [[r0 rest']|].
      + destruct H as [H1 H2]. split.
        * intros Hr. apply H1 in Hr. rewrite Forall_forall in Hr. apply Forall_forall. intros c [<-|Hc].
          -- intros f' p' Hp. apply (pushes_next f p l _ E) in Hp as [Hp|(c & Hc & Hp)]; [injection Hp as -> ->; congruence|].
             apply (Hr c); [apply Hin; auto|exact Hp].
          -- apply Hr, Hin; auto.
        * intros r. rewrite <- H2. split.
          -- intros (c & [<-|Hc] & Hp).
             ++ apply (pushes_next f p l _ E) in Hp as [Hp|(c & Hc & Hp)]; [discriminate|]. exists c. rewrite Hin. auto.
             ++ exists c. rewrite Hin. auto.
          -- intros (c & Hc & Hp). apply Hin in Hc as [Hc|Hc].
             ++ exists (Next f p). split; [left; reflexivity|]. econstructor; eauto.
             ++ exists c. cbn; auto.
      + intros c [<-|Hc].
        * split.
          -- intros f' p' Hp. apply (pushes_next f p l _ E) in Hp as [Hp|(c & Hc & Hp)]; [injection Hp as -> ->; congruence|].
             apply (H c); [apply Hin; auto|exact Hp].
          -- intros r Hp. apply (pushes_next f p l _ E) in Hp as [Hp|(c & Hc & Hp)]; [discriminate|]. eapply (H c); [apply Hin; auto|exact Hp].
        * apply H, Hin; auto.
  Qed.

  Lemma ppile_collect_spec n : forall pile out, ppile_collect step n pile = Some out ->
    Forall no_panic pile /\ forall r, In r out <-> exists c, In c pile /\ pushes c (Resutl r).
  Proof.
    induction n as [|n IH]; intros pile out; [discriminate|]. cbn [ppile_collect].
    destruct (ppile_next step (S n) pile) as [o|] eqn:E; [|discriminate]. apply ppile_next_spec in E. destruct o as [[r0 rest]|].
    - destruct (ppile_collect step n rest) as [l|] eqn:El; [|discriminate]. intros [= <-]. apply IH in El as [H1 H2].
      destruct E as [E1 E2]. split; [auto|]. intros r. rewrite E2, <- H2. cbn. intuition.
    - intros [= <-]. split; [apply Forall_forall; intros c Hc; apply E; exact Hc|]. intros r. split; [intros []|].
      intros (c & Hc & Hp). exfalso. eapply (proj2 (E c Hc)); eauto.
  Qed.
End Pile.

Lemma visits_trans steps anc tq nexts e1 e2 e3 : visits steps anc tq nexts e1 e2 -> visits steps anc tq nexts e2 e3 -> visits steps anc tq nexts e1 e3.
Proof. induction 1; intros H3; auto; [eapply vi_child|eapply vi_unfold]; eauto. Qed.

Section Search.
  Context (get_sort : formula -> option sort) (aux_sort : sort) (sound : bool) (kind : skind)
    (steps : list pstep) (anc : mref -> option ancestors) (tq : nat -> ta_quant) (mfuel : nat) (nexts : formula -> list formula).
  Context (x : formula) (keep : bool).
  Let step := search_step get_sort aux_sort sound kind steps anc tq mfuel nexts x keep.
  Let visit := visits steps anc tq nexts.

  Lemma step_inv f st l : step f st = Some l -> exists us ou,
    unfold steps anc tq (f, st) = Some us /\ is_subterm get_sort aux_sort mfuel x f = Some ou /\
    (forall g s, In (Next g s) l <-> In (g, s) us \/ In g (nexts f) /\ s = st) /\
    (forall r, In (Resutl r) l <-> exists u g, ou = Some u /\ result_guard get_sort sound kind x f keep st u = Some g /\ r = (ss_bound st, g)) /\
    (forall u, ou = Some u -> exists g, result_guard get_sort sound kind x f keep st u = Some g).
  Proof.
    unfold step, search_step. destruct (unfold steps anc tq (f, st)) as [us|]; [|discriminate].
    destruct (is_subterm get_sort aux_sort mfuel x f) as [ou|]; [|discriminate]. intros H. exists us, ou.
    split; [reflexivity|]. split; [reflexivity|].
    assert (HN : forall g s (res : list (content disjunct sstate)), (forall g' s', ~ In (Next g' s') res) ->
      (In (Next g s) (map (fun u => Next (fst u) (snd u)) us ++ res ++ map (fun a => Next a st) (nexts f)) <->
       In (g, s) us \/ In g (nexts f) /\ s = st)).
    { intros g s res Hres. rewrite !in_app_iff, !in_map_iff. split.
      - intros [([g' s'] & E & Hin)|[Hin|(a & E & Hin)]].
        + injection E as <- <-. auto.
        + exfalso. eapply Hres; eauto.
        + injection E as <- <-. auto.
      - intros [Hin|[Hin ->]]; [left; exists (g, s); auto|right; right; exists g; auto]. }
    assert (HR : forall r (res : list (content disjunct sstate)),
      (In (Resutl r) (map (fun u => Next (fst u) (snd u)) us ++ res ++ map (fun a => Next a st) (nexts f)) <-> In (Resutl r) res)).
    { intros r res. rewrite !in_app_iff, !in_map_iff. split.
      - intros [([g' s'] & E & Hin)|[Hin|(a & E & Hin)]]; try discriminate. exact Hin.
      - auto. }
    destruct ou as [u|].
    - destruct (result_guard get_sort sound kind x f keep st u) as [g|] eqn:Eg; [|discriminate]. injection H as <-.
      split; [intros g' s'; apply (HN g' s' [Resutl (ss_bound st, g)]); intros g1 s1 [E|[]]; discriminate|]. split.
      + intros r. etransitivity; [apply (HR r [Resutl (ss_bound st, g)])|]. split.
        * intros [E|[]]. injection E as <-. exists u, g. auto.
        * intros (u' & g' & E1 & E2 & ->). injection E1 as <-. left. rewrite Eg in E2. injection E2 as ->. reflexivity.
      + intros u' E. injection E as <-. eauto.
    - injection H as <-. split; [intros g' s'; apply (HN g' s' []); intros g1 s1 []|]. split.
      + intros r. etransitivity; [apply (HR r [])|]. split; [intros []|]. intros (u & g & E & _). discriminate.
      + discriminate.
  Qed.

  Lemma pushes_visits c g s : pushes step c (Next g s) -> match c with Next f st => visit (f, st) (g, s) | Resutl _ => False end.
  Proof.
    intros H. remember (Next g s) as d eqn:Ed. induction H as [c|f st l c d E Hc Hp IH]; subst.
    - constructor.
    - destruct (step_inv f st l E) as (us & ou & Eu & _ & HN & HR & _). destruct c as [r|g' s'].
      + rewrite pushes_result in Hp. discriminate.
      + apply HN in Hc as [Hc|[Hc ->]]; [eapply vi_unfold; eauto|eapply vi_child; eauto]; apply IH; reflexivity.
  Qed.
  Lemma visits_pushes e e' : visit e e' -> no_panic step (Next (fst e) (snd e)) -> pushes step (Next (fst e) (snd e)) (Next (fst e') (snd e')).
  Proof.
    induction 1 as [e|f st a e Ha Hv IH|f st us u e Eu Hu Hv IH]; intros Hn; cbn [fst snd] in *; [constructor| |].
    - destruct (step f st) as [l|] eqn:E; [|exfalso; eapply (Hn f st); [constructor|exact E]].
      destruct (step_inv f st l E) as (us & ou & _ & _ & HN & _ & _).
      assert (Hin : In (Next a st) l) by (apply HN; auto).
      eapply pu_step; [exact E|exact Hin|]. apply IH. intros f' p' Hp. apply Hn. eapply pu_step; eauto.
    - destruct (step f st) as [l|] eqn:E; [|exfalso; eapply (Hn f st); [constructor|exact E]].
      destruct (step_inv f st l E) as (us' & ou & Eu' & _ & HN & _ & _). rewrite Eu in Eu'. injection Eu' as <-.
      assert (Hin : In (Next (fst u) (snd u)) l) by (apply HN; left; destruct u; exact Hu).
      eapply pu_step; [exact E|exact Hin|]. apply IH. intros f' p' Hp. apply Hn. eapply pu_step; eauto.
  Qed.
  Lemma pushes_result_at c r : pushes step c (Resutl r) -> match c with
    | Resutl r' => r' = r
    | Next f st => exists g s l, pushes step (Next f st) (Next g s) /\ step g s = Some l /\ In (Resutl r) l end.
  Proof.
    intros H. remember (Resutl r) as d eqn:Ed. induction H as [c|f st l c d E Hc Hp IH]; subst; [reflexivity|].
    destruct c as [r'|g s].
    - rewrite pushes_result in Hp. injection Hp as <-. exists f, st, l. split; [constructor|]. auto.
    - destruct (IH eq_refl) as (g' & s' & l' & Hp' & E' & Hin). exists g', s', l'. split; [|auto]. econstructor; eauto.
  Qed.
  Lemma pushes_trans c d e : pushes step c d -> pushes step d e -> pushes step c e.
  Proof. induction 1; intros; auto. econstructor; eauto. Qed.

  (** Nothing panics, and the results are those of the visited terms. *)
  Lemma terms_spec fuel ms fl out :
    preprocess_terms get_sort aux_sort sound kind steps anc tq mfuel nexts fuel x ms keep fl = Some out ->
    (forall m bvs f st, In (m, bvs) ms -> visit (m, mkSt fl bvs None) (f, st) -> exists us ou,
       unfold steps anc tq (f, st) = Some us /\ is_subterm get_sort aux_sort mfuel x f = Some ou /\
       forall u, ou = Some u -> exists g, result_guard get_sort sound kind x f keep st u = Some g /\ In (ss_bound st, g) out) /\
    (forall r, In r out -> exists m bvs f st u g, In (m, bvs) ms /\ visit (m, mkSt fl bvs None) (f, st) /\
       is_subterm get_sort aux_sort mfuel x f = Some (Some u) /\ result_guard get_sort sound kind x f keep st u = Some g /\ r = (ss_bound st, g)).
  Proof.
    unfold preprocess_terms. intros H. fold step in H. apply ppile_collect_spec in H as [Hn Hr].
    assert (Hpile : forall c : content disjunct sstate, In c (rev (map (fun m => Next (fst m) (mkSt fl (snd m) None)) ms)) <->
      exists m bvs, In (m, bvs) ms /\ c = Next m (mkSt fl bvs None)).
    { intros c. rewrite <- in_rev, in_map_iff. split; [intros ([m bvs] & <- & Hin); eauto|intros (m & bvs & Hin & ->); exists (m, bvs); auto]. }
    rewrite Forall_forall in Hn. split.
    - intros m bvs f st Hin Hv.
      assert (Hc : In (Next m (mkSt fl bvs None) : content disjunct sstate) (rev (map (fun m => Next (fst m) (mkSt fl (snd m) None)) ms))) by (apply Hpile; eauto).
      apply visits_pushes in Hv; [|apply Hn; exact Hc]. cbn [fst snd] in Hv.
      destruct (step f st) as [l|] eqn:E; [|exfalso; eapply (Hn _ Hc f st); eauto].
      destruct (step_inv f st l E) as (us & ou & Eu & Es & _ & HR & Hg). exists us, ou. split; [exact Eu|]. split; [exact Es|].
      intros u ->. destruct (Hg u eq_refl) as (g & Eg). exists g. split; [exact Eg|]. apply Hr. exists (Next m (mkSt fl bvs None)).
      split; [exact Hc|]. eapply pushes_trans; [exact Hv|]. eapply pu_step; [exact E|apply HR; eauto|constructor].
    - intros r Hin. apply Hr in Hin as (c & Hc & Hp). apply Hpile in Hc as (m & bvs & Hin & ->).
      apply pushes_result_at in Hp as (f & st & l & Hp & E & Hl). apply pushes_visits in Hp.
      destruct (step_inv f st l E) as (us & ou & Eu & Es & _ & HR & _). apply HR in Hl as (u & g & -> & Eg & ->).
      exists m, bvs, f, st, u, g. auto.
  Qed.
End Search.

(** *** What a result says *)
Lemma guard_list {M : structure} (keep : bool) st (rho : env M) :
  Forall (fun f : formula => holds f rho) (if keep then match ss_guard st with Some c => [c] | None => [] end else []) <->
  (keep = true -> guard_holds st rho).
Proof.
  unfold guard_holds. destruct keep; [|split; [discriminate|constructor]]. destruct (ss_guard st) as [c|].
  - split; [intros H _; inversion H; auto|intros H; constructor; auto].
  - split; [auto|constructor].
Qed.
Lemma var_result get_sort aux_sort sound kind mfuel v f keep st u g :
  is_subterm get_sort aux_sort mfuel (FVar v) f = Some (Some u) -> result_guard get_sort sound kind (FVar v) f keep st u = Some g ->
  get_sort f = Some aux_sort /\ g = ands (meq (FVar (mkVar (vid v) aux_sort)) f ::
      (if keep then match ss_guard st with Some c => [c] | None => [] end else [])).
Proof.
  unfold is_subterm, unified. destruct (get_sort f) as [s|] eqn:Es.
  - destruct (sort_eqb aux_sort s) eqn:Eq; [|discriminate]. unfold sort_eqb in Eq. destruct (sort_eq_dec aux_sort s) as [<-|]; [|discriminate]. intros [= <-]. unfold result_guard. cbn.
    rewrite Es. intros [= <-]. auto.
  - intros [= <-]. unfold result_guard. cbn. rewrite Es. discriminate.
Qed.

(** *** Scopes *)
Lemma within_app f l r : within f l -> within f (l ++ r).
Proof. intros H v Hv. apply in_app_iff. auto. Qed.
Lemma within_sub f l l' : within f l -> (forall i, In i l -> In i l') -> within f l'.
Proof. intros H Hs v Hv. auto. Qed.
Lemma within_fun s args l : within (FFun s args) l <-> forall a, In a args -> within a l.
Proof.
  split.
  - intros H a Ha v Hv. apply H. eapply occurs_fun; eauto.
  - intros H v Hv. apply occurs_fun_inv in Hv as (a & Ha & Hv). eapply H; eauto.
Qed.
Lemma within_var v l : within (FVar v) l <-> In (vid v) l.
Proof. split; [intros H; apply H, occurs_var|intros H w Hw; apply occurs_var_inv in Hw; subst; exact H]. Qed.
Lemma within_step s vs l : (forall i, In i (map vid vs) -> In i l) -> within (step_term s vs) l.
Proof.
  intros H. apply within_fun. intros a Ha. apply in_map_iff in Ha as (v & <- & Hv). apply within_var, H, in_map. exact Hv.
Qed.
Lemma plain_arg s args a : plain (FFun s args) -> In a args -> plain a.
Proof. intros H Ha p q vs b Hp. apply In_nth_error in Ha as (k & Hk). eapply (H (k :: p)). econstructor; eauto. Qed.
Lemma scoped_within f vs : plain f -> scoped [f] vs -> within f (map vid vs).
Proof. intros Hp Hs v (p & Hv). apply (Hs f); [left; reflexivity|]. eapply plain_free; eauto. Qed.
Lemma free_within i f l : occurs_free i f -> within f l -> In i l.
Proof. intros (p & v & Hp & <- & _) H. apply H. exists p. exact Hp. Qed.

Lemma add_variables_inv st vs st' : add_variables st vs = Some st' ->
  st' = mkSt (ss_flags st) (ss_bound st ++ vs) (ss_guard st) /\ NoDup (map vid (ss_bound st ++ vs)).
Proof.
  unfold add_variables. destruct (all_unique _) eqn:E; [|discriminate]. intros [= <-]. split; [reflexivity|]. apply all_unique_iff. exact E.
Qed.
Lemma add_condition_inv st vs c st' : add_condition st vs c = Some st' ->
  st' = mkSt (ss_flags st) (ss_bound st ++ vs) (Some (match ss_guard st with Some f => fand f c | None => c end)) /\
  NoDup (map vid (ss_bound st ++ vs)).
Proof.
  unfold add_condition. destruct (add_variables st vs) as [new|] eqn:E; [|discriminate]. apply add_variables_inv in E as [-> H].
  intros [= <-]. auto.
Qed.

Definition guard_within (st : sstate) (l : list nat) : Prop := forall g, ss_guard st = Some g -> within g l.
Definition ok (R : list nat) (e : formula * sstate) : Prop :=
  plain (fst e) /\ within (fst e) (map vid (ss_bound (snd e)) ++ R) /\ NoDup (map vid (ss_bound (snd e))) /\
  guard_within (snd e) (map vid (ss_bound (snd e)) ++ R).

Lemma rename_within vars base f g : NoDup (map vid vars) -> within f (map vid vars) -> sapply (frozen_var (collision_subst vars base)) f = Some g ->
  within g (map vid (map (get_var (collision_subst vars base)) vars)).
Proof.
  intros Hn Hw Hs v Hv. destruct (sapply_occurs _ _ _ _ Hs Hv) as (w & t & Hw' & Ht & Hvt).
  assert (Hin : In (vid w) (map vid vars)) by auto.
  destruct (frozen_leaf vars base w Hin) as (w' & Hw1 & E & [H|[H Hg]]); rewrite H in Ht; injection Ht as <-; apply occurs_var_inv in Hvt; subst v.
  - apply in_map, in_map. exact Hw1.
  - rewrite <- E, <- Hg. apply in_map, in_map. exact Hw1.
Qed.
Lemma rename_plain col f g : plain f -> sapply (frozen_var col) f = Some g -> plain g.
Proof.
  intros Hp Hs. eapply sapply_plain; [exact Hs|exact Hp|]. intros v t _ Ht. unfold frozen_var in Ht.
  destruct (find _ col); injection Ht as <-; intros p0 q0 vs0 b0 H; inversion H.
Qed.

Lemma condition_ok R st vs c st' f : add_condition st vs c = Some st' -> guard_within st (map vid (ss_bound st) ++ R) ->
  within c (map vid (ss_bound st ++ vs) ++ R) -> plain f -> within f (map vid (ss_bound st ++ vs) ++ R) -> ok R (f, st').
Proof.
  intros H Hg Hc Hp Hf. apply add_condition_inv in H as [-> Hn]. repeat split; cbn; auto.
  intros g [= <-]. destruct (ss_guard st) as [g0|] eqn:E; [|exact Hc].
  assert (Hg0 : within g0 (map vid (ss_bound st ++ vs) ++ R)).
  { eapply within_sub; [apply Hg; exact E|]. intros i. rewrite map_app, !in_app_iff. tauto. }
  unfold fand. apply within_fun. intros a [<-|[<-|[]]]; auto.
Qed.

Section Scopes.
  Context (steps : list pstep) (cells : list mcell) (anc : mref -> option ancestors) (tq : nat -> ta_quant) (R : list nat).
  Context (Hclosed : protocol_closed steps cells tq) (Hanc : answers_cells anc cells).

  Lemma lt_within a b l : within a l -> within b l -> within (strict_before a b) l.
  Proof. intros Ha Hb. apply within_fun. intros t [<-|[<-|[]]]; auto. Qed.
  Lemma meq_within a b l : within a l -> within b l -> within (meq a b) l.
  Proof. intros Ha Hb. apply within_fun. intros t [<-|[<-|[]]]; auto. Qed.
  Lemma for_within a b l : within a l -> within b l -> within (for_ a b) l.
  Proof. intros Ha Hb. apply within_fun. intros t [<-|[<-|[]]]; auto. Qed.

  Lemma cell_or_input_ok r st args us : unfold_cell_or_input steps anc r st args = Some us ->
    (forall a, In a args -> within a (map vid (ss_bound st) ++ R)) -> guard_within st (map vid (ss_bound st) ++ R) ->
    forall u, In u us -> ok R u.
  Proof.
    unfold unfold_cell_or_input. destruct (anc r) as [[input cs]|] eqn:Er; [|discriminate]. destruct (rev args) as [|o l] eqn:Ea; [discriminate|].
    intros H Hargs Hg.
    assert (Ho : within o (map vid (ss_bound st) ++ R)) by (apply Hargs, in_rev; rewrite Ea; left; reflexivity).
    destruct (mapM _ (flat_map ce_asgs cs)) as [l1|] eqn:E1; [|discriminate].
    assert (Hsub : forall vs f, within f (map vid vs) -> within f (map vid (ss_bound st ++ vs) ++ R)).
    { intros vs f Hf. eapply within_sub; [exact Hf|]. intros i. rewrite map_app, !in_app_iff. tauto. }
    assert (Ho' : forall vs, within o (map vid (ss_bound st ++ vs) ++ R)).
    { intros vs. eapply within_sub; [exact Ho|]. intros i. rewrite map_app, !in_app_iff. tauto. }
    assert (H1 : forall u, In u l1 -> ok R u).
    { intros u Hu. apply (proj1 (mapM_in _ _ _ E1 u)) in Hu as (a & Ha & Eu). apply in_flat_map in Ha as (ce & Hce & Ha).
      assert (Hc : asg_closed a).
      { destruct Hclosed as (_ & Hcells & _). eapply Hcells; [|exact Ha]. eapply (Hanc r); eauto. }
      destruct Hc as (Hn & Hsc & Hp). unfold unfold_assignment in Eu.
      set (vars := ps_vars (as_step a) ++ as_fresh a) in *. set (col := collision_subst vars (ss_bound st)) in *.
      destruct (add_condition _ _ _) as [st'|] eqn:Ec; [|discriminate]. destruct (sapply _ _) as [g|] eqn:Es; [|discriminate]. injection Eu as <-.
      assert (Hst : within (step_term (as_step a) (map (get_var col) (ps_vars (as_step a)))) (map vid (ss_bound st ++ map (get_var col) vars) ++ R)).
      { apply Hsub. apply within_step. intros i. unfold vars. rewrite !map_app, in_app_iff. auto. }
      eapply condition_ok; [exact Ec|exact Hg| | |].
      - destruct r; cbn; unfold before; try apply for_within; try apply lt_within; try apply meq_within; auto.
      - eapply rename_plain; eauto.
      - apply Hsub. eapply rename_within; eauto. apply scoped_within; auto. }
    destruct input.
    - destruct (mapM _ (flat_map _ steps)) as [l2|] eqn:E2; [|discriminate]. injection H as <-. intros u Hu. apply in_app_iff in Hu as [Hu|Hu]; [auto|].
      apply (proj1 (mapM_in _ _ _ E2 u)) in Hu as ([s f] & Hsf & Eu). apply in_flat_map in Hsf as (s' & Hs' & Hsf).
      assert (Hcl : closed_over (ps_vars s) f).
      { destruct Hclosed as (Hsteps & _). destruct (Hsteps s' Hs') as [Hm Hc]. destruct Hsf as [E|[E|[]]]; injection E as <- <-; auto. }
      destruct Hcl as (Hn & Hsc & Hp). unfold unfold_step in Eu. set (col := collision_subst (ps_vars s) (ss_bound st)) in *.
      destruct (add_condition _ _ _) as [st'|] eqn:Ec; [|discriminate]. destruct (sapply _ _) as [g|] eqn:Es; [|discriminate]. injection Eu as <-.
      eapply condition_ok; [exact Ec|exact Hg| | |].
      + apply lt_within; [|apply Ho']. apply Hsub. apply within_step. auto.
      + eapply rename_plain; eauto.
      + apply Hsub. eapply rename_within; eauto. apply scoped_within; auto.
    - injection H as <-. intros u Hu. rewrite app_nil_r in Hu. auto.
  Qed.

  Lemma frozen_occurs ids args g h v : length ids = length args -> sapply (frozen ids args) g = Some h -> occurs v h ->
    (exists a, In a args /\ occurs v a) \/ (occurs v g /\ ~ In (vid v) ids).
  Proof.
    intros Hl Hs Hv. destruct (sapply_occurs _ _ _ _ Hs Hv) as (w & t & Hw & Ht & Hvt).
    unfold frozen in Ht. rewrite frozen_get_eq_len in Ht by exact Hl. apply multiple_spec in Ht. destruct Ht as [(l1 & l2 & El & _)|[Hn ->]].
    - left. exists t. split; [|exact Hvt]. assert (H : In (vid w, t) (combine ids args)) by (rewrite El; apply in_app_iff; cbn; auto).
      apply in_combine_r in H. exact H.
    - right. apply occurs_var_inv in Hvt. subst w. split; [exact Hw|]. intros Hi. apply Hn. clear -Hi Hl. revert args Hl.
      induction ids as [|i l IH]; intros [|a args] Hl; try discriminate; [destruct Hi|]. cbn in *. destruct Hi as [->|Hi]; auto.
  Qed.
  Lemma frozen_plain ids args g h : length ids = length args -> sapply (frozen ids args) g = Some h -> plain g -> Forall plain args -> plain h.
  Proof.
    intros Hl Hs Hp Ha. eapply sapply_plain; eauto. intros w t _ Ht.
    unfold frozen in Ht. rewrite frozen_get_eq_len in Ht by exact Hl. apply multiple_spec in Ht. destruct Ht as [(l1 & l2 & El & _)|[Hn ->]].
    - rewrite Forall_forall in Ha. apply Ha. assert (H : In (vid w, t) (combine ids args)) by (rewrite El; apply in_app_iff; cbn; auto).
      apply in_combine_r in H. exact H.
    - intros p0 q0 vs0 b0 H; inversion H.
  Qed.

  Lemma unfold_quantifier_inv st q args us : unfold_quantifier st q args = Some us -> length (map vid (tq_free q)) = length args /\
    let new := map (get_var (collision_subst (tq_bound q) (tq_free q ++ ss_bound st))) (tq_bound q) in
    NoDup (map vid (ss_bound st ++ new)) /\
    let st' := mkSt (ss_flags st) (ss_bound st ++ new) (ss_guard st) in
    forall f, In f (tq_contents q) -> exists g h, sapply (frozen_var (collision_subst (tq_bound q) (tq_free q ++ ss_bound st))) f = Some g /\
      sapply (frozen (map vid (tq_free q)) args) g = Some h /\ In (h, st') us.
  Proof.
    unfold unfold_quantifier, frozen_new. destruct (Nat.eqb_spec (length (map vid (tq_free q))) (length args)) as [El|]; [|discriminate].
    intros H. refine (conj El _). cbv zeta. set (new := map _ (tq_bound q)) in *. destruct (add_variables st new) as [st''|] eqn:E; [|discriminate].
    apply add_variables_inv in E as [-> Hn]. split; [exact Hn|]. intros f Hf.
    destruct (mapM_defined _ _ _ f H Hf) as (u & Hu & Eu). cbn in Eu.
    destruct (sapply _ f) as [g|] eqn:Eg; [|discriminate]. destruct (sapply _ g) as [h|] eqn:Eh; [|discriminate]. injection Eu as <-. exists g, h. auto.
  Qed.
  Lemma unfold_quantifier_from st q args us u : unfold_quantifier st q args = Some us -> In u us ->
    exists f g, In f (tq_contents q) /\ sapply (frozen_var (collision_subst (tq_bound q) (tq_free q ++ ss_bound st))) f = Some g /\
      sapply (frozen (map vid (tq_free q)) args) g = Some (fst u) /\
      snd u = mkSt (ss_flags st) (ss_bound st ++ map (get_var (collision_subst (tq_bound q) (tq_free q ++ ss_bound st))) (tq_bound q)) (ss_guard st).
  Proof.
    unfold unfold_quantifier, frozen_new. destruct (Nat.eqb_spec (length (map vid (tq_free q))) (length args)) as [El|]; [|discriminate].
    intros H Hu. destruct (add_variables st _) as [st''|] eqn:E; [|discriminate]. apply add_variables_inv in E as [-> Hn].
    apply (proj1 (mapM_in _ _ _ H u)) in Hu as (f & Hf & Eu).
    destruct (sapply _ f) as [g|] eqn:Eg; [|discriminate]. destruct (sapply _ g) as [h|] eqn:Eh; [|discriminate]. injection Eu as <-. exists f, g. auto.
  Qed.

  Lemma unfold_ok e us u : unfold steps anc tq e = Some us -> In u us -> ok R e -> ok R u.
  Proof.
    destruct e as [f st]. intros H Hu (Hp & Hw & Hn & Hg). cbn [fst snd] in *. destruct f as [v|s args|q vs b].
    - injection H as <-. destruct Hu.
    - assert (Hargs : forall a, In a args -> within a (map vid (ss_bound st) ++ R)) by exact (proj1 (within_fun _ _ _) Hw).
      assert (Hnil : Some [] = Some us -> ok R u) by (intros [= <-]; destruct Hu).
      assert (Hci : forall r fl, unfold_cell_or_input steps anc r (mkSt fl (ss_bound st) (ss_guard st)) args = Some us -> ok R u)
        by (intros r fl E; eapply cell_or_input_ok; [exact E|exact Hargs|exact Hg|exact Hu]).
      assert (Hmac : forall is_cond, unfold_step_macro steps st is_cond args = Some us -> ok R u).
      { intros is_cond E. unfold unfold_step_macro in E. destruct args as [|arg [|]]; try discriminate.
        apply (proj1 (mapM_in _ _ _ E u)) in Hu as (s' & Hs' & Eu). cbn zeta in Eu. set (col := collision_subst (ps_vars s') (ss_bound st)) in *.
        destruct (add_condition _ _ _) as [st'|] eqn:Ec; [|discriminate]. injection Eu as <-.
        destruct Hclosed as (Hsteps & _). destruct (Hsteps s' Hs') as [(Hn1 & Hs1 & Hp1) (_ & Hs2 & Hp2)].
        eapply condition_ok; [exact Ec|exact Hg| | |].
        - apply meq_within.
          + eapply within_sub; [apply Hargs; left; reflexivity|]. intros i. rewrite map_app, !in_app_iff. tauto.
          + apply within_step. intros i. rewrite map_app, !in_app_iff. tauto.
        - destruct is_cond; auto.
        - assert (Hv : within (if is_cond then ps_cond s' else ps_msg s') (map vid (ps_vars s'))) by (destruct is_cond; apply scoped_within; auto).
          eapply within_sub; [exact Hv|]. intros i Hi. apply in_map_iff in Hi as (v & <- & Hv').
          rewrite map_app, !in_app_iff. destruct (get_var_cases (ps_vars s') (ss_bound st) Hn1 v Hv') as [[Hb _]|[_ Ev]]; [auto|].
          fold col in Ev. left. right. rewrite <- Ev. apply in_map, in_map. exact Hv'. }
      destruct s; cbn in H; try (apply Hnil; exact H).
      + destruct (uf_cells (ss_flags st)); [eapply Hci; exact H|auto].
      + destruct m; [destruct (uf_macros (ss_flags st))|destruct (uf_macros (ss_flags st))|destruct (uf_input (ss_flags st))|destruct (uf_exec (ss_flags st))];
          try (apply Hnil; exact H); try (eapply Hmac; exact H); eapply Hci; exact H.
      + destruct (uf_quant (ss_flags st)); [|auto].
        destruct (unfold_quantifier_inv _ _ _ _ H) as (El & Hnd & _). destruct (unfold_quantifier_from _ _ _ _ _ H Hu) as (f & g & Hf & Eg & Eh & Est).
        destruct Hclosed as (_ & _ & Hq). destruct (Hq i) as (Hqb & Hqf & Hdis & Hsc & Hpl).
        set (col := collision_subst (tq_bound (tq i)) (tq_free (tq i) ++ ss_bound st)) in *.
        destruct u as [h st']. cbn [fst snd] in *. subst st'. repeat split; cbn [fst snd ss_bound ss_guard].
        * eapply frozen_plain; [exact El|exact Eh|exact (rename_plain col f g (Hpl f Hf) Eg)|]. apply Forall_forall. intros a Ha. eapply plain_arg; eauto.
        * intros v Hv. destruct (frozen_occurs _ _ _ _ _ El Eh Hv) as [(a & Ha & Hva)|[Hvg Hvf]].
          -- rewrite map_app. specialize (Hargs a Ha v Hva). rewrite !in_app_iff in *. tauto.
          -- destruct (sapply_occurs _ _ _ _ Eg Hvg) as (w & t & Hw' & Ht & Hvt).
             destruct (in_dec Nat.eq_dec (vid w) (map vid (tq_bound (tq i)))) as [Hin|Hin].
             ++ rewrite map_app, !in_app_iff. left. right.
                destruct (frozen_leaf (tq_bound (tq i)) (tq_free (tq i) ++ ss_bound st) w Hin) as (w' & Hw1 & E & [Hfr|[Hfr Hgv]]); fold col in Hfr; rewrite Hfr in Ht;
                  injection Ht as <-; apply occurs_var_inv in Hvt; subst v.
                ** apply in_map, in_map. exact Hw1.
                ** fold col in Hgv. rewrite <- E, <- Hgv. apply in_map, in_map. exact Hw1.
             ++ exfalso. pose proof (frozen_other (tq_bound (tq i)) (tq_free (tq i) ++ ss_bound st) w Hin) as Ho. fold col in Ho. rewrite Ho in Ht.
                injection Ht as <-. apply occurs_var_inv in Hvt. subst w. apply Hvf. destruct Hw' as (p & Hp').
                specialize (Hsc f (vid v) Hf (plain_free f p v (Hpl f Hf) Hp')). rewrite map_app, in_app_iff in Hsc. tauto.
        * exact Hnd.
        * intros g0 Eg0. eapply within_sub; [apply Hg; exact Eg0|]. intros j. rewrite map_app, !in_app_iff. tauto.
    - exfalso. eapply (Hp []). constructor.
  Qed.

  Lemma visit_ok e e' : visits steps anc tq children e e' -> ok R e -> ok R e'.
  Proof.
    induction 1 as [e|f st a e Ha Hv IH|f st us u e Eu Hu Hv IH]; intros Hok; auto.
    - apply IH. destruct Hok as (Hp & Hw & Hn & Hg). cbn [fst snd] in *. destruct f as [w|s args|q vs b]; cbn in Ha.
      + destruct Ha.
      + repeat split; auto; cbn; [eapply plain_arg; eauto|]. exact (proj1 (within_fun _ _ _) Hw a Ha).
      + exfalso. eapply (Hp []). constructor.
    - apply IH. eapply unfold_ok; eauto.
  Qed.
End Scopes.

(** *** Occurrences *)
Lemma replaces_occurs (R R' : var -> formula -> Prop) f g : replaces R f g -> (forall v t, occurs v f -> R v t -> R' v t) -> replaces R' f g.
Proof.
  revert g. induction f as [v|s args IH|q vs b IH] using formula_ind'; intros g H HR; inversion H; subst.
  - constructor. apply HR; [apply occurs_var|assumption].
  - constructor. match goal with A : Forall2 _ args _ |- _ => rename A into HF end.
    assert (Hs : forall a v t, In a args -> occurs v a -> R v t -> R' v t) by (intros a v t Ha Hv; apply HR; eapply occurs_fun; eauto).
    clear -IH HF Hs. induction HF as [|a a' l l' Ha HF IHF]; constructor.
    + apply Forall_inv in IH. apply IH; auto. intros v t. apply (Hs a); cbn; auto.
    + apply Forall_inv_tail in IH. apply IHF; auto. intros b v t Hb. apply Hs; cbn; auto.
  - constructor. apply IH; auto. intros v t Hv. apply HR, occurs_quant. exact Hv.
Qed.
Lemma replaces_trans (R1 R2 : var -> formula -> Prop) f : forall g h, replaces R1 f g -> replaces R2 g h -> plain f ->
  replaces (fun v t => exists g', R1 v g' /\ replaces R2 g' t) f h.
Proof.
  induction f as [v|s args IH|q vs b IH] using formula_ind'; intros g h H1 H2 Hp; inversion H1; subst.
  - constructor. exists g. auto.
  - inversion H2; subst. constructor.
    match goal with A : Forall2 (replaces R1) _ _, B : Forall2 (replaces R2) _ _ |- _ => rename A into HA; rename B into HB end.
    assert (Hpa : forall a, In a args -> plain a) by (intros a; eapply plain_arg; eauto).
    match goal with HB : Forall2 (replaces R2) _ ?l |- _ => revert l HB H2 end. clear H1 Hp.
    induction HA as [|a b l l' Hab HA IHA]; intros r HB H2; inversion HB; subst; constructor.
    + apply Forall_inv in IH. eapply IH; eauto. apply Hpa. left; reflexivity.
    + apply Forall_inv_tail in IH. eapply IHA; eauto; [intros c Hc; apply Hpa; right; exact Hc|constructor; assumption].
  - exfalso. eapply (Hp []). constructor.
Qed.

Section Occurrences.
  Context {M : structure}.
  (** [g] at [rho'] is the instance of [f] at [rho]. *)
  Definition agree (rho rho' : env M) : formula -> formula -> Prop := replaces (fun v t => rho (vid v) = eval t rho').

  Lemma agree_eval rho rho' f : forall g, agree rho rho' f g -> plain f -> eval g rho' = eval f rho.
  Proof.
    induction f as [v|s args IH|q vs b IH] using formula_ind'; intros g H Hp; inversion H; subst.
    - symmetry. assumption.
    - cbn. f_equal. match goal with A : Forall2 _ _ _ |- _ => rename A into HA end.
      assert (Hpa : forall a, In a args -> plain a) by (intros a; eapply plain_arg; eauto). clear -HA IH Hpa.
      induction HA as [|a b l l' Hab HA IHA]; cbn; [reflexivity|]. f_equal.
      + apply Forall_inv in IH. apply IH; auto. apply Hpa. left; reflexivity.
      + apply Forall_inv_tail in IH. apply IHA; auto. intros c Hc. apply Hpa. right; exact Hc.
    - exfalso. eapply (Hp []). constructor.
  Qed.
  Lemma agree_args rho rho' args : forall args', Forall2 (agree rho rho') args args' -> Forall plain args ->
    map (fun a => eval a rho') args' = map (fun a => eval a rho) args.
  Proof.
    intros args' H. induction H as [|a b l l' Hab H IH]; intros Hp; cbn; [reflexivity|]. inversion Hp; subst. f_equal; [|auto].
    apply agree_eval; auto.
  Qed.

  Lemma bindv_in_app vs ws ds es (r1 r2 : env M) i : length vs = length ds -> length ws = length es -> In i (map vid (vs ++ ws)) ->
    bindv (bindv r1 vs ds) ws es i = bindv (bindv r2 vs ds) ws es i.
  Proof.
    intros H1 H2 Hi. rewrite <- !bindv_app by auto. apply bindv_in; [rewrite !app_length; lia|exact Hi].
  Qed.
End Occurrences.

(** Unfolding a symbolic quantifier or an input gives instances. *)
Section Unfoldings.
  Context (R : list nat) {M : structure}.
  Definition apart (vs : list var) (ids : list nat) : Prop := forall i, In i (map vid vs) -> ~ In i ids.

  Lemma rename_agree vars base f g (rho rho' : env M) ds : NoDup (map vid vars) -> within f (map vid vars) ->
    sapply (frozen_var (collision_subst vars base)) f = Some g -> length vars = length ds ->
    agree (bindv rho vars ds) (bindv rho' (map (get_var (collision_subst vars base)) vars) ds) f g.
  Proof.
    intros Hn Hw Hs Hl. apply sapply_replaces in Hs. eapply replaces_occurs; [exact Hs|]. intros v t Hv Ht. cbn in Ht.
    destruct (frozen_leaf vars base v (Hw v Hv)) as (w & Hin & E & [H|[H Hg]]); rewrite H in Ht; injection Ht as <-; cbn.
    - rewrite <- E. symmetry. apply bind_same; auto.
    - rewrite <- E. rewrite <- (bind_same vars base Hn rho' rho ds w Hl Hin), Hg. reflexivity.
  Qed.

  Lemma guard_extends st st' new c (rho : env M) ds : st' = mkSt (ss_flags st) (ss_bound st ++ new) (Some (match ss_guard st with Some f => fand f c | None => c end)) ->
    guard_within st (map vid (ss_bound st) ++ R) -> NoDup (map vid (ss_bound st ++ new)) -> apart new R ->
    (guard_holds st' (bindv rho new ds) <-> guard_holds st rho /\ holds c (bindv rho new ds)).
  Proof.
    intros -> Hg Hn Ha. unfold guard_holds. cbn. destruct (ss_guard st) as [g|] eqn:E; [|tauto]. rewrite holds_and. unfold holds.
    rewrite (eval_agree M g (bindv rho new ds) rho); [reflexivity|]. intros i Hi. apply bindv_other. intros Hin.
    apply (fun H => free_within _ _ _ H (Hg g E)) in Hi. apply in_app_iff in Hi as [Hi|Hi]; [|eapply Ha; eauto].
    rewrite map_app in Hn. revert Hn Hin Hi. clear. intros Hn Hin Hi. induction (map vid (ss_bound st)) as [|j l IH]; [destruct Hi|].
    cbn in Hn. inversion Hn as [|? ? Hj Hn']; subst. destruct Hi as [->|Hi]; [apply Hj, in_app_iff; auto|auto].
  Qed.

  Lemma nodup_apart (l : list var) new : NoDup (map vid (l ++ new)) -> apart new (map vid l).
  Proof.
    rewrite map_app. intros Hn i Hin Hi. induction (map vid l) as [|j l' IH]; [destruct Hi|].
    cbn in Hn. inversion Hn as [|? ? Hj Hn']; subst. destruct Hi as [->|Hi]; [apply Hj, in_app_iff; auto|auto].
  Qed.
  Lemma untouched f st new (rho : env M) ds : within f (map vid (ss_bound st) ++ R) -> NoDup (map vid (ss_bound st ++ new)) -> apart new R ->
    eval f (bindv rho new ds) = eval f rho.
  Proof.
    intros Hw Hn Ha. apply eval_agree. intros i Hi. apply bindv_other. intros Hin.
    apply (fun H => free_within _ _ _ H Hw) in Hi. apply in_app_iff in Hi as [Hi|Hi]; [|eapply Ha; eauto].
    eapply nodup_apart; eauto.
  Qed.

  Lemma step_instance st origin s c u : unfold_step st origin s c = Some u -> closed_over (ps_vars s) c ->
    within origin (map vid (ss_bound st) ++ R) -> guard_within st (map vid (ss_bound st) ++ R) ->
    exists new, ss_bound (snd u) = ss_bound st ++ new /\ ss_flags (snd u) = ss_flags st /\ map vsort new = map vsort (ps_vars s) /\
      (apart new R -> forall (rho rho' : env M) ds, length (ps_vars s) = length ds ->
         agree (bindv rho (ps_vars s) ds) (bindv rho' new ds) c (fst u) /\
         (guard_holds (snd u) (bindv rho' new ds) <-> guard_holds st rho' /\ tholds M Flt [inst M (ps_fun s) ds; eval origin rho'])).
  Proof.
    intros H (Hn & Hsc & Hp) Ho Hg. unfold unfold_step in H. set (col := collision_subst (ps_vars s) (ss_bound st)) in *.
    destruct (add_condition _ _ _) as [st'|] eqn:Ec; [|discriminate]. destruct (sapply _ _) as [g|] eqn:Es; [|discriminate]. injection H as <-.
    apply add_condition_inv in Ec as [Est Hnd]. exists (map (get_var col) (ps_vars s)). cbn [fst snd].
    split; [rewrite Est; reflexivity|]. split; [rewrite Est; reflexivity|]. split; [apply new_sorts; exact Hn|].
    intros Ha rho rho' ds Hl. split; [apply rename_agree; auto; apply scoped_within; auto|].
    rewrite (guard_extends st st' _ _ rho' ds Est Hg Hnd Ha). unfold strict_before. rewrite holds_lt, step_value.
    unfold col. rewrite (new_values (ps_vars s) (ss_bound st) Hn rho' ds (ps_vars s) []) by (auto; rewrite app_nil_r; auto).
    fold col. rewrite (untouched origin st _ rho' ds Ho Hnd Ha), Hl, firstn_all. reflexivity.
  Qed.

  Lemma quant_instance st q args us f : unfold_quantifier st q args = Some us -> quant_closed q -> In f (tq_contents q) ->
    (forall a, In a args -> within a (map vid (ss_bound st) ++ R)) -> guard_within st (map vid (ss_bound st) ++ R) ->
    exists u new, In u us /\ ss_bound (snd u) = ss_bound st ++ new /\ ss_flags (snd u) = ss_flags st /\ map vsort new = map vsort (tq_bound q) /\
      (apart new R -> forall (rho rho' : env M) ds, length (tq_bound q) = length ds ->
         agree (bindv (bindv rho (tq_free q) (map (fun a => eval a rho') args)) (tq_bound q) ds) (bindv rho' new ds) f (fst u) /\
         (guard_holds (snd u) (bindv rho' new ds) <-> guard_holds st rho')).
  Proof.
    intros H (Hqb & Hqf & Hdis & Hsc & Hpl) Hf Hargs Hg. destruct (unfold_quantifier_inv _ _ _ _ H) as (El & Hnd & Hall). cbv zeta in Hall.
    set (base := tq_free q ++ ss_bound st) in *. set (col := collision_subst (tq_bound q) base) in *.
    set (new := map (get_var col) (tq_bound q)) in *.
    destruct (Hall f Hf) as (g & h & Eg & Eh & Hin). exists (h, mkSt (ss_flags st) (ss_bound st ++ new) (ss_guard st)), new.
    split; [exact Hin|]. split; [reflexivity|]. split; [reflexivity|]. split; [apply new_sorts; exact Hqb|].
    intros Ha rho rho' ds Hl. cbn [fst snd]. split.
    - assert (Hnew_free : forall i, In i (map vid new) -> ~ In i (map vid (tq_free q))).
      { intros i Hi Hi2. apply (new_apart (tq_bound q) base Hqb i Hi). unfold base. rewrite map_app, in_app_iff. auto. }
      set (vals := map (fun a => eval a rho') args).
      assert (Hlv : length (tq_free q) = length vals) by (unfold vals; rewrite map_length, <- El, map_length; reflexivity).
      eapply replaces_occurs; [apply (replaces_trans _ _ _ _ _ (proj1 (sapply_replaces _ _ _) Eg) (proj1 (sapply_replaces _ _ _) Eh) (Hpl f Hf))|].
      intros v t (p & Hv) (g' & Hg' & Ht).
      assert (Hvin : In (vid v) (map vid (tq_free q ++ tq_bound q))) by (apply (Hsc f); auto; eapply plain_free; eauto).
      destruct (in_dec Nat.eq_dec (vid v) (map vid (tq_bound q))) as [Hb|Hb].
      + assert (Hgv : exists w, In w (tq_bound q) /\ vid w = vid v /\ exists w', g' = FVar w' /\ vid w' = vid (get_var col w)).
        { destruct (frozen_leaf (tq_bound q) base v Hb) as (w & Hw & E & [Hfr|[Hfr Hgv]]); fold col in Hfr; rewrite Hfr in Hg'; injection Hg' as <-.
          - exists w. eauto.
          - exists w. split; [exact Hw|]. split; [exact E|]. exists v. split; [reflexivity|]. fold col in Hgv. rewrite Hgv. auto. }
        destruct Hgv as (w & Hw & E & w' & -> & Ew'). inversion Ht as [? ? Ht'| |]; subst.
        assert (Hnf : ~ In (vid w') (map vid (tq_free q))).
        { apply Hnew_free. rewrite Ew'. apply in_map, in_map. exact Hw. }
        unfold frozen in Ht'. rewrite frozen_get_eq_len in Ht' by exact El. apply multiple_spec in Ht' as [(l1 & l2 & Ec & _)|[_ ->]].
        * exfalso. apply Hnf. assert (H0 : In (vid w', t) (combine (map vid (tq_free q)) args)) by (rewrite Ec; apply in_app_iff; cbn; auto).
          apply in_combine_l in H0. exact H0.
        * cbn. rewrite Ew', <- E. symmetry. apply bind_same; auto.
      + assert (Hfree : In (vid v) (map vid (tq_free q))) by (rewrite map_app, in_app_iff in Hvin; tauto).
        pose proof (frozen_other (tq_bound q) base v Hb) as Ho. fold col in Ho. rewrite Ho in Hg'. injection Hg' as <-.
        inversion Ht as [? ? Ht'| |]; subst.
        unfold frozen in Ht'. rewrite frozen_get_eq_len in Ht' by exact El. apply multiple_spec in Ht' as [(l1 & l2 & Ec & Hn1)|[Hn _]].
        * assert (Hta : In t args).
          { assert (H0 : In (vid v, t) (combine (map vid (tq_free q)) args)) by (rewrite Ec; apply in_app_iff; cbn; auto).
            apply in_combine_r in H0. exact H0. }
          rewrite (untouched t st new rho' ds (Hargs t Hta) Hnd Ha). rewrite bindv_other by exact Hb.
          pose proof (bindv_values (tq_free q) rho vals Hqf Hlv) as Hval.
          assert (exists w, nth_error (tq_free q) (length l1) = Some w /\ vid w = vid v /\ nth_error args (length l1) = Some t) as (w & Hw & Ew & Et).
          { assert (Hk : nth_error (combine (map vid (tq_free q)) args) (length l1) = Some (vid v, t))
              by (rewrite Ec, nth_error_app2, Nat.sub_diag by lia; reflexivity).
            clear -Hk. revert Hk. generalize (length l1) as k. revert args.
            induction (tq_free q) as [|y l IH]; intros [|a args] [|k]; cbn; try discriminate.
            - intros [= E1 E2]. exists y. subst. auto.
            - apply IH. }
          assert (H1 : nth_error vals (length l1) = Some (eval t rho')) by (unfold vals; rewrite nth_error_map, Et; reflexivity).
          rewrite <- Hval in H1. rewrite nth_error_map, Hw in H1. cbn in H1. rewrite Ew in H1. congruence.
        * exfalso. apply Hn. clear -Hfree El. revert args El. induction (tq_free q) as [|y l IH]; intros [|a args] El; try discriminate; [destruct Hfree|].
          cbn in *. destruct Hfree as [->|Hfree]; auto.
    - unfold guard_holds. cbn. destruct (ss_guard st) as [g0|] eqn:E; [|tauto]. unfold holds.
      rewrite (untouched g0 st new rho' ds (Hg g0 E) Hnd Ha). reflexivity.
  Qed.
End Unfoldings.

(** *** Completeness *)
Section Complete.
  Context (steps : list pstep) (cells : list mcell) (anc : mref -> option ancestors) (tq : nat -> ta_quant) (R : list nat) (M : structure).
  Context (Hclosed : protocol_closed steps cells tq) (Hanc : answers_cells anc cells).
  Context (start : formula * sstate) (Hstart : ok R start).
  Let visited := visits steps anc tq children start.
  Context (Hdef : forall e, visited e -> unfold steps anc tq e <> None).
  Context (Hapart : forall e, visited e -> apart (ss_bound (snd e)) R).

  Lemma visited_ok e : visited e -> ok R e.
  Proof. intros H. eapply visit_ok; eauto. Qed.
  Lemma apart_app l r : apart (l ++ r) R -> apart r R.
  Proof. intros H i Hi. apply H. rewrite map_app, in_app_iff. auto. Qed.
  Lemma typed_sorts vs ws ds : map vsort vs = map vsort ws -> typed (M:=M) ws ds -> typed vs ds.
  Proof. intros E H. apply typed_args. rewrite E. apply typed_args. exact H. Qed.
  Lemma plain_args s args : plain (FFun s args) -> Forall plain args.
  Proof. intros H. apply Forall_forall. intros a Ha. eapply plain_arg; eauto. Qed.

  Lemma agree_refl (r : env M) m : plain m -> agree r r m m.
  Proof.
    unfold agree. induction m as [v|s args IH|q vs b IH] using formula_ind'; intros Hpm.
    - constructor. reflexivity.
    - constructor. assert (Hpa : forall a, In a args -> plain a) by (intros a; eapply plain_arg; eauto). clear -IH Hpa.
      induction args as [|a args IHa]; constructor.
      + apply Forall_inv in IH. apply IH. apply Hpa. left; reflexivity.
      + apply Forall_inv_tail in IH. apply IHa; auto. intros b Hb. apply Hpa. right; exact Hb.
    - exfalso. eapply (Hpm []). constructor.
  Qed.

  Lemma now_visited (rho : env M) f h vs : occurs_now tq M rho f h vs ->
    forall g st (rho' : env M), visited (g, st) -> agree rho rho' f g -> plain f -> uf_quant (ss_flags st) = true ->
    exists args st' new ds, visited (FFun h args, st') /\ ss_bound st' = ss_bound st ++ new /\ ss_flags st' = ss_flags st /\ typed new ds /\
      map (fun a => eval a (bindv rho' new ds)) args = vs /\ (guard_holds st' (bindv rho' new ds) <-> guard_holds st rho').
  Proof.
    induction 1 as [rho h args|rho s args a h vs Ha Ho IH|rho k args f0 ds h vs Hf0 Hds Ho IH]; intros g st rho' Hv Hag Hp Hq.
    - inversion Hag as [|? ? args' HF|]; subst. exists args', st, [], []. cbn. rewrite app_nil_r.
      split; [exact Hv|]. split; [reflexivity|]. split; [reflexivity|]. split; [constructor|]. split; [|reflexivity].
      apply agree_args; [exact HF|]. eapply plain_args; eauto.
    - inversion Hag as [|? ? args' HF|]; subst. apply In_nth_error in Ha as (i & Hi).
      assert (exists a', nth_error args' i = Some a' /\ agree rho rho' a a') as (a' & Hi' & Haa).
      { clear -HF Hi. revert i Hi. induction HF as [|x y l l' Hxy HF IHF]; intros [|i] Hi; try discriminate.
        - injection Hi as <-. exists y. auto.
        - apply IHF. exact Hi. }
      apply (IH a' st rho'); auto.
      + eapply visits_trans; [exact Hv|]. eapply vi_child; [cbn; eapply nth_error_In; eauto|constructor].
      + eapply plain_arg; [exact Hp|]. eapply nth_error_In; eauto.
    - inversion Hag as [|? ? args' HF|]; subst.
      destruct (visited_ok _ Hv) as (Hpg & Hw & Hn & Hg). cbn [fst snd] in *.
      assert (Hargs : forall a, In a args' -> within a (map vid (ss_bound st) ++ R)) by exact (proj1 (within_fun _ _ _) Hw).
      destruct (unfold steps anc tq (FFun (Fquant k) args', st)) as [us|] eqn:Eu; [|exfalso; eapply Hdef; eauto].
      pose proof Eu as Eu'. cbn in Eu. rewrite Hq in Eu. assert (Hcl := Hclosed). destruct Hcl as (_ & _ & Hqc).
      destruct (quant_instance R (M:=M) st (tq k) args' us f0 Eu (Hqc k) Hf0 Hargs Hg) as (u & new & Hin & Hb & Hfl & Hso & Hinst).
      destruct u as [h0 st1]. cbn [fst snd] in *.
      assert (Hv1 : visited (h0, st1)).
      { eapply visits_trans; [exact Hv|]. eapply vi_unfold; [exact Eu'|exact Hin|constructor]. }
      assert (Hap : apart new R).
      { apply (apart_app (ss_bound st)). rewrite <- Hb. apply (Hapart (h0, st1)). exact Hv1. }
      assert (Hl : length (tq_bound (tq k)) = length ds) by (apply typed_length; exact Hds).
      destruct (Hinst Hap rho rho' ds Hl) as [Ha1 Hg1].
      assert (Eargs : map (fun a => eval a rho') args' = map (fun a => eval (M:=M) a rho) args)
        by (apply agree_args; [exact HF|eapply plain_args; eauto]).
      rewrite Eargs in Ha1.
      assert (Hpf : plain f0) by (destruct (Hqc k) as (_ & _ & _ & _ & Hpl); auto).
      destruct (IH h0 st1 (bindv rho' new ds) Hv1 Ha1 Hpf) as (args1 & st' & new2 & ds2 & Hv2 & Hb2 & Hf2 & Ht2 & Hvs & Hg2); [congruence|].
      exists args1, st', (new ++ new2), (ds ++ ds2).
      assert (Hl1 : length new = length ds).
      { rewrite <- Hl, <- (map_length vsort new), Hso, map_length. reflexivity. }
      rewrite (bindv_app M new new2 rho' ds ds2 Hl1).
      split; [exact Hv2|]. split; [rewrite Hb2, Hb, app_assoc; reflexivity|]. split; [congruence|].
      split; [apply typed_app; [eapply typed_sorts; eauto|exact Ht2]|]. split; [exact Hvs|]. rewrite Hg2. exact Hg1.
  Qed.

  (** Looking into inputs once is enough: earlier steps are before the first time point as well. *)
  Lemma at_once (rho : env M) f h vs : occurs_at steps tq M rho f h vs -> reads_past steps tq M -> lt_trans_ M ->
    occurs_now tq M rho f h vs \/ exists e s c ds, occurs_now tq M rho f (Fmacro MInput) [e] /\ In s steps /\ typed (ps_vars s) ds /\
      (c = ps_msg s \/ c = ps_cond s) /\ tholds M Flt [inst M (ps_fun s) ds; e] /\ exists rho0, occurs_now tq M (bindv rho0 (ps_vars s) ds) c h vs.
  Proof.
    intros H Hr Htr. induction H as [rho f h vs H|rho f e s c ds h vs He Hs Hds Hc Hlt H IH]; [auto|].
    right. destruct IH as [IH|(e' & s' & c' & ds' & He' & Hs' & Hds' & Hc' & Hlt' & rho0 & IH)].
    - exists e, s, c, ds. repeat (split; [assumption|]). eauto.
    - exists e, s', c', ds'. repeat (split; [assumption|]). split; [|eauto].
      destruct (Hr s ds c rho e' Hs Hds Hc He') as [->|Hlt2]; [eapply Htr; eauto|]. eapply Htr; [exact Hlt'|]. eapply Htr; eauto.
  Qed.

  Context (Hinput : forall a, anc RInput = Some a -> an_input a = true).
  Lemma at_visited (rho : env M) h vs : occurs_at steps tq M rho (fst start) h vs -> reads_past steps tq M -> lt_trans_ M ->
    uf_quant (ss_flags (snd start)) = true -> uf_input (ss_flags (snd start)) = true -> guard_holds (snd start) rho ->
    exists args st' new ds, visited (FFun h args, st') /\ ss_bound st' = ss_bound (snd start) ++ new /\ typed new ds /\
      map (fun a => eval a (bindv rho new ds)) args = vs /\ guard_holds st' (bindv rho new ds).
  Proof.
    intros H Hr Htr Hq Hi Hgd. set (m := fst start) in *. set (st0 := snd start) in *.
    assert (Hpm : plain m) by (apply Hstart).
    assert (Hself : forall r : env M, agree r r m m) by (intros r; apply agree_refl; exact Hpm).
    assert (Hv0 : visited (m, st0)) by (unfold visited, m, st0; rewrite <- surjective_pairing; constructor).
    destruct (at_once rho m h vs H Hr Htr) as [Hn|(e & s & c & ds & He & Hs & Hds & Hc & Hlt & rho0 & Hn)].
    - destruct (now_visited rho m h vs Hn m st0 rho Hv0 (Hself rho) Hpm Hq) as (args & st' & new & ds & Hv & Hb & _ & Ht & Hvs & Hg).
      exists args, st', new, ds. rewrite Hg. auto.
    - destruct (now_visited rho m _ _ He m st0 rho Hv0 (Hself rho) Hpm Hq) as (args & st1 & new & ds1 & Hv & Hb & Hfl & Ht & Hvs & Hg).
      destruct args as [|t [|]]; try discriminate. cbn in Hvs. injection Hvs as Et.
      destruct (visited_ok _ Hv) as (Hpg & Hw & Hnd & Hgw). cbn [fst snd] in *.
      assert (Htw : within t (map vid (ss_bound st1) ++ R)) by (apply (proj1 (within_fun _ _ _) Hw); left; reflexivity).
      destruct (unfold steps anc tq (FFun (Fmacro MInput) [t], st1)) as [us|] eqn:Eu; [|exfalso; eapply Hdef; eauto].
      pose proof Eu as Eu'. cbn in Eu. rewrite Hfl, Hi in Eu. unfold unfold_cell_or_input in Eu.
      destruct (anc RInput) as [[inp cs]|] eqn:Er; [|discriminate]. cbn [rev List.app] in Eu.
      assert (inp = true) as -> by exact (Hinput _ eq_refl).
      destruct (mapM _ (flat_map ce_asgs cs)) as [l1|]; [|discriminate].
      destruct (mapM _ (flat_map _ steps)) as [l2|] eqn:E2; [|discriminate]. injection Eu as <-.
      assert (Hin : In (s, c) (flat_map (fun s => [(s, ps_msg s); (s, ps_cond s)]) steps)).
      { apply in_flat_map. exists s. split; [exact Hs|]. destruct Hc as [->| ->]; cbn; auto. }
      destruct (mapM_defined _ _ _ _ E2 Hin) as (u & Hu & Eun).
      assert (Hcl : closed_over (ps_vars s) c).
      { destruct Hclosed as (Hsteps & _). destruct (Hsteps s Hs) as [H1 H2]. destruct Hc as [->| ->]; auto. }
      match type of Eun with unfold_step ?x _ _ _ = _ => set (st1' := x) in * end.
      destruct (step_instance R (M:=M) st1' t s c u Eun Hcl Htw Hgw) as (new2 & Hb2 & Hf2 & Hso2 & Hinst).
      destruct u as [g2 st2]. cbn [fst snd] in *.
      assert (Hv2 : visited (g2, st2)).
      { eapply visits_trans; [exact Hv|]. eapply vi_unfold; [exact Eu'|apply in_app_iff; right; exact Hu|constructor]. }
      assert (Hap : apart new2 R).
      { apply (apart_app (ss_bound st1)). change (ss_bound st1) with (ss_bound st1'). rewrite <- Hb2. apply (Hapart (g2, st2)). exact Hv2. }
      destruct (Hinst Hap rho0 (bindv rho new ds1) ds (typed_length _ _ Hds)) as [Ha2 Hg2].
      assert (Hpc : plain c) by (apply Hcl).
      destruct (now_visited _ c h vs Hn g2 st2 _ Hv2 Ha2 Hpc) as (args & st' & new3 & ds3 & Hv3 & Hb3 & _ & Ht3 & Hvs3 & Hg3).
      { rewrite Hf2. exact Hq. }
      assert (Hl1 : length new = length ds1) by (apply typed_length; exact Ht).
      assert (Ht2 : typed new2 ds) by (eapply typed_sorts; eauto).
      assert (Hl2 : length new2 = length ds) by (apply typed_length; exact Ht2).
      exists args, st', (new ++ new2 ++ new3), (ds1 ++ ds ++ ds3).
      rewrite (bindv_app M new (new2 ++ new3) rho ds1 (ds ++ ds3) Hl1), (bindv_app M new2 new3 _ ds ds3 Hl2).
      split; [exact Hv3|]. split; [rewrite Hb3, Hb2; cbn; rewrite Hb, !app_assoc; reflexivity|].
      split; [apply typed_app; [exact Ht|apply typed_app; auto]|]. split; [exact Hvs3|].
      apply Hg3, Hg2. split; [|rewrite Et; exact Hlt]. apply Hg. exact Hgd.
  Qed.
End Complete.

(** *** The generated assertion *)
Lemma sorts_to_variables_ids ss : forall k v, In v (sorts_to_variables k ss) -> k <= vid v.
Proof. induction ss as [|s ss IH]; cbn; intros k v H; [destruct H|]. destruct H as [<-|H]; [cbn; lia|]. apply IH in H. lia. Qed.

Lemma special_assertion_true steps cells anc tq : protocol_closed steps cells tq -> answers_cells anc cells ->
  (forall a, anc RInput = Some a -> an_input a = true) ->
  forall get_sort aux_sort i mfuel scmp, (forall a b, scmp a b = Eq <-> a = b) ->
  forall fuel mv fl keep fn ss ax,
  special_assertion get_sort aux_sort true (KVampire i) steps anc tq mfuel children scmp fuel mv fl keep fn ss = Some ax ->
  uf_quant fl = true -> uf_input fl = true ->
  let vars := sorts_to_variables (mv + 2) ss in
  let ff := FFun fn (map FVar vars) in
  (forall e, visits steps anc tq children (ff, mkSt fl [] None) e -> forall v, In v (ss_bound (snd e)) -> vid v <> mv + 1 /\ ~ In (vid v) (map vid vars)) ->
  forall M : structure, (forall s, exists d, dom M s d) -> lt_trans_ M -> reads_past steps tq M ->
  (forall rho : env M, tholds M (Fsubterm i) [rho (mv + 1); eval ff rho] ->
     exists h vs, occurs_at steps tq M rho ff h vs /\ (forall args, get_sort (FFun h args) = Some aux_sort) /\ rho (mv + 1) = app h vs) ->
  forall rho : env M, holds ax rho.
Proof.
  intros Hcl Hans Hin get_sort aux_sort i mfuel scmp Hscmp fuel mv fl keep fn ss ax Hax Hq Hi vars ff Hap M Hne Htr Hrp Hsub rho.
  unfold special_assertion in Hax. replace (mv + 1 + 1) with (mv + 2) in Hax by lia. fold vars in Hax. fold ff in Hax.
  unfold preprocess_term_to_formula, preprocess_term in Hax.
  destruct (preprocess_terms _ _ _ _ _ _ _ _ _ _ _ _ _ _) as [out|] eqn:Eout; [|discriminate]. cbn in Hax. injection Hax as <-.
  apply holds_all. intros ds Hds. apply holds_imp. intros Hatom.
  set (rho1 := bindv rho (vars ++ [mkVar (mv + 1) aux_sort]) ds) in *.
  apply Hsub in Hatom as (h & vs & Hocc & Hsort & Hval).
  destruct (terms_spec _ _ _ _ _ _ _ _ _ _ _ _ _ _ _ Eout) as [Hvis Hres].
  set (start := (ff, mkSt fl [] None)) in *. set (R := mv + 1 :: map vid vars).
  assert (Hwff : within ff (map vid vars)).
  { apply within_fun. intros a Ha. apply in_map_iff in Ha as (w & <- & Hw). apply within_var, in_map. exact Hw. }
  assert (Hok : ok R start).
  { repeat split; cbn.
    - intros p q vs0 b Hp. inversion Hp as [|? ? j p' a ? Ha Hp'|]; subst. rewrite nth_error_map in Ha. destruct (nth_error vars j); [|discriminate].
      injection Ha as <-. inversion Hp'.
    - eapply within_sub; [exact Hwff|]. intros j Hj. right. exact Hj.
    - constructor.
    - intros g [=]. }
  assert (Hapart : forall e, visits steps anc tq children start e -> apart (ss_bound (snd e)) R).
  { intros e He j Hj HR. apply in_map_iff in Hj as (v & <- & Hv). destruct (Hap e He v Hv) as [H1 H2]. destruct HR as [HR|HR]; [congruence|auto]. }
  destruct (at_visited steps cells anc tq R M Hcl Hans start Hok) with (rho := rho1) (h := h) (vs := vs)
    as (args & st' & new & es & Hv & Hb & Ht & Hvs & Hg); auto.
  { intros e He. destruct e as [f st]. destruct (Hvis ff [] f st) as (us & ou & Eu & _); [left; reflexivity|exact He|]. congruence. }
  { exact I. }
  destruct (Hvis ff [] _ _ (or_introl eq_refl) Hv) as (us & ou & _ & Eis & Hout).
  pose proof Eis as Eis2. unfold is_subterm, unified in Eis. rewrite Hsort in Eis.
  assert (Es : sort_eqb aux_sort aux_sort = true) by (unfold sort_eqb; destruct (sort_eq_dec aux_sort aux_sort); congruence).
  rewrite Es in Eis. injection Eis as <-. destruct (Hout _ eq_refl) as (g & Eg & Hgin).
  destruct (var_result _ _ _ _ _ _ _ _ _ _ _ Eis2 Eg) as [_ ->].
  assert (Hform : forall d, In d out -> exists e g0, visits steps anc tq children start e /\ d = (ss_bound (snd e), g0) /\
    g0 = ands (meq (FVar (mkVar (mv + 1) aux_sort)) (fst e) :: (if keep then match ss_guard (snd e) with Some c => [c] | None => [] end else []))).
  { intros d Hd. destruct (Hres d Hd) as (m & bvs & f & st & u & g0 & [E|[]] & Hv0 & Es0 & Eg0 & ->). injection E as <- <-.
    destruct (var_result _ _ _ _ _ _ _ _ _ _ _ Es0 Eg0) as [_ ->]. exists (f, st). eexists. split; [exact Hv0|]. split; reflexivity. }
  assert (Hone : forall d, In d out -> one_sort (fst d)).
  { intros d Hd. destruct (Hform d Hd) as (e & g0 & Hv0 & -> & _). cbn. destruct (visit_ok steps cells anc tq R Hcl Hans _ _ Hv0 Hok) as (_ & _ & Hnd & _).
    intros v w. apply same_var. exact Hnd. }
  apply (proj2 (@merge_equivalent scmp Hscmp M out Hone rho1 Hne ltac:(
    intros d e v Hd He Hv0 Hfree; destruct (Hform d Hd) as (ed & gd & Hvd & -> & ->); destruct (Hform e He) as (ee & ge & Hve & -> & ->);
    cbn in Hv0, Hfree |- *; destruct (visit_ok steps cells anc tq R Hcl Hans _ _ Hvd Hok) as (_ & Hwd & _ & Hgd);
    match type of Hfree with occurs_free _ ?F => assert (HwF : within F (map vid (ss_bound (snd ed)) ++ R)) end;
    [apply within_fun; intros a [<-|Ha];
      [apply meq_within; [apply within_var; apply in_app_iff; right; left; reflexivity|exact Hwd]
      |destruct keep; [|destruct Ha]; destruct (ss_guard (snd ed)) as [c|] eqn:Ec; [|destruct Ha]; destruct Ha as [<-|[]]; apply Hgd; exact Ec]
    |apply (fun H => free_within _ _ _ H HwF) in Hfree; apply in_app_iff in Hfree as [Hf|Hf]; [exact Hf|];
     exfalso; eapply (Hapart ee Hve); [apply in_map; exact Hv0|exact Hf]]))).
  unfold disjunction. apply holds_ors. eexists. split; [apply in_map; exact Hgin|]. cbn [fst snd].
  rewrite Hb. cbn. apply (holds_ex_intro new _ rho1 es Ht). apply holds_and_list. constructor; [|apply guard_list; intros _; exact Hg].
  apply holds_meq. cbn. rewrite Hvs, <- Hval.
  symmetry. unfold rho1 at 1. fold rho1. symmetry. apply bindv_other. intros Hj. apply (Hapart _ Hv (mv + 1)).
  - cbn. rewrite Hb. cbn. exact Hj.
  - left. reflexivity.
Qed.
