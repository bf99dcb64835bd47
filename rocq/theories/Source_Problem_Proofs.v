(** Proofs about whole problems. *)
From Coq Require Import List Arith Bool Lia Permutation.
From Verif Require Import Syntax_Model Traversal_Spec Semantics_Spec Sort_Model Order_Model Macro_Model Parser_Model Parser_Spec Parser_Proofs Parser_More_Proofs
  Source_Model Source_Spec Source_Proofs Source_More_Proofs Source_Closed_More_Proofs Source_Problem_Spec.
Import ListNotations.

Lemma read_in_mono env j st fr vs fs t f qs q : read_in env qs j st fr vs fs t f -> read_in env (qs ++ q) j st fr vs fs t f.
Proof. intros [H1 H2 H3]. split; auto. intros Hs Hc Hn M qsem mval U Q R. apply H3; auto. eapply respects_app; eauto. Qed.
Lemma step_read_mono env j st p qs q : step_read env qs j st p -> step_read env (qs ++ q) j st p.
Proof. intros [H1 H2 H3 H4 H5]. split; auto using read_in_mono. Qed.
Lemma asg_read_mono env j st p so a x qs q : asg_read env qs j st p so a x -> asg_read env (qs ++ q) j st p so a x.
Proof. intros [r1 r2 r3 r4 r4' [r5 r5'] r6]. split; auto using read_in_mono. split; [exact r5|]. intros. apply read_in_mono. eapply r5'; eauto. Qed.
Lemma formula_read_mono env t f qs q : formula_read env qs t f -> formula_read env (qs ++ q) t f.
Proof. intros [H1 H2]. split; [exact H1|]. intros Hs Hc M qsem mval U Q R. apply H2; auto. eapply respects_app; eauto. Qed.
Lemma order_read_mono env t f qs q : order_read env qs t f -> order_read env (qs ++ q) t f.
Proof. intros [H1 H2]. split; [exact H1|]. intros Hs Hn H3 H4 H5 M qsem mval U Q R. apply H2; auto. eapply respects_app; eauto. Qed.
Definition grows (s s' : pst) : Prop := exists q, p_qs s' = p_qs s ++ q.
Lemma grows_refl s : grows s s. Proof. exists []. rewrite app_nil_r. reflexivity. Qed.
Lemma grows_trans a b c : grows a b -> grows b c -> grows a c.
Proof. intros (q & E) (q' & E'). exists (q ++ q'). rewrite E', E, app_assoc. reflexivity. Qed.
Lemma Forall2_mono {A B} (P Q : A -> B -> Prop) l l' : (forall a b, P a b -> Q a b) -> Forall2 P l l' -> Forall2 Q l l'.
Proof. intros H F. induction F; constructor; auto. Qed.

Lemma assert_reads env fuel t s f s' : gentle env true 0 t -> parse_assert env fuel t s = Done f s' -> grows s s' /\ formula_read env (p_qs s') t f.
Proof.
  intros Hp H. pose proof H as H'. unfold parse_assert in H. apply bind_done in H as (u & s1 & H1 & H). unfold setbv in H1. injection H1 as _ <-.
  apply (plain_scoped env fuel true) in H; auto using numbered_nil. cbn [p_bv p_qs length] in H. destruct H as (W & _ & q & Q & _). split; [exists q; exact Q|]. split; [exact W|].
  intros Hs Hc. eapply assert_means; eauto.
Qed.
Lemma asserts_reads env fuel : forall ts s fs s', Forall (gentle env true 0) ts -> mapMM (parse_assert env fuel) ts s = Done fs s' -> grows s s' /\ Forall2 (formula_read env (p_qs s')) ts fs.
Proof.
  induction ts as [|t ts IH]; intros s fs s' Hp H; cbn [mapMM] in H.
  - unfold ret in H. injection H as <- <-. split; [apply grows_refl|constructor].
  - inversion Hp as [|? ? Pt Pts]; subst. apply bind_done in H as (f & s1 & H1 & H). apply assert_reads in H1 as [G1 R1]; auto. apply bind_done in H as (l & s2 & H2 & H). unfold ret in H. injection H as <- <-.
    apply IH in H2 as [G2 R2]; auto. split; [eapply grows_trans; eauto|]. constructor; [|exact R2]. destruct G2 as (q & ->). apply formula_read_mono. exact R1.
Qed.
Lemma orders_reads env fuel : forall os s rs s', Forall (fun o => gentle_item env (IOrder o)) os -> mapMM (parse_order env fuel) os s = Done rs s' -> grows s s' /\ Forall2 (order_read env (p_qs s')) os rs.
Proof.
  induction os as [|o os IH]; intros s rs s' Hp H; cbn [mapMM] in H.
  - unfold ret in H. injection H as <- <-. split; [apply grows_refl|constructor].
  - inversion Hp as [|? ? (P1 & P2 & P3) Hp']; subst. apply bind_done in H as (r & s1 & H1 & H). apply bind_done in H as (l & s2 & H2 & H). unfold ret in H. injection H as <- <-.
    apply IH in H2 as [G2 R2]; auto. assert (G1 : grows s s1) by (eapply order_qs; eauto). split; [eapply grows_trans; eauto|]. constructor; [|exact R2].
    destruct G2 as (q & ->). apply order_read_mono. eapply order_good; eauto.
Qed.

(** The steps of a table of functions. *)
Definition sts (es : list (name * entry)) : list (nat * step_cache * step_ast) :=
  flat_map (fun e => match snd e with EnStep (mkFc (Fstep j) _ _ _) st a => [(j, st, a)] | _ => [] end) es.
Definition pairs_of (l : list (nat * step_cache * step_ast)) : list (nat * step_cache * step_ast * assign_ast) :=
  flat_map (fun x => map (pair x) (sa_asgs (snd x))) l.
Section Steps.
  Variable d : denv.
  Variable fuel : nat.
  Notation env := (penv_of d).
  Definition step_ok (x : nat * step_cache * step_ast) : Prop :=
    let k := length (st_args (snd (fst x))) in let_body env (S k) (st_msg (snd (fst x))) /\ let_body env (S k) (st_cond (snd (fst x))) /\ Forall (gentle_asg env k) (sa_asgs (snd x)).
  Definition asg_ok (qs : list tquant) (ps : list pstep) (y : nat * step_cache * step_ast * assign_ast) (x : name * assignment) : Prop :=
    fst x = aa_cell (snd y) /\ exists p fc n sorts, In p ps /\ step_read env qs (fst (fst (fst y))) (snd (fst (fst y))) p /\ lookup (fst x) (d_funs d) = Some (EnCell fc n sorts) /\
      asg_read env qs (fst (fst (fst y))) (snd (fst (fst y))) p sorts (snd y) (snd x).
  Lemma asg_ok_mono qs q ps ps' y x : (forall p, In p ps -> In p ps') -> asg_ok qs ps y x -> asg_ok (qs ++ q) ps' y x.
  Proof. intros Hi [H1 (p & fc & n & so & H2 & H3 & H4 & H5)]. split; [exact H1|]. exists p, fc, n, so. auto using step_read_mono, asg_read_mono. Qed.
  Lemma steps_reads : forall es s ps asgs s', Forall step_ok (sts es) -> parse_steps d fuel es s = Done (ps, asgs) s' ->
    grows s s' /\ Forall2 (fun x p => step_read env (p_qs s') (fst (fst x)) (snd (fst x)) p) (sts es) ps /\ Forall2 (asg_ok (p_qs s') ps) (pairs_of (sts es)) asgs.
  Proof.
    induction es as [|[x e] es IH]; intros s ps asgs s' Ho H; cbn [parse_steps] in H.
    - unfold ret in H. injection H as <- <- <-. split; [apply grows_refl|]. split; constructor.
    - destruct e as [fc|[sy kd nm sp] st a|fc k so]; try (apply IH; assumption). destruct sy; try (apply IH; assumption). rename i into j.
      change (sts ((x, EnStep (mkFc (Fstep j) kd nm sp) st a) :: es)) with ((j, st, a) :: sts es) in *. inversion Ho as [|? ? (O1 & O2 & O3) Ho']; subst. cbn [fst snd] in *.
      apply bind_done in H as ([p l] & s1 & H1 & H). apply step_decl_good in H1; auto. destruct H1 as (G1 & R1 & A1).
      apply bind_done in H as ([ps' asgs'] & s2 & H2 & H). unfold ret in H. cbn [fst snd] in H. injection H as <- <- <-. apply IH in H2 as (G2 & R2 & A2); auto.
      split; [eapply grows_trans; eauto|]. destruct G2 as (q & Q). split; [constructor; [rewrite Q; apply step_read_mono; exact R1|exact R2]|].
      unfold pairs_of. cbn [flat_map]. apply Forall2_app.
      + cbn [fst snd]. rewrite Q. clear -R1 A1. revert l A1. induction (sa_asgs a) as [|b bs IHb]; intros l A; inversion A as [|? ? ? ? [E (fc & n & so & L & R)] A']; subst; [constructor|]. cbn [map]. constructor; [|apply IHb; exact A'].
        split; [exact E|]. exists p, fc, n, so. cbn [fst snd]. split; [left; reflexivity|]. auto using step_read_mono, asg_read_mono.
      + refine (Forall2_mono _ _ _ _ _ A2). intros y z Hz. rewrite <- (app_nil_r (p_qs s2)). eapply asg_ok_mono; [|exact Hz]. intros; right; assumption.
  Qed.
  Lemma crypto_asks : arities_below d fuel -> 4 <= fuel -> forall cs s r s', all_crypto d fuel cs s = Done r s' -> Forall2 (asks d) cs r.
  Proof.
    intros Ha Hf. induction cs as [|c cs IH]; intros s r s' H; cbn [all_crypto] in H; [unfold ret in H; injection H as <- <-; constructor|].
    apply bind_done in H as (a & s1 & H1 & H). apply bind_done in H as (l & s2 & H2 & H). unfold ret in H. injection H as <- <-. constructor; [|eapply IH; eauto].
    destruct (crypto_decided d fuel Ha Hf c) as [(b & E & K)|[E _]]; rewrite E in H1; cbn in H1; [|discriminate]. injection H1 as <- _. exact K.
  Qed.
End Steps.

Lemma Forall2_right {A B} (P : A -> B -> Prop) l m b : Forall2 P l m -> In b m -> exists a, In a l /\ P a b.
Proof. induction 1 as [|x y l m H F IH]; intros []; [subst; exists x; split; [left; reflexivity|exact H]|]. destruct IH as (a & Ha & Hp); [assumption|]. exists a. split; [right; exact Ha|exact Hp]. Qed.
Lemma Forall2_left {A B} (P : A -> B -> Prop) l m a : Forall2 P l m -> In a l -> exists b, In b m /\ P a b.
Proof. induction 1 as [|x y l m H F IH]; intros []; [subst; exists y; split; [left; reflexivity|exact H]|]. destruct IH as (b & Hb & Hp); [assumption|]. exists b. split; [right; exact Hb|exact Hp]. Qed.
Lemma Forall2_in {A B} (P Q : A -> B -> Prop) l m : (forall a b, In a l -> P a b -> Q a b) -> Forall2 P l m -> Forall2 Q l m.
Proof. intros H F. induction F as [|a b l m Hp F IH]; [constructor|]. constructor; [apply H; [left; reflexivity|exact Hp]|]. apply IH. intros; apply H; [right; assumption|assumption]. Qed.
Lemma Forall2_maps {A B C D} (f : A -> C) (g : B -> D) (P : C -> D -> Prop) l m : Forall2 (fun a b => P (f a) (g b)) l m -> Forall2 P (map f l) (map g m).
Proof. induction 1; cbn; constructor; auto. Qed.

(** Exchanging two elements. *)
Lemma set_nth_split {A} (b : A) l1 a l2 : set_nth (length l1) b (l1 ++ a :: l2) = l1 ++ b :: l2.
Proof. induction l1 as [|x l1 IH]; cbn; [reflexivity|]. rewrite IH. reflexivity. Qed.
Lemma swap_split {A} (a b : A) l1 l2 : swap_first (S (length l1)) (a :: l1 ++ b :: l2) = b :: l1 ++ a :: l2.
Proof. unfold swap_first. cbn [nth_error]. rewrite nth_error_app2, Nat.sub_diag by lia. cbn [nth_error set_nth]. rewrite set_nth_split. reflexivity. Qed.
Lemma swap_reads {A B} (P : A -> B -> Prop) i : forall l m, i < length m -> Forall2 P l m -> exists l', Permutation l' l /\ Forall2 P l' (swap_first i m).
Proof.
  intros l m Hi F. destruct F as [|a b l m H F]; [cbn in Hi; lia|]. destruct i as [|i]; [exists (a :: l); split; [reflexivity|constructor; auto]|]. cbn in Hi.
  destruct (nth_error m i) as [c|] eqn:E; [|apply nth_error_None in E; lia]. apply nth_error_split in E as (m1 & m2 & -> & <-). apply Forall2_app_inv_r in F as (l1 & l2 & F1 & F2 & ->). inversion F2 as [|e ? l2' ? Fe F2']; subst.
  rewrite swap_split. exists (e :: l1 ++ a :: l2'). split; [|constructor; [exact Fe|apply Forall2_app; [exact F1|constructor; auto]]].
  rewrite <- Permutation_middle, <- Permutation_middle. apply perm_swap.
Qed.
Lemma swap_perm {A} i (m : list A) : Permutation (swap_first i m) m.
Proof.
  destruct m as [|a m]; [destruct i; reflexivity|]. destruct i as [|i]; [reflexivity|]. destruct (nth_error m i) as [c|] eqn:E; [|unfold swap_first; cbn [nth_error]; rewrite E; reflexivity].
  apply nth_error_split in E as (m1 & m2 & -> & <-). rewrite swap_split. rewrite <- Permutation_middle, <- Permutation_middle. apply perm_swap.
Qed.
Lemma filter_reads {A B} (P : A -> B -> Prop) (f : A -> bool) (g : B -> bool) l m : (forall a b, P a b -> f a = g b) -> Forall2 P l m -> Forall2 P (filter f l) (filter g m).
Proof. intros H F. induction F as [|a b l m Hab F IH]; cbn; [constructor|]. rewrite (H a b Hab). destruct (g b); [constructor; auto|auto]. Qed.

(** The assignments to a cell. *)
Lemma writes_pairs c X : map (fun y => (snd (fst y), snd y)) (filter (fun y => Nat.eqb (aa_cell (snd y)) c) (pairs_of X)) =
  flat_map (fun a => flat_map (fun x => if Nat.eq_dec (aa_cell x) c then [(a, x)] else []) (sa_asgs a)) (map snd X).
Proof.
  induction X as [|[y a] X IH]; [reflexivity|]. unfold pairs_of in *. cbn [flat_map map snd]. rewrite filter_app, map_app, IH. f_equal. induction (sa_asgs a) as [|x xs IHx]; [reflexivity|]. cbn [map filter flat_map snd].
  destruct (Nat.eq_dec (aa_cell x) c) as [E|E]; [apply Nat.eqb_eq in E|apply Nat.eqb_neq in E]; rewrite E; cbn [map fst snd app]; rewrite IHx; reflexivity.
Qed.
Definition ces (es : list (name * entry)) : list (name * (nat * list sort)) :=
  flat_map (fun e => match snd e with EnCell _ k so => [(fst e, (k, so))] | _ => [] end) es.
Lemma cells_map es asgs : parse_cells es asgs = map (fun c => mkCell (fst (snd c)) (snd (snd c)) (map snd (filter (fun a => Nat.eqb (fst a) (fst c)) asgs))) (ces es).
Proof. unfold parse_cells, ces. induction es as [|[x e] es IH]; [reflexivity|]. cbn [flat_map]. rewrite map_app. f_equal; [destruct e; reflexivity|exact IH]. Qed.

Section File.
  Variables (bs : list (name * sort)) (bf : list (name * fcache)) (kw : list name) (sh : bool) (l : list item).
  Hypothesis B : builtins bs bf kw.
  Hypothesis W : well_declared bs bf kw l.
  Let d0 := typed_env bs bf kw sh l.
  Let d := full_env bs bf kw sh l.

  Lemma sorts_same x : lookup x (d_sorts d0) = e_sorts (penv_of d) x.
  Proof. cbn [penv_of e_sorts]. unfold d. rewrite full_sorts. reflexivity. Qed.
  Lemma got_sorts xs ss : get_sorts d0 xs = Some ss -> map (e_sorts (penv_of d)) xs = map Some ss.
  Proof. intros H. apply get_sorts_spec in H. rewrite <- H. apply map_ext. intros x. symmetry. apply sorts_same. Qed.
  Lemma found x e : In (x, e) (d_funs d) -> e_functions (penv_of d) x = Some (entry_cache e).
  Proof. intros H. cbn. unfold d in *. apply full_lookup in H; [|exact B|exact W]. rewrite H. reflexivity. Qed.

  Lemma entries_steps : forall ls k, (forall i, In i ls -> item_fits d0 i) -> map snd (sts (entries d0 k ls)) = steps_of ls.
  Proof.
    induction ls as [|i ls IH]; intros k H; [reflexivity|]. cbn [entries]. unfold sts in *. rewrite flat_map_app, map_app, IH by (intros j Hj; apply H; right; exact Hj). unfold steps_of. cbn [flat_map]. f_equal.
    pose proof (proj1 (H i (or_introl eq_refl))) as D. destruct i as [n|n args out|n args out|a|n ps body|t|t|t|o|c]; try reflexivity.
    - cbn [entry_of]. destruct (lookup out _); [|reflexivity]. destruct (get_sorts d0 args); [|reflexivity]. cbv zeta. destruct (sort_eqb _ _); [reflexivity|]. destruct (is_term_algebra _); reflexivity.
    - cbn [entry_of]. destruct (get_sorts d0 args); reflexivity.
    - cbn [entry_of] in *. destruct (get_sorts d0 (map snd (sa_params a))); [reflexivity|]. elim (D eq_refl). reflexivity.
  Qed.
  Lemma builtin_nil {A} (f : name * entry -> list A) : (forall x fc, f (x, EnFun fc) = []) -> flat_map f (d_funs d0) = [].
  Proof. intros H. cbn. clear B W d0 d. induction bf as [|[x fc] bf' IH]; [reflexivity|]. cbn. rewrite H. exact IH. Qed.
  Lemma fits_completed i : In i (completed l) -> item_fits d0 i.
  Proof. apply (well_fits bs bf kw sh l B W). Qed.
  Lemma full_steps : map snd (sts (d_funs d)) = steps_of (completed l).
  Proof. unfold d. rewrite full_funs. unfold sts. rewrite flat_map_app, map_app. fold d0. rewrite builtin_nil by reflexivity. apply entries_steps. exact fits_completed. Qed.
  Lemma step_in y : In y (sts (d_funs d)) -> step_of (penv_of d) (snd y) (fst (fst y)) (snd (fst y)) /\ In (IStep (snd y)) (completed l) /\
    exists kd nm sp, In (sa_name (snd y), EnStep (mkFc (Fstep (fst (fst y))) kd nm sp) (snd (fst y)) (snd y)) (entries d0 (length (d_funs d0)) (completed l)).
  Proof.
    intros H. unfold sts in H. apply in_flat_map in H as ([x e] & He & H). cbn [snd] in H. destruct e as [|[sy kd nm sp] st a|]; try contradiction. destruct sy; try contradiction. destruct H as [<-|[]]. cbn [fst snd].
    pose proof (found _ _ He) as F. unfold d in He. rewrite full_funs in He. apply in_app_iff in He as [He|He]; [cbn in He; apply in_map_iff in He as ([z fc] & E & _); discriminate|].
    pose proof He as Hen. apply entries_in in He as (it & j & Hi & He & _). destruct it as [n|n args out|n args out|b|n ps body|t|t|t|o|c]; cbn [entry_of] in He; try discriminate.
    - fold d0 in He. destruct (lookup out (d_sorts d0)); [|discriminate]. destruct (get_sorts d0 args); [|discriminate]. cbv zeta in He. destruct (sort_eqb _ _); [discriminate|]. destruct (is_term_algebra _); discriminate.
    - destruct (get_sorts _ args); discriminate.
    - fold d0 in He. destruct (get_sorts d0 (map snd (sa_params b))) as [ss|] eqn:Es; [|discriminate]. cbn [option_map] in He. cbv zeta in He. injection He as <- <- <- <- <- <- <-. split; [|split; [exact Hi|do 3 eexists; exact Hen]]. split; [eexists; split; [exact F|split; reflexivity]|]. cbn [st_args st_msg st_cond].
      pose proof (got_sorts _ _ Es) as G. assert (Hl : length ss = length (sa_params b)) by (apply (f_equal (@length _)) in G; rewrite !map_length in G; auto).
      assert (E2 : map snd (combine (map fst (sa_params b)) ss) = ss) by (clear -Hl; revert Hl; generalize (sa_params b); induction ss as [|s ss IH]; intros [|q qs] Hl; try discriminate; [reflexivity|]; cbn; f_equal; apply IH; cbn in Hl; lia).
      assert (E1 : map fst (combine (map fst (sa_params b)) ss) = map fst (sa_params b)) by (clear -Hl; revert Hl; generalize (sa_params b); induction ss as [|s ss IH]; intros [|q qs] Hl; try discriminate; [reflexivity|]; cbn; f_equal; apply IH; cbn in Hl; lia).
      split; [exact E1|]. split; [|auto]. rewrite E2. exact G.
  Qed.

  Definition cell_of (c : name * (nat * list sort)) (x : name * list name) : Prop :=
    fst x = fst c /\ (exists fc, e_functions (penv_of d) (fst x) = Some fc /\ fc_sym fc = Fcell (fst (snd c))) /\ map (e_sorts (penv_of d)) (snd x) = map Some (snd (snd c)) /\
    exists fc, lookup (fst c) (d_funs d) = Some (EnCell fc (fst (snd c)) (snd (snd c))).
  Lemma entries_cells : forall ls k, (forall i, In i ls -> item_fits d0 i) -> (forall x e, In (x, e) (entries d0 k ls) -> In (x, e) (d_funs d)) -> Forall2 cell_of (ces (entries d0 k ls)) (cells_of ls).
  Proof.
    induction ls as [|i ls IH]; intros k H Hin; [constructor|]. cbn [entries] in *. unfold ces in *. rewrite flat_map_app. unfold cells_of. cbn [flat_map]. apply Forall2_app; [|apply IH; [intros j Hj; apply H; right; exact Hj|intros x e Hx; apply Hin; apply in_app_iff; auto]].
    pose proof (proj1 (H i (or_introl eq_refl))) as D. destruct i as [n|n args out|n args out|a|n ps body|t|t|t|o|c]; try constructor.
    - cbn [entry_of]. destruct (lookup out _); [|constructor]. destruct (get_sorts d0 args); [|constructor]. cbv zeta. destruct (sort_eqb _ _); [constructor|]. destruct (is_term_algebra _); constructor.
    - cbn [entry_of] in *. destruct (get_sorts d0 args) as [ss|] eqn:Es; [|elim (D eq_refl); reflexivity]. cbn [option_map opt_list flat_map snd fst app] in *. constructor; [|constructor].
      assert (He : In (n, EnCell (mkFc (Fcell k) (SgFixed (ss ++ [SStep]) SMessage) None None) k ss) (d_funs d)) by (apply Hin; left; reflexivity).
      split; [reflexivity|]. cbn [fst snd]. split; [eexists; split; [exact (found _ _ He)|reflexivity]|]. split; [exact (got_sorts _ _ Es)|]. eexists. apply full_lookup; [exact B|exact W|exact He].
    - cbn [entry_of] in *. destruct (get_sorts d0 (map snd (sa_params a))); constructor.
  Qed.
  Lemma completed_cells : cells_of (completed l) = cells_of l.
  Proof. unfold completed. destruct (in_dec _ _ _); [reflexivity|]. unfold cells_of. rewrite flat_map_app. cbn. apply app_nil_r. Qed.
  Lemma full_cells : Forall2 cell_of (ces (d_funs d)) (cells_of l).
  Proof.
    rewrite <- completed_cells. assert (E : ces (d_funs d) = ces (entries d0 (length (d_funs d0)) (completed l))).
    { unfold d. rewrite full_funs. unfold ces. rewrite flat_map_app. fold d0. rewrite builtin_nil by reflexivity. reflexivity. }
    rewrite E. apply entries_cells; [exact fits_completed|]. intros x e H. unfold d. rewrite full_funs. apply in_app_iff. right. exact H.
  Qed.

  Hypothesis P : Forall (gentle_item (penv_of d)) l.
  Lemma plain_in i : In i (completed l) -> gentle_item (penv_of d) i.
  Proof. intros H. rewrite Forall_forall in P. apply completed_in in H as [H| ->]; [auto|]. cbn. split; [|split]; [apply lb_gentle; constructor..|constructor]. Qed.
  Lemma collect {A} (f : item -> list A) (Q : A -> Prop) : (forall i, gentle_item (penv_of d) i -> Forall Q (f i)) -> Forall Q (flat_map f l).
  Proof. intros H. apply Forall_forall. intros a Ha. apply in_flat_map in Ha as (i & Hi & Ha). rewrite Forall_forall in P. specialize (H i (P i Hi)). rewrite Forall_forall in H. auto. Qed.

  Theorem parts_read q es il fuel s p s' : queries_of l = [q] -> Permutation es (d_funs d) -> parse_parts (full_source bs bf kw sh l q) es il fuel s = Done p s' ->
    problem_read l d (p_qs s') il p /\ (arities_below d fuel -> 4 <= fuel -> Forall2 (asks d) (cryptos_of l) (pa_crypto p)).
  Proof.
    intros Hq HP H. unfold parse_parts in H. cbv zeta in H. unfold full_source in H. cbn [so_env so_asserts so_lemmas so_orders so_crypto so_query] in H. fold d in H.
    assert (PS : Permutation (sts es) (sts (d_funs d))) by (apply Permutation_flat_map; exact HP).
    assert (PC : Permutation (ces (d_funs d)) (ces es)) by (apply Permutation_flat_map; symmetry; exact HP).
    assert (Sin : forall y, In y (sts es) -> step_of (penv_of d) (snd y) (fst (fst y)) (snd (fst y)) /\ In (IStep (snd y)) (completed l)) by (intros y Hy; destruct (step_in y) as (? & ? & _); [eapply Permutation_in; eauto|auto]).
    apply bind_done in H as ([ps asgs] & s1 & H1 & H). apply steps_reads in H1; [|apply Forall_forall; intros y Hy; destruct (Sin y Hy) as [(_ & En & _ & Em & Ec) Hi]; apply plain_in in Hi; unfold step_ok; rewrite Em, Ec; cbv zeta; rewrite <- (map_length fst), En, map_length; cbn in Hi; tauto]. destruct H1 as (G1 & R1 & A1).
    apply bind_done in H as (asserts & s2 & H2 & H). apply asserts_reads in H2 as [G2 R2]; [|apply collect; intros [] Hi; cbn in *; auto].
    apply bind_done in H as (query & s3 & H3 & H). apply assert_reads in H3 as [G3 R3]; [|assert (Fq : Forall (gentle (penv_of d) true 0) (queries_of l)) by (apply collect; intros [] Hi; cbn in *; auto); rewrite Hq in Fq; inversion Fq; auto].
    apply bind_done in H as (crypto & s4 & H4 & H). pose proof (crypto_state d fuel _ _ _ _ H4) as E4. subst s4.
    apply bind_done in H as (lemmas & s5 & H5 & H).
    assert (G5 : grows s3 s5 /\ Forall2 (formula_read (penv_of d) (p_qs s5)) (if il then [] else lemmas_of l) lemmas).
    { destruct il; [unfold ret in H5; assert (lemmas = [] /\ s5 = s3) as [-> ->] by (split; congruence); split; [apply grows_refl|constructor]|]. eapply asserts_reads; [apply collect; intros [] Hi; cbn in *; auto|exact H5]. }
    destruct G5 as [G5 R5]. apply bind_done in H as (orders & s6 & H6 & H). apply orders_reads in H6 as [G6 R6]; [|apply collect; intros [] Hi; cbn in *; auto].
    apply bind_done in H as (steps & s7 & H7 & H). unfold ret in H. cbn [snd] in H. assert (p = mkParts d steps (parse_cells es asgs) orders asserts lemmas query crypto /\ s' = s7) as [-> ->] by (split; congruence). clear H.
    unfold lift_opt in H7. cbn [fst] in H7. destruct (init_first _ ps) as [st|] eqn:Ei; [|discriminate]. unfold ret in H7. assert (st = steps /\ s7 = s6) as [-> ->] by (split; congruence). clear H7.
    assert (X16 : grows s1 s6) by (repeat (eapply grows_trans; [eassumption|]); apply grows_refl). assert (X26 : grows s2 s6) by (repeat (eapply grows_trans; [eassumption|]); apply grows_refl).
    assert (X36 : grows s3 s6) by (repeat (eapply grows_trans; [eassumption|]); apply grows_refl). destruct G6 as (q6 & Q6), X16 as (q1 & Q1), X26 as (q2 & Q2), X36 as (q3 & Q3).
    pose proof Ei as Ei'. apply init_first_spec in Ei' as [_ (b & m & Eb & _ & Pb)].
    unfold init_first in Ei. destruct (position _ ps) as [i|] eqn:Ep; [|discriminate]. cbn in Ei. apply position_some in Ep as (b' & Hb' & _). assert (Li : i < length ps) by (apply nth_error_Some; congruence).
    assert (Es : swap_first i ps = steps) by congruence. clear Ei.
    assert (R1' : Forall2 (fun x p => step_read (penv_of d) (p_qs s6) (fst (fst x)) (snd (fst x)) p) (sts es) ps) by (rewrite Q1; refine (Forall2_mono _ _ _ _ _ R1); intros; apply step_read_mono; assumption).
    destruct (swap_reads _ i _ _ Li R1') as (X & PX & RX). rewrite Es in RX.
    assert (Ips : forall p, In p ps -> In p steps) by (intros p0 Hp0; rewrite <- Es; eapply Permutation_in; [symmetry; apply swap_perm|exact Hp0]).
    assert (A1' : Forall2 (asg_ok d (p_qs s6) steps) (pairs_of (sts es)) asgs) by (rewrite Q1; refine (Forall2_mono _ _ _ _ _ A1); intros y z; apply asg_ok_mono; exact Ips).
    split; [|intros Ha Hf; eapply crypto_asks; eauto].
    split; cbn [pa_steps pa_cells pa_orders pa_asserts pa_lemmas pa_query pa_env].
    - rewrite Eb in RX. destruct X as [|y0 X']; [inversion RX|]. assert (R0 : step_read (penv_of d) (p_qs s6) (fst (fst y0)) (snd (fst y0)) b) by (inversion RX; assumption). rewrite Eb. exists (snd y0), (map snd X').
      assert (PX' : Permutation (y0 :: X') (sts (d_funs d))) by (rewrite PX; exact PS).
      split; [change (snd y0 :: map snd X') with (map snd (y0 :: X')); rewrite <- full_steps; apply Permutation_map; exact PX'|]. split.
      + destruct (step_in y0) as (_ & _ & kd & nm & sp & He); [eapply Permutation_in; [exact PX'|left; reflexivity]|].
        destruct (lookup n_init es) as [e|] eqn:El; [|discriminate]. apply lookup_in in El. destruct e as [|[sy kd' nm' sp'] st' b0'|]; try discriminate. destruct sy; try discriminate. apply Nat.eqb_eq in Pb.
        eapply Permutation_in in El; [|exact HP]. unfold d in El. rewrite full_funs in El. apply in_app_iff in El as [El|El]; [cbn in El; apply in_map_iff in El as ([z fc] & Ez & _); discriminate|].
        eapply entries_inj in El; [|exact He|cbn; rewrite <- (sr_fun _ _ _ _ _ R0); congruence]. injection El as E6 _ _ _ _ _ _. exact E6.
      + apply (Forall2_in (fun a s => exists y, In y (y0 :: X') /\ snd y = a /\ step_read (penv_of d) (p_qs s6) (fst (fst y)) (snd (fst y)) s)).
        * intros a z _ (y & Hy & <- & Hr). exists (fst (fst y)), (snd (fst y)). split; [|exact Hr]. apply step_in. eapply Permutation_in; eauto.
        * change (snd y0 :: map snd X') with (map snd (y0 :: X')). rewrite <- (map_id (b :: m)). apply Forall2_maps. refine (Forall2_in _ _ _ _ _ RX). intros y z Hy Hr. exists y. auto.
    - destruct (Permutation_Forall2 PC full_cells) as (cs & PCs & FC). exists cs. split; [symmetry; exact PCs|]. rewrite cells_map.
      assert (FC' : Forall2 (fun c x => cell_of x c) cs (ces es)) by (clear -FC; induction FC; constructor; auto). rewrite <- (map_id cs). apply Forall2_maps. refine (Forall2_mono _ _ _ _ _ FC'). clear FC FC' PCs cs.
      intros [c args] [x [k so]] (E & Hf & Hs & fc & L). cbn [fst snd] in *. subst x. split; cbn [fst snd ce_fun ce_args ce_asgs]; [exact Hf|exact Hs|].
      exists (map (fun y => (snd (fst y), snd y)) (filter (fun y => Nat.eqb (aa_cell (snd y)) c) (pairs_of (sts es)))). split.
      + rewrite writes_pairs. unfold writes. rewrite <- full_steps. apply Permutation_flat_map. apply Permutation_map. exact PS.
      + apply Forall2_maps. cbn [fst snd]. assert (FF : Forall2 (asg_ok d (p_qs s6) steps) (filter (fun y => Nat.eqb (aa_cell (snd y)) c) (pairs_of (sts es))) (filter (fun a => Nat.eqb (fst a) c) asgs)) by (apply filter_reads; [intros y z [E _]; cbv beta; f_equal; symmetry; exact E|exact A1']).
        refine (Forall2_in _ _ _ _ _ FF). intros y z Hy (E & p & fc' & n & so' & Hp & Hr & L' & Ha). apply filter_In in Hy as [Hy Ec]. apply Nat.eqb_eq in Ec. rewrite E, Ec, L in L'. injection L' as <- <- <-.
        exists (fst (fst (fst y))), (snd (fst (fst y))), p. split; [exact Hp|]. split; [|auto]. apply Sin. unfold pairs_of in Hy. apply in_flat_map in Hy as (y1 & Hy1 & Hy). apply in_map_iff in Hy as (w & <- & _). exact Hy1.
    - intros a x Hi Hx. assert (Ha : In a (map snd (sts es))).
      { eapply Permutation_in; [symmetry; apply Permutation_map; exact PS|]. rewrite full_steps. unfold steps_of. apply in_flat_map. exists (IStep a). split; [|left; reflexivity]. unfold completed. destruct (in_dec _ _ _); [exact Hi|apply in_app_iff; left; exact Hi]. }
      apply in_map_iff in Ha as (y & <- & Hy). assert (Hp : In (y, x) (pairs_of (sts es))) by (unfold pairs_of; apply in_flat_map; exists y; split; [exact Hy|apply in_map; exact Hx]).
      destruct (Forall2_left _ _ _ _ A1' Hp) as (z & _ & E & p & fc & n & so & _ & _ & L & _). cbn [fst snd] in E. rewrite E in L. apply lookup_in in L.
      assert (Hc : In (aa_cell x, (n, so)) (ces (d_funs d))) by (unfold ces; apply in_flat_map; exists (aa_cell x, EnCell fc n so); split; [exact L|left; reflexivity]).
      destruct (Forall2_left _ _ _ _ full_cells Hc) as ([c args] & Hin & E' & _). cbn [fst] in E'. subst c. exists args. exact Hin.
    - rewrite Q2. refine (Forall2_mono _ _ _ _ _ R2). intros; apply formula_read_mono; assumption.
    - rewrite Q6. refine (Forall2_mono _ _ _ _ _ R5). intros; apply formula_read_mono; assumption.
    - exists q. split; [exact Hq|]. rewrite Q3. apply formula_read_mono. exact R3.
    - exact R6.
    - reflexivity.
  Qed.
End File.
