From Coq Require Import List Arith Bool Lia.
From Verif Require Import Syntax_Model Syntax_Proofs Traversal_Model Traversal_Spec Semantics_Spec Semantics_Proofs Subst_Model Subst_Proofs Sort_Model Order_Model Macro_Model
  Unify_Model Unify_Proofs Binding_Proofs Graph_Model Expander_Model Expander_Spec Expander_Proofs Expander_Props Exists_Model Exists_Proofs Search_Model Search_Spec Search_Proofs Crypto_Model Crypto_Spec
  Crypto_Proofs Define_Model Define_Proofs Evaluate_Model Propagate_Model File_Model File_Spec File_Proofs Assumption_Model Assumption_Spec Assumption_Proofs Sentence_Spec.
From Verif Require Parser_Model Parser_Proofs.
Import ListNotations.

(** ** Free ids of a formula from those of its parts *)
Lemma bound_var v l : bound_by l (FVar v) <-> In (vid v) l.
Proof. split; [intros H; apply H, occurs_free_var|]. intros H i Hi. apply Parser_Base_Proofs.occurs_free_var_inv in Hi as ->. exact H. Qed.
Lemma bound_fun s args l : bound_by l (FFun s args) <-> forall a, In a args -> bound_by l a.
Proof.
  split; [intros H a Ha i Hi; apply H; eapply occurs_free_fun; eassumption|]. intros H i Hi. apply Parser_Base_Proofs.occurs_free_fun_inv in Hi as (a & Ha & Hi). exact (H a Ha i Hi).
Qed.
Lemma bound_quant q vs b l : bound_by l (FQ q vs b) <-> bound_by (map vid vs ++ l) b.
Proof.
  split.
  - intros H i Hi. destruct (in_dec Nat.eq_dec i (map vid vs)) as [Hv|Hv]; apply in_or_app; [left; exact Hv|right]. apply H. apply occurs_free_quant; assumption.
  - intros H i Hi. apply Parser_Base_Proofs.occurs_free_quant_inv in Hi as [Hi Hv]. apply H, in_app_or in Hi as [Hi|Hi]; [contradiction|exact Hi].
Qed.
Lemma bound_forall vs b l : bound_by l (mk_forall vs b) <-> bound_by (map vid vs ++ l) b.
Proof. unfold mk_forall. destruct vs; [reflexivity|apply bound_quant]. Qed.
Lemma bound_exists vs b l : bound_by l (mk_exists vs b) <-> bound_by (map vid vs ++ l) b.
Proof. unfold mk_exists. destruct vs; [reflexivity|apply bound_quant]. Qed.
Lemma bound_mono l l' f : bound_by l f -> (forall i, In i l -> In i l') -> bound_by l' f.
Proof. intros H Hi i Hf. apply Hi, H, Hf. Qed.
Lemma bound_nil f : bound_by [] f <-> sentence f.
Proof. split; intros H i Hi; exact (H i Hi). Qed.
Lemma within_bound f l : within f l -> bound_by l f.
Proof. intros H i (p & v & Hp & <- & _). apply H. exists p. exact Hp. Qed.
Lemma bound_within f l : plain f -> bound_by l f -> within f l.
Proof. intros Hp H v (p & Hv). apply H. eapply plain_free; eassumption. Qed.
Lemma bound_ors l fs : (forall f, In f fs -> bound_by l f) -> bound_by l (ors fs).
Proof. intros H. apply bound_fun. exact H. Qed.
Lemma bound_ands l fs : (forall f, In f fs -> bound_by l f) -> bound_by l (ands fs).
Proof. intros H. apply bound_fun. exact H. Qed.
Lemma bound_args s args l : Forall (bound_by l) args -> bound_by l (FFun s args).
Proof. intros H. apply bound_fun. apply Forall_forall. exact H. Qed.
Lemma bound_vars vs l : (forall v, In v vs -> In (vid v) l) -> Forall (bound_by l) (map FVar vs).
Proof. intros H. apply Forall_forall. intros a Ha. apply in_map_iff in Ha as (v & <- & Hv). apply bound_var. auto. Qed.
Ltac bind :=
  repeat match goal with
  | |- bound_by _ (mk_forall _ _) => apply (proj2 (bound_forall _ _ _))
  | |- bound_by _ (mk_exists _ _) => apply (proj2 (bound_exists _ _ _))
  | |- bound_by _ (FQ _ _ _) => apply (proj2 (bound_quant _ _ _ _))
  | |- bound_by _ (ands (_ :: _)) => apply bound_args
  | |- bound_by _ (ors (_ :: _)) => apply bound_args
  | |- bound_by _ (meq _ _) => apply bound_args
  | |- bound_by _ (fimp _ _) => apply bound_args
  | |- bound_by _ (fnot _) => apply bound_args
  | |- bound_by _ (fand _ _) => apply bound_args
  | |- bound_by _ (for_ _ _) => apply bound_args
  | |- bound_by _ (ev_msg _) => apply bound_args
  | |- bound_by _ (ev_cond _) => apply bound_args
  | |- bound_by _ (cast_name _) => apply bound_args
  | |- bound_by _ (FFun _ _) => apply bound_args
  | |- bound_by _ (FVar _) => apply bound_var; cbn; tauto
  | |- Forall _ (_ :: _) => apply Forall_cons
  | |- Forall _ [] => apply Forall_nil
  end.

(** ** Evaluation *)
Section Ev.
  Context (os : fsym -> option sort) (evs : list sort).
  Lemma bound_ev f g l : ev os evs f = Some g -> (bound_by l g <-> bound_by l f).
  Proof.
    unfold ev. destruct (term_sort os f) as [s|]; [|discriminate]. destruct (existsb _ evs); intros [= <-]; [|reflexivity]. rewrite bound_fun. split; [intros H; apply H; left; reflexivity|].
    intros H a [<-|[]]. exact H.
  Qed.
  Lemma bound_ev_var v l : In (vid v) l -> bound_by l (ev_var evs v).
  Proof. intros H. unfold ev_var. destruct (existsb _ evs); bind; apply bound_var; exact H. Qed.
  Lemma bound_ev_vars vs l : (forall v, In v vs -> In (vid v) l) -> Forall (bound_by l) (map (ev_var evs) vs).
  Proof. intros H. apply Forall_forall. intros a Ha. apply in_map_iff in Ha as (v & <- & Hv). apply bound_ev_var. auto. Qed.
  Lemma in_ids (vs : list var) v : In v vs -> In (vid v) (map vid vs).
  Proof. apply in_map. Qed.

  Lemma identity_closed s : closed_axiom (identity_axiom s).
  Proof. unfold identity_axiom. cbv zeta. apply (proj1 (bound_nil _)). bind. Qed.
  Lemma function_closed i args a : function_axiom os evs i args = Some a -> closed_axiom a.
  Proof.
    unfold function_axiom. destruct (ev os evs _) as [pre|] eqn:E; [|discriminate]. intros [= <-]. split.
    - apply (bound_ev _ _ _ E). bind. apply bound_vars. intros v. apply in_ids.
    - bind. apply bound_ev_vars. intros v. apply in_ids.
  Qed.
  Lemma legacy_closed i args a : legacy_axiom os evs i args = Some a -> closed_axiom a.
  Proof.
    unfold legacy_axiom. destruct (ev os evs _) as [x|] eqn:E1; [|discriminate]. destruct (ev os evs (FFun _ (map FVar (map _ _)))) as [y|] eqn:E2; [|discriminate]. intros [= <-].
    apply (proj1 (bound_nil _)). set (v1 := sorts_to_variables 0 args) in *. set (v2 := map (fun v => var_add v (length v1)) v1) in *.
    assert (H1 : forall v, In v v1 -> In (vid v) (map vid (v1 ++ v2) ++ [])) by (intros v Hv; rewrite app_nil_r; apply in_ids, in_or_app; left; exact Hv).
    assert (H2 : forall v, In v v2 -> In (vid v) (map vid (v1 ++ v2) ++ [])) by (intros v Hv; rewrite app_nil_r; apply in_ids, in_or_app; right; exact Hv).
    bind.
    - apply bound_ands. intros f Hf. apply in_map_iff in Hf as ([a b] & <- & Hab). cbn [fst]. apply in_combine_l in Hab. bind; apply bound_ev_var; auto.
    - apply (bound_ev _ _ _ E1). bind. apply bound_vars. exact H1.
    - apply (bound_ev _ _ _ E2). bind. apply bound_vars. exact H2.
  Qed.
  Lemma ite_closed a : ite_axiom os evs = Some a -> closed_axiom a.
  Proof.
    unfold ite_axiom. destruct (ev os evs _) as [x|] eqn:E; [|discriminate]. intros [= <-]. apply (proj1 (bound_nil _)). bind; [apply (bound_ev _ _ _ E); bind|..]; apply bound_ev_var; cbn; tauto.
  Qed.
  Lemma eq_closed a : eq_axiom os evs = Some a -> closed_axiom a.
  Proof.
    unfold eq_axiom. destruct (ev os evs _) as [x|] eqn:E; [|discriminate]. intros [= <-]. apply (proj1 (bound_nil _)). bind; [apply (bound_ev _ _ _ E); bind|..]; apply bound_ev_var; cbn; tauto.
  Qed.
  Lemma conn_closed c a : conn_axiom os evs c = Some a -> closed_axiom a.
  Proof.
    unfold conn_axiom. destruct c; (destruct (ev os evs _) as [x|] eqn:E; [|discriminate]); intros [= <-]; apply (proj1 (bound_nil _)); cbn [conn_args sorts_to_variables map]; bind;
      try (apply (bound_ev _ _ _ E); cbn; bind); apply bound_ev_var; cbn; tauto.
  Qed.
End Ev.
Lemma find_combine {A} (ids : list nat) : forall (l : list A) i, length ids = length l -> In i ids -> exists t, find (fun o => Nat.eqb (fst o) i) (combine ids l) = Some (i, t) /\ In t l.
Proof.
  induction ids as [|j ids IH]; intros [|a l] i Hl Hi; try discriminate; [destruct Hi|]. cbn. destruct (Nat.eqb_spec j i) as [->|E]; [exists a; auto|].
  destruct Hi as [Hi|Hi]; [congruence|]. destruct (IH l i (f_equal Nat.pred Hl) Hi) as (t & H1 & H2). exists t. auto.
Qed.
Lemma sapply_within s f g l : sapply s f = Some g -> (forall v t, occurs v f -> s v = Some t -> within t l) -> within g l.
Proof. intros H Hs v Hv. destruct (sapply_occurs _ _ _ _ H Hv) as (w & t & Hw & Ht & Hvt). exact (Hs w t Hw Ht v Hvt). Qed.

(** ** Symbolic quantifiers *)
Definition quant_scoped (q : quantifier) : Prop :=
  NoDup (map vid (qt_free q ++ qt_bound q)) /\ scoped (quantifier_formulas q) (qt_free q ++ qt_bound q) /\ forall f, In f (quantifier_formulas q) -> plain f.
Lemma quant_within q f : quant_scoped q -> In f (quantifier_formulas q) -> within f (map vid (qt_free q ++ qt_bound q)).
Proof. intros (_ & Hs & Hp) Hf. apply bound_within; [auto|]. intros i Hi. eapply Hs; eassumption. Qed.

Section Quant.
  Context (os : fsym -> option sort) (evs : list sort).
  Lemma skolemised n q f g : quant_scoped q -> In f (quantifier_formulas q) ->
    sapply (frozen_ov (combine (map vid (qt_bound q)) (map (fun h => FFun h (map FVar (qt_free q))) (map Fskolem (seq n (length (qt_bound q))))))) f = Some g ->
    bound_by (map vid (qt_free q)) g.
  Proof.
    intros Hq Hf H. apply within_bound. eapply sapply_within; [exact H|]. intros v t Hv Ht. pose proof (quant_within q f Hq Hf v Hv) as Hi. rewrite map_app, in_app_iff in Hi.
    unfold frozen_ov in Ht. destruct (in_dec Nat.eq_dec (vid v) (map vid (qt_bound q))) as [Hb|Hb].
    - match type of Ht with context[combine ?a ?b] => destruct (find_combine a b (vid v)) as (t' & E & Ht') end; [rewrite !map_length, seq_length; reflexivity|exact Hb|].
      rewrite E in Ht. cbn [fst snd] in Ht. unfold one_var in Ht. rewrite Nat.eqb_refl in Ht. injection Ht as <-. apply in_map_iff in Ht' as (h & <- & _).
      apply within_fun. intros a Ha. apply in_map_iff in Ha as (w & <- & Hw). apply within_var. apply in_map. exact Hw.
    - destruct (find _ _) as [[i t']|] eqn:E.
      + exfalso. apply find_some in E as [E1 E2]. cbn in E2. apply Nat.eqb_eq in E2. subst i. apply in_combine_l in E1. contradiction.
      + injection Ht as <-. apply within_var. tauto.
  Qed.
  Lemma quant_closed_axioms n k q l n' : quant_scoped q -> quant_axioms os evs n k q = Some (l, n') -> Forall closed_axiom l.
  Proof.
    intros Hq H. unfold quant_axioms in H. destruct (ev os evs (FFun _ _)) as [e|] eqn:Ee; [|discriminate].
    assert (He : forall m, (forall v, In v (qt_free q) -> In (vid v) m) -> bound_by m e).
    { intros m Hm. apply (bound_ev _ _ _ _ _ Ee). bind. apply bound_vars. exact Hm. }
    assert (Hc : forall c c', In c (quantifier_formulas q) -> ev os evs c = Some c' -> bound_by (map vid (qt_bound q) ++ map vid (qt_free q) ++ []) c').
    { intros c c' Hin E. apply (bound_ev _ _ _ _ _ E). eapply bound_mono; [apply within_bound, quant_within; eassumption|]. intros i. rewrite map_app, !in_app_iff. tauto. }
    assert (Hf : forall v, In v (qt_free q) -> In (vid v) (map vid (qt_free q) ++ [])) by (intros v Hv; rewrite app_nil_r; apply in_map; exact Hv).
    destruct (qt_inner q) as [c|c|c s t] eqn:Ei.
    - destruct (ev os evs c) as [c'|] eqn:Ec; [|discriminate]. injection H as <- <-. constructor; [|constructor]. apply (proj1 (bound_nil _)). bind; [apply He; exact Hf|].
      apply (Hc c); [unfold quantifier_formulas; rewrite Ei; left; reflexivity|exact Ec].
    - destruct (ev os evs c) as [c'|] eqn:Ec; [|discriminate]. injection H as <- <-. constructor; [|constructor]. apply (proj1 (bound_nil _)). bind; [apply He; exact Hf|].
      apply (Hc c); [unfold quantifier_formulas; rewrite Ei; left; reflexivity|exact Ec].
    - assert (Hin : forall x, In x [c; s; t] -> In x (quantifier_formulas q)) by (intros x Hx; unfold quantifier_formulas; rewrite Ei; exact Hx).
      destruct (sapply _ c) as [cs|] eqn:E1; [|discriminate]. destruct (sapply _ s) as [ls|] eqn:E2; [|discriminate]. destruct (sapply _ t) as [rs|] eqn:E3; [|discriminate].
      destruct (ev os evs c) as [c'|] eqn:F0; [|discriminate]. destruct (ev _ evs cs) as [cs'|] eqn:F1; [|discriminate]. destruct (ev _ evs ls) as [ls'|] eqn:F2; [|discriminate].
      destruct (ev _ evs rs) as [rs'|] eqn:F3; [|discriminate]. injection H as <- <-.
      assert (Hs : forall f g g', In f [c; s; t] -> sapply (frozen_ov (combine (map vid (qt_bound q)) (map (fun h => FFun h (map FVar (qt_free q))) (map Fskolem (seq n (length (qt_bound q))))))) f = Some g ->
                    ev (skolem_sort os n (qt_bound q)) evs g = Some g' -> bound_by (map vid (qt_free q) ++ []) g').
      { intros f g g' Hf' E F. apply (bound_ev _ _ _ _ _ F). rewrite app_nil_r. eapply skolemised; [exact Hq|apply Hin; exact Hf'|exact E]. }
      constructor; [|constructor; [|constructor]]; apply (proj1 (bound_nil _)); bind.
      + apply (Hc c); [apply Hin; left; reflexivity|exact F0].
      + apply (Hs c cs); [left; reflexivity|exact E1|exact F1].
      + apply He. exact Hf.
      + apply (Hs c cs); [left; reflexivity|exact E1|exact F1].
      + apply (Hs s ls); [right; left; reflexivity|exact E2|exact F2].
      + apply (Hs t rs); [right; right; left; reflexivity|exact E3|exact F3].
  Qed.
  Lemma loop_closed fs : (forall k q, In (PQuant k q) fs -> quant_scoped q) -> forall n l, loop os evs n fs = Some l -> Forall closed_axiom l.
  Proof.
    induction fs as [|f fs IH]; intros Hq n l H; cbn [loop] in H; [injection H as <-; constructor|].
    match type of H with match ?o with Some _ => _ | None => None end = _ => destruct o as [[l1 n1]|] eqn:E1; [|discriminate] end.
    destruct (loop os evs n1 fs) as [l2|] eqn:E2; [|discriminate]. injection H as <-. apply Forall_app. split; [|eapply IH; [|exact E2]; intros k q Hi; eapply Hq; right; exact Hi].
    destruct f as [i args o| | |c|k q|].
    - injection E1 as <- _. constructor.
    - destruct (ite_axiom os evs) as [a|] eqn:E; [|discriminate]. injection E1 as <- _. constructor; [eapply ite_closed; exact E|constructor].
    - destruct (eq_axiom os evs) as [a|] eqn:E; [|discriminate]. injection E1 as <- _. constructor; [eapply eq_closed; exact E|constructor].
    - destruct (conn_axiom os evs c) as [a|] eqn:E; [|discriminate]. injection E1 as <- _. constructor; [eapply conn_closed; exact E|constructor].
    - eapply quant_closed_axioms; [|exact E1]. eapply Hq. left. reflexivity.
    - injection E1 as <- _. constructor.
  Qed.
  Lemma generate_closed r nb lg n fs l : (forall k q, In (PQuant k q) fs -> quant_scoped q) -> generate os evs r nb lg n fs = Some l -> Forall closed_axiom l.
  Proof.
    intros Hq H. unfold generate in H. destruct (relevant fs) as [us|]; [|discriminate].
    match type of H with match ?o with Some _ => _ | None => None end = _ => destruct o as [l1|] eqn:E1; [|discriminate] end.
    destruct (loop os evs n fs) as [l2|] eqn:E2; [|discriminate]. injection H as <-. apply Forall_app. split; [|eapply loop_closed; eassumption]. destruct r.
    - destruct (if nb then _ else _) as [a|] eqn:Ea; [|discriminate]. destruct (if lg then _ else _) as [b|] eqn:Eb; [|discriminate]. injection E1 as <-.
      apply Forall_app. split; apply Forall_forall; intros x Hx.
      + destruct nb; [injection Ea as <-; destruct Hx|]. destruct (mapM_from _ _ _ _ Ea Hx) as (u & _ & E). eapply function_closed; exact E.
      + destruct lg; [|injection Eb as <-; destruct Hx]. destruct (mapM_from _ _ _ _ Eb Hx) as (u & _ & E). eapply legacy_closed; exact E.
    - injection E1 as <-. apply Forall_forall. intros x Hx. apply in_map_iff in Hx as (s & <- & _). apply identity_closed.
  Qed.
End Quant.

(** ** Assertions *)
Section Asserts.
  Context (os : fsym -> option sort) (evs : list sort) (table : nat -> option quantifier).
  Hypothesis HQ : forall k q, table k = Some q -> quant_scoped q.

  Lemma frozen_within ids args c c' l : length ids = length args -> sapply (frozen ids args) c = Some c' -> within c (ids ++ l) ->
    forall v, occurs v c' -> (exists a, In a args /\ occurs v a) \/ In (vid v) l.
  Proof.
    intros Hl H Hc v Hv. destruct (frozen_occurs _ _ _ _ _ Hl H Hv) as [Ha|[Ho Hn]]; [left; exact Ha|right].
    specialize (Hc v Ho). apply in_app_or in Hc as [Hc|Hc]; [contradiction|exact Hc].
  Qed.
  (** Ids at the leaves, whether bound or not. *)
  Lemma after_within n : forall f g l, after_eval os evs table n f = Some g -> within f l -> bound_by l g.
  Proof.
    induction n as [|n IH]; intros f g l H Hf; [discriminate|]. cbn [after_eval] in H. destruct f as [v|h args|q vs b]; [| |discriminate].
    - destruct (maybe_evaluated_sort (vsort v)) as [s|]; [injection H as <-; apply bound_var; cbn; apply within_var; exact Hf|]. apply (bound_ev _ _ _ _ _ H). apply within_bound. exact Hf.
    - assert (Hev : ev os evs (FFun h args) = Some g -> bound_by l g) by (intros E; apply (bound_ev _ _ _ _ _ E); apply within_bound; exact Hf).
      destruct (maybe_evaluated h) as [g'|].
      + destruct (mapM (after_eval os evs table n) args) as [l'|] eqn:E; [|discriminate]. injection H as <-. apply bound_fun. intros a Ha.
        destruct (mapM_from _ _ _ _ E Ha) as (b & Hb & Eb). eapply IH; [exact Eb|]. exact (proj1 (within_fun _ _ _) Hf b Hb).
      + destruct (match h with Fquant k => table k | _ => None end) as [q|] eqn:Eq; [|auto].
        assert (Hq : quant_scoped q) by (destruct h; try discriminate; eapply HQ; exact Eq).
        assert (Hcase : forall c qq, In c (quantifier_formulas q) ->
          match frozen_new (map vid (qt_bound q)) args with None => None | Some s => match sapply s c with None => None | Some c' => option_map (FQ qq (qt_free q)) (after_eval os evs table n c') end end = Some g -> bound_by l g).
        { intros c qq Hc E. unfold frozen_new in E. destruct (Nat.eqb_spec (length (map vid (qt_bound q))) (length args)) as [El|]; [|discriminate].
          destruct (sapply _ c) as [c'|] eqn:Ec; [|discriminate]. destruct (after_eval os evs table n c') as [g'|] eqn:Ea; [|discriminate]. injection E as <-.
          apply (proj2 (bound_quant _ _ _ _)). eapply IH; [exact Ea|]. intros v Hv.
          destruct (frozen_within _ _ _ _ (map vid (qt_free q)) El Ec) with (v := v) as [(a & Ha & Hva)|Hi]; [|exact Hv| |].
          - eapply within_sub; [apply quant_within; eassumption|]. intros i. rewrite map_app, !in_app_iff. tauto.
          - apply in_or_app. right. exact (proj1 (within_fun _ _ _) Hf a Ha v Hva).
          - apply in_or_app. left. exact Hi. }
        destruct (qt_inner q) as [c|c|c x y] eqn:Ei; [| |auto].
        * eapply (Hcase c); [unfold quantifier_formulas; rewrite Ei; left; reflexivity|exact H].
        * eapply (Hcase c); [unfold quantifier_formulas; rewrite Ei; left; reflexivity|exact H].
  Qed.
  Definition go_before n := fix go (l : list formula) : option (list (bool * formula)) :=
    match l with [] => Some [] | a :: l' => match before_eval os evs table n a, go l' with Some x, Some xs => Some (x :: xs) | _, _ => None end end.
  Lemma before_bound n f : forall b g l, sorted_terms f -> before_eval os evs table n f = Some (b, g) -> bound_by l f -> bound_by l g.
  Proof.
    induction f as [v|h args IH|q vs c IH] using formula_ind'; intros b g l Hs H Hf.
    - injection H as <- <-. exact Hf.
    - assert (Hany : (exists s, h = Feval s) \/ option_map (fun l0 : list (bool * formula) => (existsb fst l0, FFun h args)) (go_before n args) = Some (b, g)).
      { destruct h; try (right; exact H). left. eexists. reflexivity. }
      destruct Hany as [(s & ->)|E].
      + cbn [before_eval] in H. destruct args as [|a args]; [discriminate|]. destruct (after_eval os evs table n a) as [g'|] eqn:E; [|discriminate]. injection H as <- <-.
        eapply after_within; [exact E|]. assert (Hp : plain (FFun (Feval s) (a :: args))) by (apply (Hs []); [constructor|left; exact I]).
        apply bound_within; [eapply plain_arg; [exact Hp|left; reflexivity]|]. apply (proj1 (bound_fun _ _ _) Hf). left. reflexivity.
      + destruct (go_before n args); [|discriminate]. injection E as <- <-. exact Hf.
    - cbn [before_eval] in H. destruct (before_eval os evs table n c) as [[b' g']|] eqn:E; [|discriminate]. cbn [option_map fst snd] in H. destruct b'; injection H as <- <-; [|exact Hf].
      apply (proj2 (bound_quant _ _ _ _)). eapply IH; [|reflexivity|exact (proj1 (bound_quant _ _ _ _) Hf)].
      intros p s args Hp. apply (Hs (0 :: p)). constructor. exact Hp.
  Qed.
  Lemma propagate_closed n f g : sorted_terms f -> propagate_evaluate os evs table n f = Some g -> sentence f -> sentence g.
  Proof.
    unfold propagate_evaluate. destruct (before_eval os evs table n f) as [[b g']|] eqn:E; [|discriminate]. intros Hs [= <-] Hf. apply (proj1 (bound_nil _)). eapply before_bound; [exact Hs|exact E|]. apply bound_nil. exact Hf.
  Qed.
End Asserts.

(** ** Steps, cells and macros *)
Lemma bound_step s vs l : (forall v, In v vs -> In (vid v) l) -> bound_by l (step_term s vs).
Proof. intros H. apply bound_args. apply bound_vars. exact H. Qed.
Lemma order_theory_closed init : sentence init -> Forall sentence (order_theory init).
Proof.
  intros H. assert (H' : forall l, bound_by l init) by (intros l i Hi; destruct (H i Hi)).
  apply Forall_forall. intros f Hf. apply (proj1 (bound_nil _)). cbn [order_theory In] in Hf. unfold happens, leq, lt, gt, pred, st in Hf.
  repeat (destruct Hf as [<-|Hf]; [bind; apply H'|]). destruct Hf.
Qed.
Lemma gt_closed : sentence gt_axiom.
Proof. apply (proj1 (bound_nil _)). unfold gt_axiom, gt, lt, st. bind. Qed.
Lemma distinct_closed steps s : sentence (distinct_axiom steps s).
Proof.
  apply (proj1 (bound_nil _)). unfold distinct_axiom. cbv zeta.
  assert (H1 : forall l v, In v (ps_vars s) -> In (vid v) (l ++ map vid (ps_vars s) ++ [])) by (intros l v Hv; apply in_or_app; right; rewrite app_nil_r; apply in_map; exact Hv).
  unfold happens. bind; [apply bound_step; intros v Hv; apply (H1 [] v Hv)|]. apply bound_ands. intros f Hf. apply in_map_iff in Hf as (s2 & <- & _).
  destruct (Nat.eqb _ _).
  - set (v2 := map (fun v => var_add v _) (ps_vars s)). bind.
    + apply bound_step. apply H1.
    + apply bound_step. intros v Hv. apply in_or_app. left. apply in_map. exact Hv.
    + apply bound_ands. intros g Hg. apply in_map_iff in Hg as ([a b] & <- & Hab). bind; apply bound_var.
      * apply H1. eapply in_combine_l. exact Hab.
      * apply in_or_app. left. apply in_map. eapply in_combine_r. exact Hab.
  - set (v2 := map (fun v => var_add v _) (ps_vars s2)). bind.
    + apply bound_step. apply H1.
    + apply bound_step. intros v Hv. apply in_or_app. left. apply in_map. exact Hv.
Qed.
Lemma exhaustive_closed steps : sentence (exhaustive_axiom steps).
Proof.
  apply (proj1 (bound_nil _)). unfold exhaustive_axiom, happens. cbv zeta. bind. apply bound_ors. intros f Hf. apply in_map_iff in Hf as (s & <- & _). bind.
  - apply bound_var. apply in_or_app. right. left. reflexivity.
  - apply bound_step. intros v Hv. apply in_or_app. left. apply in_map. exact Hv.
Qed.
Lemma ordering_closed o : scoped (order_formulas o) (Parser_Model.or_vars o) -> sentence (Parser_Model.order_axiom o).
Proof.
  intros H. apply (proj1 (bound_nil _)). unfold Parser_Model.order_axiom. cbv zeta. assert (H' : forall f, In f (order_formulas o) -> bound_by (map vid (Parser_Model.or_vars o) ++ []) f).
  { intros f Hf i Hi. rewrite app_nil_r. eapply H; eassumption. }
  unfold order_formulas in H'. destruct (Parser_Model.or_kind o); bind; apply H'; cbn; tauto.
Qed.
Lemma msg_cond_closed s : step_closed s -> sentence (msg_cond_axiom s).
Proof.
  intros [(_ & Hm & _) (_ & Hc & _)]. apply (proj1 (bound_nil _)). unfold msg_cond_axiom, happens, mac, into_formula. cbv zeta.
  assert (Hs : bound_by (map vid (ps_vars s) ++ []) (step_term s (ps_vars s))) by (apply bound_step; intros v Hv; rewrite app_nil_r; apply in_map; exact Hv).
  bind; try exact Hs; intros i Hi; rewrite app_nil_r; [eapply Hc|eapply Hm]; try exact Hi; left; reflexivity.
Qed.
Lemma exec_closed direct recursive init others : ps_vars init = [] -> Forall sentence (exec_axioms direct recursive init others).
Proof.
  intros Hi. apply Forall_forall. intros f Hf. apply (proj1 (bound_nil _)). unfold exec_axioms in Hf. apply in_app_or in Hf as [[<-|[]]|Hf].
  - unfold into_formula, mac. rewrite Hi. bind. apply bound_step. intros v [].
  - apply in_app_or in Hf as [Hf|Hf].
    + destruct (use_recursive direct recursive); [|destruct Hf]. apply in_map_iff in Hf as (s & <- & _). unfold exec_recursive, happens, mac, pred, into_formula. cbv zeta.
      bind; apply bound_step; intros v Hv; rewrite app_nil_r; apply in_map; exact Hv.
    + destruct (use_direct direct recursive); [|destruct Hf]. destruct Hf as [<-|[]]. unfold exec_direct, happens, mac, leq, st. bind.
Qed.
Lemma zip_eq_in {A B} (l : list A) : forall (m : list B) r a b, zip_eq l m = Some r -> In (a, b) r -> In a l /\ In b m.
Proof.
  induction l as [|x l IH]; intros [|y m] r a b H Hin; cbn in H; try discriminate; [injection H as <-; destruct Hin|].
  destruct (zip_eq l m) as [r'|] eqn:E; [|discriminate]. injection H as <-. destruct Hin as [Hin|Hin]; [injection Hin as <- <-; split; left; reflexivity|].
  destruct (IH _ _ _ _ E Hin). split; right; assumption.
Qed.
Lemma cells_closed mv c l : (forall a, In a (ce_asgs c) -> asg_closed a /\ scoped (as_args a) (ps_vars (as_step a) ++ as_fresh a)) -> cell_axioms mv c = Some l -> Forall sentence l.
Proof.
  intros Hc H. unfold cell_axioms in H. cbv zeta in H. destruct (mapM _ (ce_asgs c)) as [eqs|] eqn:Ee; [|discriminate]. injection H as <-.
  set (step_var := mkVar mv SStep) in *. set (vars := sorts_to_variables (mv + 1) (ce_args c)) in *.
  assert (Hv : forall l v, In v (vars ++ [step_var]) -> In (vid v) (l ++ map vid (vars ++ [step_var]) ++ [])) by (intros l v Hv; apply in_or_app; right; rewrite app_nil_r; apply in_map; exact Hv).
  assert (He : forall a e, In (a, e) (combine (ce_asgs c) eqs) -> In a (ce_asgs c) /\ bound_by (map vid (asg_vars a) ++ map vid (vars ++ [step_var]) ++ []) e).
  { intros a e Hin. assert (Ea : asg_eqs vars step_var a = Some e).
    { clear -Ee Hin. revert eqs Ee Hin. induction (ce_asgs c) as [|x xs IH]; intros eqs Ee Hin; [destruct Hin|]. cbn in Ee. destruct (asg_eqs vars step_var x) as [y|] eqn:Ex; [|discriminate].
      destruct (mapM _ xs) as [ys|]; [|discriminate]. injection Ee as <-. destruct Hin as [Hin|Hin]; [injection Hin as <- <-; exact Ex|]. eapply IH; [reflexivity|exact Hin]. }
    split; [eapply in_combine_l; exact Hin|]. unfold asg_eqs in Ea. destruct (zip_eq vars (as_args a)) as [ps|] eqn:Ez; [|discriminate]. injection Ea as <-.
    apply bound_ands. intros f Hf. apply in_map_iff in Hf as ([v t] & <- & Hf). destruct (Hc a (in_combine_l _ _ _ _ Hin)) as [_ Hs]. apply in_app_or in Hf as [Hf|[Hf|[]]].
    - destruct (zip_eq_in _ _ _ _ _ Ez Hf) as [H1 H2]. bind; [apply bound_var; apply Hv; apply in_or_app; left; exact H1|].
      intros i Hi. apply in_or_app. left. eapply Hs; eassumption.
    - injection Hf as <- <-. bind; [apply bound_var; apply Hv; apply in_or_app; right; left; reflexivity|].
      apply bound_step. intros v Hv'. apply in_or_app. left. apply in_map. unfold asg_vars. apply in_or_app. left. exact Hv'. }
  assert (Hcall : forall l, bound_by (l ++ map vid (vars ++ [step_var]) ++ []) (fv (Fcell (ce_fun c)) (vars ++ [step_var]))) by (intros l; bind; apply bound_args; apply bound_vars; apply Hv).
  constructor.
  - apply (proj1 (bound_nil _)). bind.
    + apply bound_ands. intros f Hf. apply in_map_iff in Hf as ([a e] & <- & Hae). bind. apply He. exact Hae.
    + apply (Hcall []).
    + apply Forall_app. split; [apply bound_vars; intros v Hv'; apply (Hv []); apply in_or_app; left; exact Hv'|]. unfold pred. bind. apply bound_var. apply (Hv []). apply in_or_app. right. left. reflexivity.
  - apply Forall_forall. intros f Hf. apply in_map_iff in Hf as (g & <- & Hg). apply in_map_iff in Hg as ([a e] & <- & Hae). apply (proj1 (bound_nil _)). destruct (He a e Hae) as [Ha Hb]. bind.
    + exact Hb.
    + apply Hcall.
    + destruct (Hc a Ha) as [(_ & Hs & _) _]. intros i Hi. apply in_or_app. left. eapply Hs; [left; reflexivity|exact Hi].
Qed.

(** ** Searches *)
Section Unifier.
  Context (L : list nat).
  Definition entry_within (p : nat * formula) : Prop := In (fst p) L /\ within (snd p) L.
  Notation ents s := (Forall entry_within (fst s ++ snd s)).
  Lemma aux_within n : forall l r s b s', aux n l r s = Some (b, s') -> within l L -> within r L -> ents s -> ents s'.
  Proof.
    induction n as [|n IH]; intros l r s b s' H Hl Hr Hs; [discriminate|]. destruct s as [lp rp]. cbn [fst snd] in Hs. pose proof Hs as Hs0. apply Forall_app in Hs0 as [HL HR].
    assert (HG : forall (l0 : list (nat * formula)) i t, maybe_get l0 i = Some t -> Forall entry_within l0 -> within t L).
    { intros l0 i t Hg Hf. apply maybe_get_In in Hg. rewrite Forall_forall in Hf. exact (proj2 (Hf _ Hg)). }
    assert (Hargs : forall la ra s0 b0 s0', all_args (aux n) la ra s0 = Some (b0, s0') -> (forall a, In a la -> within a L) -> (forall a, In a ra -> within a L) -> ents s0 -> ents s0').
    { induction la as [|a la IHa]; intros ra s0 b0 s0' E Fa Fr Fs; [cbn in E; destruct ra; injection E as <- <-; exact Fs|].
      destruct ra as [|x ra]; [cbn in E; injection E as <- <-; exact Fs|]. cbn in E.
      destruct (aux n a x s0) as [[[] s1]|] eqn:E1; [| |discriminate].
      - eapply IHa; [exact E|intros; apply Fa; right; assumption|intros; apply Fr; right; assumption|]. eapply IH; [exact E1|apply Fa; left; reflexivity|apply Fr; left; reflexivity|exact Fs].
      - injection E as <- <-. eapply IH; [exact E1|apply Fa; left; reflexivity|apply Fr; left; reflexivity|exact Fs]. }
    assert (Hvar : forall v, within (FVar v) L -> In (vid v) L) by (intros v; apply within_var).
    cbn [aux] in H. destruct l as [v|fl al|q vs bd].
    - destruct (match r with FVar vr => var_eqb v vr | _ => false end); [injection H as <- <-; exact Hs|].
      destruct (maybe_get lp (vid v)) as [t|] eqn:Et.
      + destruct t as [v2|ft at_|qt vt bt].
        * destruct r as [v3| |]; [|injection H as <- <-; exact Hs|injection H as <- <-; exact Hs].
          destruct (var_eqb v2 v3); [injection H as <- <-; exact Hs|]. destruct (maybe_get rp (vid v3)); injection H as <- <-; [exact Hs|].
          unfold mv_add. cbn [fst snd]. rewrite app_assoc. apply Forall_app. split; [exact Hs|]. constructor; [|constructor]. split; [apply Hvar; exact Hr|]. eapply HG; eassumption.
        * eapply IH; [exact H| |exact Hr|exact Hs]. eapply HG; eassumption.
        * eapply IH; [exact H| |exact Hr|exact Hs]. eapply HG; eassumption.
      + injection H as <- <-. unfold mv_add. cbn [fst snd]. apply Forall_app. split; [|exact HR]. apply Forall_app. split; [exact HL|]. constructor; [|constructor].
        split; [apply Hvar; exact Hl|exact Hr].
    - destruct r as [v|fr ar|q vs bd].
      + destruct (maybe_get rp (vid v)) as [t|] eqn:Et.
        * destruct t; [injection H as <- <-; exact Hs| |]; (eapply IH; [exact H| |exact Hr|exact Hs]; eapply HG; eassumption).
        * injection H as <- <-. unfold mv_add. cbn [fst snd]. rewrite app_assoc. apply Forall_app. split; [exact Hs|]. constructor; [|constructor]. split; [apply Hvar; exact Hr|exact Hl].
      + destruct (fsym_eqb fl fr && _); [|injection H as <- <-; exact Hs]. eapply Hargs; [exact H| | |exact Hs]; intros a Ha; [exact (proj1 (within_fun _ _ _) Hl a Ha)|exact (proj1 (within_fun _ _ _) Hr a Ha)].
      + injection H as <- <-. exact Hs.
    - destruct r as [v|fr ar|q' vs' bd'].
      + destruct (maybe_get rp (vid v)) as [t|] eqn:Et.
        * destruct t; [injection H as <- <-; exact Hs| |]; (eapply IH; [exact H| |exact Hr|exact Hs]; eapply HG; eassumption).
        * injection H as <- <-. unfold mv_add. cbn [fst snd]. rewrite app_assoc. apply Forall_app. split; [exact Hs|]. constructor; [|constructor]. split; [apply Hvar; exact Hr|exact Hl].
      + injection H as <- <-. exact Hs.
      + injection H as <- <-. exact Hs.
  Qed.
  Lemma mgu_within n l r u : mgu n l r = Some (Some u) -> within l L -> within r L -> ents u.
  Proof.
    unfold mgu. destruct (aux n l r ([], [])) as [[[] s]|] eqn:E; intros H Hl Hr; try discriminate. injection H as <-. eapply aux_within; [exact E|exact Hl|exact Hr|constructor].
  Qed.
  Lemma equalities_within gs u l : as_equalities gs u = Some l -> ents u -> forall f, In f l -> bound_by L f.
  Proof.
    unfold as_equalities. destruct u as [a b]. cbn [fst snd]. destruct (existsb _ _); [discriminate|]. intros H Hu x Hx.
    destruct (mapM_from _ _ _ _ H Hx) as (p & Hp & E). destruct (gs (snd p)); [|discriminate]. injection E as <-. rewrite Forall_forall in Hu. destruct (Hu _ Hp) as [H1 H2].
    bind. apply within_bound. exact H2.
  Qed.
  Lemma subterm_within gs aux_sort mfuel x m u : is_subterm gs aux_sort mfuel x m = Some (Some u) -> within x L -> within m L -> ents u.
  Proof.
    unfold is_subterm. destruct (unified gs aux_sort m); [|discriminate]. intros H Hx Hm. destruct x as [v|s l|q vs b]; [|eapply mgu_within; eassumption|eapply mgu_within; eassumption].
    injection H as <-. cbn. constructor; [|constructor]. split; [apply within_var; exact Hx|exact Hm].
  Qed.
  Lemma f_a_bound gs sound k x m a : f_a gs sound k x m = Some a -> bound_by L x -> bound_by L m -> bound_by L a.
  Proof.
    unfold f_a. intros H Hx Hm. destruct sound; cbn [negb] in H; [|injection H as <-; unfold TRUE; bind]. destruct k as [i|fs]; [injection H as <-; bind; assumption|].
    destruct (gs m) as [s|]; [|discriminate]. destruct (find _ fs) as [p|]; [|discriminate]. injection H as <-. bind; assumption.
  Qed.
  Lemma result_bound gs sound k x f keep st u g : result_guard gs sound k x f keep st u = Some g -> within x L -> within f L -> guard_within st L -> ents u -> bound_by L g.
  Proof.
    unfold result_guard. intros H Hx Hf Hst Hu.
    match type of H with match ?o with _ => _ end = _ => destruct o as [l|] eqn:E; [|discriminate] end. injection H as <-. apply bound_ands. intros a Ha. apply in_app_or in Ha as [Ha|Ha].
    - destruct (is_unifying_to_variable u) as [[i t]|]; [|eapply equalities_within; eassumption]. destruct (rich_eqb t x); [|eapply equalities_within; eassumption].
      destruct (f_a gs sound k x f) as [b|] eqn:Ea; [|discriminate]. injection E as <-. destruct Ha as [<-|[]]. eapply f_a_bound; [exact Ea|apply within_bound; exact Hx|apply within_bound; exact Hf].
    - destruct keep; [|destruct Ha]. destruct (ss_guard st) as [c|] eqn:Ec; [|destruct Ha]. destruct Ha as [<-|[]]. apply within_bound. apply Hst. exact Ec.
  Qed.
End Unifier.

Lemma plain_at f p a : plain f -> at_path f p a -> plain a.
Proof. intros Hp Ha q qq vs b H. apply (Hp (p ++ q) qq vs b). eapply at_path_app; eassumption. Qed.
Lemma within_at f p a l : within f l -> at_path f p a -> within a l.
Proof. intros Hw Ha v (q & Hv). apply Hw. exists (p ++ q). eapply at_path_app; eassumption. Qed.

Section Searches.
  Context (steps : list pstep) (cells : list mcell) (anc : mref -> option ancestors) (tq : nat -> ta_quant) (R : list nat).
  Context (Hclosed : protocol_closed steps cells tq) (Hanc : answers_cells anc cells).
  Lemma visit_next_ok nexts e e' : subterms_next nexts -> visits steps anc tq nexts e e' -> ok R e -> ok R e'.
  Proof.
    intros Hn. induction 1 as [e|f st a e Ha Hv IH|f st us u e Eu Hu Hv IH]; intros Hok; auto.
    - apply IH. destruct Hok as (Hp & Hw & Hb & Hg). cbn [fst snd] in *. destruct (Hn f a Ha) as (p & Hpath). repeat split; cbn [fst snd]; auto; [eapply plain_at|eapply within_at]; eassumption.
    - apply IH. eapply unfold_ok; eauto.
  Qed.
  Lemma results_bound gs aux_sort sound kind mfuel nexts fuel x ms keep fl out : subterms_next nexts ->
    preprocess_terms gs aux_sort sound kind steps anc tq mfuel nexts fuel x ms keep fl = Some out ->
    (forall m bvs, In (m, bvs) ms -> ok R (m, mkSt fl bvs None)) -> within x R ->
    forall d, In d out -> bound_by (map vid (fst d) ++ R) (snd d).
  Proof.
    intros Hn H Hms Hx d Hd. apply terms_spec in H as [_ H]. destruct (H d Hd) as (m & bvs & f & st & u & g & Hin & Hv & Hs & Hg & ->). cbn [fst snd].
    destruct (visit_next_ok _ _ _ Hn Hv (Hms m bvs Hin)) as (Hp & Hw & _ & Hgw). cbn [fst snd] in *.
    assert (Hx' : within x (map vid (ss_bound st) ++ R)) by (eapply within_sub; [exact Hx|]; intros i Hi; apply in_or_app; right; exact Hi).
    eapply result_bound; [exact Hg|exact Hx'|exact Hw|exact Hgw|]. eapply subterm_within; eassumption.
  Qed.
End Searches.

(** ** Merging *)
Lemma key_insert_some scmp v l : key_insert scmp v l <> [].
Proof. destruct l as [|w l]; cbn; [discriminate|]. destruct (kcmp scmp v w); discriminate. Qed.
Lemma keys_none scmp content : keys scmp content = [] -> forall d, In d content -> fst d = [].
Proof.
  unfold keys. intros H d Hd. destruct (fst d) as [|v vs] eqn:E; [reflexivity|exfalso].
  assert (Hin : In v (flat_map fst content)) by (apply in_flat_map; exists d; rewrite E; split; [exact Hd|left; reflexivity]).
  assert (G : forall l acc, (acc <> [] \/ l <> []) -> fold_left (fun acc v => key_insert scmp v acc) l acc <> []).
  { induction l as [|a l IH]; intros acc [Ha|Ha]; cbn; try congruence; apply IH; left; apply key_insert_some. }
  eapply G; [|exact H]. right. intros E'. rewrite E' in Hin. destruct Hin.
Qed.
Lemma max_set_some l : forall best, best <> [] \/ l <> [] -> max_set best l <> [].
Proof.
  induction l as [|x l IH]; intros best [H|H]; cbn; try congruence.
  - destruct best as [|b best]; [congruence|]. destruct (set_cmp _ _); apply IH; left; discriminate.
  - destruct best as [|b best]; [apply IH; left; discriminate|]. destruct (set_cmp _ _); apply IH; left; discriminate.
Qed.
Lemma is_key_id scmp a b : is_key scmp a b = true -> vid a = vid b.
Proof. unfold is_key, kcmp. destruct (Nat.compare_spec (vid a) (vid b)); [auto|discriminate|discriminate]. Qed.
Lemma merge_bound scmp ds l : (forall d, In d ds -> bound_by (map vid (fst d) ++ l) (snd d)) -> bound_by l (into_exist_formula scmp ds).
Proof.
  intros H. assert (Hc : forall d, In d (unique ds) -> bound_by (map vid (fst d) ++ l) (snd d)) by (intros d Hd; apply H; apply (proj1 (unique_in _ _)); exact Hd).
  unfold into_exist_formula. cbv zeta. set (content := unique ds) in *. set (vars := map (fun v => (v, index_set scmp content v)) (keys scmp content)).
  destruct (max_set [] vars) as [|[v0 pm] mx] eqn:E.
  - apply bound_ors. intros f Hf. apply in_map_iff in Hf as (d & <- & Hd). assert (K : keys scmp content = []).
    { destruct (keys scmp content) as [|k ks] eqn:Ek; [reflexivity|exfalso]. eapply max_set_some; [|exact E]. right. unfold vars. cbn. discriminate. }
    pose proof (Hc d Hd) as Hb. rewrite (keys_none _ _ K d Hd) in Hb. exact Hb.
  - set (vm := map fst ((v0, pm) :: mx)). apply bound_ors. intros f [<-|Hf].
    + bind. apply bound_ors. intros f Hf. apply in_flat_map in Hf as (i & _ & Hf). destruct (nth_error content i) as [[inner g]|] eqn:Ei; [|destruct Hf]. destruct Hf as [<-|[]].
      bind. eapply bound_mono; [apply (Hc (inner, g)); eapply nth_error_In; exact Ei|]. cbn [fst]. intros j Hj. apply in_app_or in Hj as [Hj|Hj]; [|rewrite !in_app_iff; tauto].
      apply in_map_iff in Hj as (v & <- & Hv). destruct (existsb (is_key scmp v) vm) eqn:Ek.
      * apply existsb_exists in Ek as (u & Hu & Ek). apply is_key_id in Ek. rewrite Ek. apply in_or_app. right. apply in_or_app. left. apply in_map. exact Hu.
      * apply in_or_app. left. apply in_map. apply filter_In. rewrite Ek. auto.
    + apply in_flat_map in Hf as ([i d] & Hid & Hf). cbn [fst snd] in Hf. destruct (existsb _ pm); [destruct Hf|]. destruct Hf as [<-|[]]. bind. apply Hc. eapply in_combine_r. exact Hid.
Qed.

(** ** The definitions of subterm relations *)
Lemma vars_ok fn vs fl R : (forall v, In v vs -> In (vid v) R) -> ok R (FFun fn (map FVar vs), mkSt fl [] None).
Proof.
  intros H. repeat split; cbn [fst snd ss_bound ss_guard map].
  - intros p q ws b Hp. inversion Hp as [|? ? i p' a ? Hn Ha|]; subst. apply nth_error_In in Hn. apply in_map_iff in Hn as (v & <- & _). inversion Ha.
  - apply within_fun. intros a Ha. apply in_map_iff in Ha as (v & <- & Hv). apply within_var. auto.
  - constructor.
  - intros g [=].
Qed.
Section Definitions.
  Context (gs : formula -> option sort) (r : realm) (funs : list (fsym * list sort)) (sorts : list sort) (steps : list pstep) (cells : list mcell) (anc : mref -> option ancestors)
    (tq : nat -> ta_quant) (scmp : sort -> sort -> comparison) (mfuel fuel : nat).
  Context (Hclosed : protocol_closed steps cells tq) (Hanc : answers_cells anc cells).

  Lemma special_closed aux_sort sound kind nexts mv fl keep fn ss a : subterms_next nexts ->
    special_assertion gs aux_sort sound kind steps anc tq mfuel nexts scmp fuel mv fl keep fn ss = Some a -> sentence a.
  Proof.
    intros Hn H. unfold special_assertion in H. cbv zeta in H. set (x := mkVar (mv + 1) aux_sort) in *. set (vars := sorts_to_variables (mv + 1 + 1) ss) in *.
    unfold preprocess_term_to_formula, preprocess_term in H. destruct (preprocess_terms _ _ _ _ _ _ _ _ _ _ _ _ _ _) as [ds|] eqn:Ed; [|discriminate]. cbn [option_map] in H.
    destruct (f_a gs sound kind (FVar x) (FFun fn (map FVar vars))) as [b|] eqn:Eb; [|discriminate]. injection H as <-. apply (proj1 (bound_nil _)). bind.
    - eapply f_a_bound; [exact Eb|apply bound_var|apply bound_args, bound_vars; intros v Hv]; rewrite app_nil_r, map_app; apply in_or_app; [right; left; reflexivity|left; apply in_map; exact Hv].
    - rewrite app_nil_r. apply merge_bound. eapply results_bound; [exact Hclosed|exact Hanc|exact Hn|exact Ed| |].
      + intros m bvs [E|[]]. injection E as <- <-. apply vars_ok. intros v Hv. rewrite map_app. apply in_or_app. left. apply in_map. exact Hv.
      + apply within_var. rewrite map_app. apply in_or_app. right. left. reflexivity.
  Qed.
  Lemma function_assertion_closed se fn ins a : function_assertion gs r se fn ins = Some a -> sentence a.
  Proof.
    unfold function_assertion, atom. cbv zeta. set (x := mkVar 0 (se_sort se)). set (vars := sorts_to_variables 1 ins). intros H.
    destruct (mapM _ vars) as [l|] eqn:El; [|discriminate]. destruct (f_a gs _ _ (FVar x) (FFun fn (map FVar vars))) as [b|] eqn:Eb; [|discriminate]. injection H as <-.
    assert (Hx : In (vid x) (map vid (vars ++ [x]) ++ [])) by (rewrite app_nil_r, map_app; apply in_or_app; right; left; reflexivity).
    assert (Hv : forall v, In v vars -> In (vid v) (map vid (vars ++ [x]) ++ [])) by (intros v Hv; rewrite app_nil_r, map_app; apply in_or_app; left; apply in_map; exact Hv).
    assert (Ha : bound_by (map vid (vars ++ [x]) ++ []) (FFun fn (map FVar vars))) by (bind; apply bound_vars; exact Hv).
    assert (Ho : bound_by (map vid (vars ++ [x]) ++ []) (ors l)).
    { apply bound_ors. intros f Hf. destruct (mapM_from _ _ _ _ El Hf) as (v & Hin & E). eapply f_a_bound; [exact E|apply bound_var; exact Hx|apply bound_var; auto]. }
    apply (proj1 (bound_nil _)). bind; [eapply f_a_bound; [exact Eb|apply bound_var; exact Hx|exact Ha]|].
    match goal with |- bound_by _ (if ?b then _ else _) => destruct b end; [|exact Ho]. bind; try exact Ho; try (apply bound_var; exact Hx); apply bound_vars; exact Hv.
  Qed.
  Lemma not_of_sort_closed se ss l : not_of_sort gs r se ss = Some l -> Forall sentence l.
  Proof.
    unfold not_of_sort, atom. intros H. apply Forall_forall. intros f Hf. destruct (mapM_from _ _ _ _ H Hf) as (s & _ & E). cbv zeta in E.
    destruct (f_a _ _ _ _ _) as [a|] eqn:Ea; [|discriminate]. injection E as <-. apply (proj1 (bound_nil _)). bind. eapply f_a_bound; [exact Ea| |]; bind.
  Qed.
  Lemma functions_closed se l : function_assertions gs r funs se = Some l -> Forall sentence l.
  Proof. unfold function_assertions. intros H. apply Forall_forall. intros f Hf. destruct (mapM_from _ _ _ _ H Hf) as (x & _ & E). eapply function_assertion_closed; exact E. Qed.
  Lemma specials_closed se keep l : subterms_next (se_nexts se) -> special_assertions gs r funs steps cells anc tq scmp mfuel fuel se keep = Some l -> Forall sentence l.
  Proof.
    unfold special_assertions. destruct (protocol_max_var fuel steps cells) as [mv|]; [|discriminate]. intros Hn H. apply Forall_forall. intros f Hf.
    destruct (mapM_from _ _ _ _ H Hf) as (x & _ & E). eapply special_closed; eassumption.
  Qed.
  Lemma append_closed a b l : append a b = Some l -> (forall x, a = Some x -> Forall sentence x) -> (forall x, b = Some x -> Forall sentence x) -> Forall sentence l.
  Proof. unfold append. destruct a as [x|]; [|discriminate]. destruct b as [y|]; [|discriminate]. intros [= <-] Ha Hb. apply Forall_app. auto. Qed.
  Lemma define_subterm_closed se keep l : subterms_next (se_nexts se) -> define_subterm gs r funs sorts steps cells anc tq scmp mfuel fuel se keep = Some l -> Forall sentence l.
  Proof.
    intros Hn H. eapply append_closed; [exact H| |].
    - intros x Hx. destruct (vampire (se_kind se)); [injection Hx as <-; constructor|]. eapply append_closed; [exact Hx|apply functions_closed|]. intros y. apply not_of_sort_closed.
    - intros x Hx. eapply specials_closed; eassumption.
  Qed.
  Lemma define_subterms_closed key main l : subterms_next (se_nexts key) -> subterms_next (se_nexts main) ->
    define_subterms gs r funs sorts steps cells anc tq scmp mfuel fuel key main = Some l -> Forall sentence l.
  Proof.
    intros Hk Hm H. unfold define_subterms in H. destruct (evaluated_realm r); [injection H as <-; constructor|].
    eapply append_closed; [exact H| |]; intros x Hx; (eapply define_subterm_closed; [|exact Hx]); assumption.
  Qed.
  Lemma ctxt_define_closed main key rand l : subterms_next (se_nexts main) -> subterms_next (se_nexts key) -> subterms_next (se_nexts rand) ->
    ctxt_define_subterms gs r funs sorts steps cells anc tq scmp mfuel fuel main key rand = Some l -> Forall sentence l.
  Proof.
    intros Hm Hk Hr H. unfold ctxt_define_subterms in H. destruct (evaluated_realm r); [injection H as <-; constructor|].
    eapply append_closed; [exact H| |]; [intros x Hx; eapply define_subterm_closed; [|exact Hx]; assumption|]. intros y Hy.
    eapply append_closed; [exact Hy| |]; intros x Hx; (eapply define_subterm_closed; [|exact Hx]); assumption.
  Qed.
  Lemma split_closed key split mv a : subterms_next (se_nexts key) -> split_axiom gs r steps cells anc tq scmp mfuel fuel key split mv = Some a -> sentence a.
  Proof.
    unfold split_axiom. cbv zeta. intros Hn H. destruct (preprocess_terms _ _ _ _ _ _ _ _ _ _ _ _ _ _) as [ds|] eqn:Ed; [|discriminate]. injection H as <-. apply (proj1 (bound_nil _)). bind.
    apply merge_bound. eapply results_bound; [exact Hclosed|exact Hanc|exact Hn|exact Ed| |].
    - intros m bvs Hin. eapply terms_ok; [exact Hclosed|exact Hin].
    - apply within_var. left. reflexivity.
  Qed.
  Lemma nonce_closed k l : nonce_axioms gs r funs sorts steps cells anc tq scmp mfuel fuel k = Some l -> Forall sentence l.
  Proof.
    unfold nonce_axioms. cbv zeta. intros H. eapply append_closed; [exact H| |].
    - intros x Hx. destruct (vampire k); [injection Hx as <-; constructor|]. eapply append_closed; [exact Hx|apply functions_closed|]. intros y. apply not_of_sort_closed.
    - intros x Hx. eapply append_closed; [exact Hx| |].
      + intros y. apply specials_closed. apply children_sub.
      + intros y Hy. destruct (nonce_same gs r (nonce k)) as [a|] eqn:Ea; [|discriminate]. destruct (nonce_fresh gs r (nonce k)) as [b|] eqn:Eb; [|discriminate]. injection Hy as <-.
        unfold nonce_same, nonce_fresh, atom in *. cbv zeta in *.
        destruct (f_a gs _ _ (FVar (mkVar 0 SName)) (FVar (mkVar 1 SName))) as [a'|] eqn:Fa; [|discriminate]. injection Ea as <-.
        destruct (f_a gs _ _ (FVar (mkVar 0 SName)) (FVar (mkVar 1 SMessage))) as [b'|] eqn:Fb'; [|discriminate]. injection Eb as <-.
        constructor; [|constructor; [|constructor; [|constructor]]]; apply (proj1 (bound_nil _)); unfold nonce_injective; bind; (eapply f_a_bound; [eassumption| |]); bind.
  Qed.
  Lemma general_closed kmain kkey sm sk split (signed : formula -> formula -> formula) (verified : formula -> formula -> formula -> formula) a :
    (forall l a b, bound_by l a -> bound_by l b -> bound_by l (signed a b)) -> (forall l a b c, bound_by l a -> bound_by l b -> bound_by l c -> bound_by l (verified a b c)) ->
    general gs kmain kkey sm sk split signed verified = Some a -> sentence a.
  Proof.
    intros Hs Hv. unfold general. cbv zeta. intros H.
    do 4 match type of H with match ?o with Some _ => _ | None => None end = _ => let E := fresh "E" in destruct o eqn:E; [|discriminate] end. injection H as <-.
    apply (proj1 (bound_nil _)). bind; try (apply Hv; bind); (eapply f_a_bound; [eassumption| |]); bind; apply Hs; bind.
  Qed.
  Lemma uf_base_closed mac verify : sentence (uf_base mac verify).
  Proof. apply (proj1 (bound_nil _)). unfold uf_base. cbv zeta. bind. Qed.
  Lemma ctxt_base_closed enc dec : sentence (ctxt_base enc dec).
  Proof. apply (proj1 (bound_nil _)). unfold ctxt_base. cbv zeta. bind. Qed.
  Lemma ctxt_general_closed kmain kkey krand sm sk sr enc dec fail a : ctxt_general gs kmain kkey krand sm sk sr enc dec fail = Some a -> sentence a.
  Proof.
    unfold ctxt_general. cbv zeta. intros H.
    do 4 match type of H with match ?o with Some _ => _ | None => None end = _ => let E := fresh "E" in destruct o eqn:E; [|discriminate] end. injection H as <-.
    apply (proj1 (bound_nil _)). bind; (eapply f_a_bound; [eassumption| |]); bind.
  Qed.
End Definitions.

(** ** Instances *)
Lemma one_var_bound uid m f : forall g l, sapply (one_var uid m) f = Some g -> bound_by (uid :: l) f -> bound_by l m -> bound_by l g.
Proof.
  induction f as [v|h args IH|q vs b IH] using formula_ind'; intros g l H Hf Hm.
  - cbn in H. unfold one_var in H. apply bound_var in Hf. destruct (Nat.eqb_spec (vid v) uid) as [E|E]; injection H as <-; [exact Hm|]. apply bound_var. destruct Hf as [Hf|Hf]; [congruence|exact Hf].
  - rewrite sapply_fun in H. destruct (mapM _ args) as [l'|] eqn:E; [|discriminate]. injection H as <-. apply bound_fun. intros a Ha. destruct (mapM_from _ _ _ _ E Ha) as (c & Hc & Ec).
    rewrite Forall_forall in IH. eapply (IH c Hc); [exact Ec| |exact Hm]. exact (proj1 (bound_fun _ _ _) Hf c Hc).
  - cbn in H. destruct (sapply (one_var uid m) b) as [b'|] eqn:E; [|discriminate]. injection H as <-. apply (proj2 (bound_quant _ _ _ _)). eapply IH; [reflexivity| |].
    + eapply bound_mono; [exact (proj1 (bound_quant _ _ _ _) Hf)|]. intros i. cbn. rewrite !in_app_iff. cbn. tauto.
    + eapply bound_mono; [exact Hm|]. intros i Hi. apply in_or_app. right. exact Hi.
Qed.
Lemma translate_plain n f g : translate_vars n f = Some g -> plain f -> plain g.
Proof. intros H Hp. eapply sapply_plain; [exact H|exact Hp|]. intros v t _ E. injection E as <-. intros p q vs b Hb. inversion Hb. Qed.
Lemma translate_occurs_in n f : forall g v, translate_vars n f = Some g -> occurs v f -> exists w, occurs w g /\ vid w = vid v + n.
Proof.
  unfold translate_vars. induction f as [u|h args IH|q vs b IH] using formula_ind'; intros g v H Hv.
  - apply occurs_var_inv in Hv as ->. injection H as <-. eexists. split; [apply occurs_var|reflexivity].
  - rewrite sapply_fun in H. destruct (mapM _ args) as [l|] eqn:E; [|discriminate]. injection H as <-. apply occurs_fun_inv in Hv as (a & Ha & Hv).
    destruct (Graph_Proofs.mapM_defined _ _ _ a E Ha) as (a' & Ha' & Ea). rewrite Forall_forall in IH. destruct (IH a Ha a' v Ea Hv) as (w & Hw & Ew). exists w. split; [|exact Ew].
    destruct Hw as (p & Hp). apply In_nth_error in Ha' as (i & Hi). exists (i :: p). econstructor; eassumption.
  - cbn in H. destruct (sapply (translate n) b) as [b'|] eqn:E; [|discriminate]. injection H as <-. destruct Hv as (p & Hp). inversion Hp; subst.
    destruct (IH b' v eq_refl) as (w & (p' & Hw) & Ew); [eexists; eassumption|]. exists w. split; [|exact Ew]. exists (0 :: p'). constructor. exact Hw.
Qed.
Lemma start_ok R f fl : plain f -> within f R -> ok R (f, mkSt fl [] None).
Proof. intros Hp Hw. repeat split; cbn; [exact Hp|exact Hw|constructor|intros g [=]]. Qed.
Lemma free_of_bound fuel fs out f : free_of fuel fs = Some out -> In f fs -> bound_by (map vid out) f.
Proof. intros H Hf i Hi. apply (free_of_in _ _ _ H). exists f. auto. Qed.

Section Instances.
  Context (gs : formula -> option sort) (steps : list pstep) (cells : list mcell) (anc : mref -> option ancestors) (tq : nat -> ta_quant) (scmp : sort -> sort -> comparison) (mfuel fuel : nat).
  Context (Hclosed : protocol_closed steps cells tq) (Hanc : answers_cells anc cells).

  Lemma instance_closed symbolic sm sk kmain kkey mn kn (signed : formula -> formula -> formula) (premise : formula -> formula -> formula -> formula) mv c a :
    subterms_next mn -> (forall l a b, within a l -> within b l -> within (signed a b) l) ->
    (forall l a b c, bound_by l a -> bound_by l b -> bound_by l c -> bound_by l (premise a b c)) -> plain (ca_message c) -> plain (ca_signature c) -> plain (ca_key c) ->
    instance gs steps cells anc tq mfuel scmp symbolic sm sk kmain kkey mn kn signed premise fuel mv c = Some (Some a) -> sentence a.
  Proof.
    intros Hn Hsg Hpr Pm Ps Pk H. destruct c as [message signature key]. cbn [ca_message ca_signature ca_key] in *. unfold instance in H.
    destruct (formulas_max_var_or_max _ _ _ _) as [uid|]; [|discriminate]. destruct (free_of fuel _) as [free|] eqn:Ef; [|discriminate]. cbv zeta in H.
    destruct (finds_nothing _ _ _ _ _ _ _ _ _ _ _ _ _ _) as [[]|]; try discriminate.
    destruct (preprocess_terms _ _ _ _ _ _ _ _ _ _ _ _ _ _) as [ds|] eqn:Ed; [|discriminate].
    assert (Bm : bound_by (map vid free) message) by (eapply free_of_bound; [exact Ef|left; reflexivity]).
    assert (Bs : bound_by (map vid free) signature) by (eapply free_of_bound; [exact Ef|right; left; reflexivity]).
    assert (Bk : bound_by (map vid free) key) by (eapply free_of_bound; [exact Ef|right; right; left; reflexivity]).
    assert (W : forall f, plain f -> bound_by (map vid free) f -> within f (uid :: map vid free)).
    { intros f Hp Hb. eapply within_sub; [apply bound_within; eassumption|]. intros i Hi. right. exact Hi. }
    assert (HM : bound_by (uid :: map vid free) (into_exist_formula scmp ds)).
    { apply merge_bound. eapply results_bound; [exact Hclosed|exact Hanc|exact Hn|exact Ed| |].
      - intros m bvs [E|[E|[]]]; injection E as <- <-; apply start_ok; auto.
      - apply Hsg; [apply within_var; left; reflexivity|]. apply within_fun. intros b [<-|[]]. auto. }
    assert (Hprem : bound_by (map vid free) (premise signature message (cast_name key))) by (apply Hpr; [exact Bs|exact Bm|bind; exact Bk]).
    assert (M1 : forall f, bound_by (map vid free) f -> bound_by (map vid free ++ []) f) by (intros f Hf; rewrite app_nil_r; exact Hf).
    destruct symbolic.
    - injection H as <-. apply (proj1 (bound_nil _)). bind; [apply M1; exact Hprem|..].
      + eapply bound_mono; [exact Bm|]. intros i Hi. right. rewrite app_nil_r. exact Hi.
      + rewrite app_nil_r. exact HM.
    - destruct (sapply _ _) as [b|] eqn:Eb; [|discriminate]. injection H as <-. apply (proj1 (bound_nil _)). bind; apply M1; [exact Hprem|]. eapply one_var_bound; eassumption.
  Qed.

  Definition enc_plain (e : enc_candidate) : Prop := plain (en_rand e) /\ plain (en_message e) /\ plain (en_key e).
  Definition enc_covered (e : enc_candidate) : Prop := forall i, occurs_free i (en_key e) -> occurs_free i (en_message e) \/ occurs_free i (en_rand e).
  Lemma unify_eqs_bound L a b l : unify_eqs gs mfuel a b = Some (Some l) -> within a L -> within b L -> forall f, In f l -> bound_by L f.
  Proof.
    unfold unify_eqs. destruct (mgu mfuel a b) as [[u|]|] eqn:E; try discriminate. intros H Ha Hb f Hf. injection H as <-.
    destruct (as_equalities gs u) as [l|] eqn:El; [|destruct Hf as [<-|[]]; unfold TRUE; bind]. eapply equalities_within; [exact El| |exact Hf]. eapply mgu_within; eassumption.
  Qed.
  Lemma pair_bound L mv k_f e1 e2 f : enc_plain e1 -> enc_plain e2 -> enc_covered e2 -> within k_f L ->
    pair_condition gs mfuel fuel mv k_f (e1, e2) = Some (Some f) -> bound_by L f.
  Proof.
    intros (Pr1 & Pm1 & Pk1) (Pr2 & Pm2 & Pk2) Hcov Hk H. unfold pair_condition in H.
    destruct (translate_vars mv (en_rand e2)) as [r2|] eqn:Er; [|discriminate]. destruct (translate_vars mv (en_key e2)) as [k2|] eqn:Ek; [|discriminate].
    destruct (translate_vars mv (en_message e2)) as [m2|] eqn:Em; [|discriminate]. unfold and_then in H.
    destruct (unify_eqs gs mfuel k_f (en_key e1)) as [[uk|]|] eqn:U1; try discriminate. destruct (unify_eqs gs mfuel (en_rand e1) r2) as [[ur|]|] eqn:U2; try discriminate.
    destruct (unify_eqs gs mfuel (en_key e1) k2) as [[uk12|]|] eqn:U3; try discriminate. destruct (unify_eqs gs mfuel (en_message e1) m2) as [[um|]|] eqn:U4; try discriminate.
    destruct (free_of fuel _) as [free|] eqn:Ef; [|discriminate]. injection H as <-. apply (proj2 (bound_forall _ _ _)).
    assert (W : forall g, In g [en_rand e1; en_message e1; en_key e1; r2; m2; r2] -> plain g -> within g (map vid free ++ L)).
    { intros g Hg Hp. eapply within_sub; [apply bound_within; [exact Hp|eapply free_of_bound; [exact Ef|exact Hg]]|]. intros i Hi. apply in_or_app. left. exact Hi. }
    assert (W1 := W _ (or_introl eq_refl) Pr1). assert (W2 := W _ (or_intror (or_introl eq_refl)) Pm1). assert (W3 := W _ (or_intror (or_intror (or_introl eq_refl))) Pk1).
    assert (Pr2' := translate_plain _ _ _ Er Pr2). assert (Pm2' := translate_plain _ _ _ Em Pm2).
    assert (W4 : within r2 (map vid free ++ L)) by (apply W; [cbn; tauto|exact Pr2']). assert (W5 : within m2 (map vid free ++ L)) by (apply W; [cbn; tauto|exact Pm2']).
    assert (W6 : within k2 (map vid free ++ L)).
    { intros v Hv. destruct (translate_occurs _ _ _ _ Ek Hv) as (w & Hw & Ew & _). destruct Hw as (p & Hp). pose proof (plain_free _ _ _ Pk2 Hp) as Hfree.
      destruct (Hcov _ Hfree) as [(q & x & Hq & Ex & _)|(q & x & Hq & Ex & _)].
      - destruct (translate_occurs_in _ _ _ x Em) as (y & Hy & Ey); [exists q; exact Hq|]. rewrite Ew, <- Ex, <- Ey. apply W5. exact Hy.
      - destruct (translate_occurs_in _ _ _ x Er) as (y & Hy & Ey); [exists q; exact Hq|]. rewrite Ew, <- Ex, <- Ey. apply W4. exact Hy. }
    assert (W7 : within k_f (map vid free ++ L)) by (eapply within_sub; [exact Hk|]; intros i Hi; apply in_or_app; right; exact Hi).
    apply bound_args. apply Forall_cons; [|apply Forall_cons; [|apply Forall_nil]]; apply bound_ands; intros g Hg; apply in_app_or in Hg as [Hg|Hg].
    - eapply unify_eqs_bound; [exact U2|exact W1|exact W4|exact Hg].
    - eapply unify_eqs_bound; [exact U1|exact W7|exact W3|exact Hg].
    - eapply unify_eqs_bound; [exact U3|exact W3|exact W6|exact Hg].
    - eapply unify_eqs_bound; [exact U4|exact W2|exact W5|exact Hg].
  Qed.
  Lemma other_bound L mv k_f es f : Forall enc_plain es -> Forall enc_covered es -> within k_f L -> other_sc gs mfuel fuel mv k_f es = Some f -> bound_by L f.
  Proof.
    intros Hp Hc Hk H. unfold other_sc in H. destruct (mapM _ _) as [l|] eqn:E; [|discriminate]. injection H as <-. apply bound_ands. intros g Hg. apply in_flat_map in Hg as ([h|] & Hh & Hg); [|destruct Hg].
    destruct Hg as [<-|[]]. destruct (mapM_from _ _ _ _ E Hh) as ([e1 e2] & Hin & Ep). apply pairs_in in Hin as (i & j & _ & Hi & Hj). apply nth_error_In in Hi, Hj.
    rewrite Forall_forall in Hp, Hc. eapply pair_bound; [| | |exact Hk|exact Ep]; auto.
  Qed.
  Lemma ctxt_instance_closed sm sk kmain kkey enc dec fail mv es sc c a : Forall enc_plain es -> Forall enc_covered es -> plain (fst c) -> plain (snd c) ->
    ctxt_instance gs tq mfuel sm sk kmain kkey steps cells anc scmp enc dec fail fuel mv es sc c = Some (Some a) -> sentence a.
  Proof.
    intros Hp Hc Pc Pk H. destruct c as [cipher key]. cbn [fst snd] in *. unfold ctxt_instance in H.
    destruct (formulas_max_var_or_max _ _ _ _) as [uid|]; [|discriminate]. destruct (free_of fuel _) as [free|] eqn:Ef; [|discriminate]. cbv zeta in H.
    destruct (negb sc); [discriminate|]. destruct (finds_nothing _ _ _ _ _ _ _ _ _ _ _ _ _ _) as [[]|]; try discriminate.
    destruct (preprocess_terms _ _ _ _ _ _ _ _ _ _ _ _ _ _) as [ds|] eqn:Ed; [|discriminate]. destruct (other_sc _ _ _ _ _ _) as [other|] eqn:Eo; [|discriminate]. injection H as <-.
    assert (Bc : bound_by (map vid free) cipher) by (eapply free_of_bound; [exact Ef|left; reflexivity]).
    assert (Bk : bound_by (map vid free) key) by (eapply free_of_bound; [exact Ef|right; left; reflexivity]).
    assert (M1 : forall f l, bound_by (map vid free) f -> bound_by (l ++ map vid free ++ []) f) by (intros f l Hf; eapply bound_mono; [exact Hf|]; intros i Hi; rewrite app_nil_r; apply in_or_app; right; exact Hi).
    assert (Wc : forall l, within cipher (l ++ map vid free)) by (intros l; eapply within_sub; [apply bound_within; eassumption|]; intros i Hi; apply in_or_app; right; exact Hi).
    assert (Wk : forall l, within key (l ++ map vid free)) by (intros l; eapply within_sub; [apply bound_within; eassumption|]; intros i Hi; apply in_or_app; right; exact Hi).
    apply (proj1 (bound_nil _)). bind; try (apply (M1 _ []); assumption); try (apply M1; assumption).
    - rewrite app_nil_r. eapply other_bound; [exact Hp|exact Hc| |exact Eo]. apply within_fun. intros b [<-|[]]. apply (Wk []).
    - rewrite app_nil_r. apply merge_bound. eapply results_bound; [exact Hclosed|exact Hanc|apply children_sub|exact Ed| |].
      + intros m bvs [E|[]]. injection E as <- <-. apply start_ok; [exact Pc|apply Wc].
      + apply within_fun. intros b [<-|[<-|[<-|[]]]]; [apply within_var; cbn; auto|..]; apply within_fun; intros b [<-|[]]; [apply within_var; cbn; auto|apply Wk].
  Qed.
End Instances.

(** ** The whole file *)
Lemma nodup_split {A} (l m : list A) : NoDup (l ++ m) -> NoDup l /\ NoDup m /\ forall x, In x l -> ~ In x m.
Proof.
  induction l as [|a l IH]; cbn; intros H; [repeat split; [constructor|exact H|intros x []]|]. inversion H as [|? ? Hn Hd]; subst. destruct (IH Hd) as (H1 & H2 & H3). split; [|split; [exact H2|]].
  - constructor; [|exact H1]. intros Hi. apply Hn. apply in_or_app. left. exact Hi.
  - intros x [<-|Hx] Hm; [apply Hn; apply in_or_app; right; exact Hm|exact (H3 x Hx Hm)].
Qed.
Section Whole.
  Context (sig : fsym -> option (list sort * sort)) (table : nat -> option quantifier) (r : realm) (vampire_flag defined preprocess : bool)
    (anc : mref -> option ancestors) (scmp : sort -> sort -> comparison) (mfuel fuel : nat) (w : whole_problem).
  Context (HS : scoped_whole table w) (Hans : answers_cells anc (wp_cells w)) (HK : keys_covered w).

  Lemma scoped_protocol : protocol_closed (gp_steps (wp_gen w)) (wp_cells w) (tq_of table).
  Proof.
    destruct HS as [_ Hst _ Ha Hq _ _]. split; [exact Hst|]. split; [intros c a Hc Hi; apply (Ha c a Hc Hi)|]. intros k. unfold tq_of, quant_closed. destruct (table k) as [q|] eqn:E.
    - destruct (Hq k q E) as (Hn & Hs & Hp). cbn [tq_bound tq_free tq_contents]. rewrite map_app in Hn. apply nodup_split in Hn as (H1 & H2 & H3). split; [exact H2|]. split; [exact H1|].
      split; [intros i Hb Hf; exact (H3 i Hf Hb)|]. split; [exact Hs|exact Hp].
    - cbn. split; [constructor|]. split; [constructor|]. split; [intros i []|]. split; [intros f i []|intros f []].
  Qed.
  Lemma top_sorted g : In g (top_level_terms w) -> problem_term w g /\ sorted_terms g.
  Proof.
    intros Hg. assert (Hp : problem_term w g).
    { unfold top_level_terms, protocol_terms in Hg. rewrite !in_app_iff in Hg. destruct Hg as [H|[[<-|[]]|[H|[[H|H]|H]]]].
      - apply pt_assert. exact H.
      - apply pt_query.
      - apply pt_lemma. exact H.
      - apply in_flat_map in H as (s & Hs & [<-|[<-|[]]]); [apply pt_cond|apply pt_msg]; exact Hs.
      - apply in_flat_map in H as (c & Hc & H). apply in_map_iff in H as (a & <- & Ha). eapply pt_cell; eassumption.
      - apply pt_extra. exact H. }
    split; [exact Hp|]. eapply sw_terms; eassumption.
  Qed.
  Ltac here := match goal with |- at_path _ _ _ => repeat (econstructor; try reflexivity) end.
  Lemma uf_checks_plain mac verify hmac t p f m s k : sorted_terms t -> at_path t p f -> uf_checks mac verify hmac f m s k -> plain m /\ plain s /\ plain k.
  Proof.
    intros Hs Hp H. assert (G : forall q h args, at_path f q (FFun h args) -> term_function h \/ h = Fb CEq /\ (exists g l, In (FFun (Fuser g) l) args) -> plain (FFun h args)).
    { intros q h args Hq. apply (Hs (p ++ q)). eapply at_path_app; eassumption. }
    assert (M : plain (FFun (Fuser mac) [m; FFun (Fcast SMessage) [k]]) -> plain m /\ plain k).
    { intros P. split; [|apply (plain_arg (Fcast SMessage) [k]); [|left; reflexivity]]; apply (plain_arg _ _ _ P); cbn; tauto. }
    assert (E : forall q a, at_path f q (FFun (Feval SMessage) [a]) -> plain a).
    { intros q a Ha. apply (plain_arg (Feval SMessage) [a]); [|left; reflexivity]. apply (G q _ _ Ha). left. exact I. }
    destruct H as [m s k|m s k _|m s k _|m s k _|m s k _|m s k _|m s k _].
    - pose proof (G [] _ _ (at_here _) (or_introl I)) as P. split; [apply (plain_arg _ _ _ P); cbn; tauto|]. split; [apply (plain_arg _ _ _ P); cbn; tauto|].
      apply (plain_arg (Fcast SMessage) [k]); [|left; reflexivity]. apply (plain_arg _ _ _ P). cbn. tauto.
    - pose proof (G [] _ _ (at_here _) (or_intror (conj eq_refl (ex_intro _ _ (ex_intro _ _ (or_introl eq_refl)))))) as P.
      destruct M as [Hm Hk]; [apply (plain_arg _ _ _ P); cbn; tauto|]. split; [exact Hm|]. split; [apply (plain_arg _ _ _ P); cbn; tauto|exact Hk].
    - pose proof (G [] _ _ (at_here _) (or_intror (conj eq_refl (ex_intro _ _ (ex_intro _ _ (or_intror (or_introl eq_refl))))))) as P.
      destruct M as [Hm Hk]; [apply (plain_arg _ _ _ P); cbn; tauto|]. split; [exact Hm|]. split; [apply (plain_arg _ _ _ P); cbn; tauto|exact Hk].
    - destruct M as [Hm Hk]; [apply (E [0]); econstructor; [reflexivity|constructor]|]. split; [exact Hm|]. split; [apply (E [1]); econstructor; [reflexivity|constructor]|exact Hk].
    - destruct M as [Hm Hk]; [apply (E [1]); econstructor; [reflexivity|constructor]|]. split; [exact Hm|]. split; [apply (E [0]); econstructor; [reflexivity|constructor]|exact Hk].
    - pose proof (G [] _ _ (at_here _) (or_introl I)) as P. destruct M as [Hm Hk]; [apply (plain_arg _ _ _ P); cbn; tauto|]. split; [exact Hm|]. split; [apply (plain_arg _ _ _ P); cbn; tauto|exact Hk].
    - pose proof (G [] _ _ (at_here _) (or_introl I)) as P. destruct M as [Hm Hk]; [apply (plain_arg _ _ _ P); cbn; tauto|]. split; [exact Hm|]. split; [apply (plain_arg _ _ _ P); cbn; tauto|exact Hk].
  Qed.
  Lemma euf_checks_plain verify pk t p f m s k : sorted_terms t -> at_path t p f -> euf_checks verify pk f m s k -> plain m /\ plain s /\ plain k.
  Proof.
    intros Hs Hp H. destruct H as [m s k]. pose proof (Hs _ _ _ Hp (or_introl I)) as P. split; [apply (plain_arg _ _ _ P); cbn; tauto|]. split; [apply (plain_arg _ _ _ P); cbn; tauto|].
    apply (plain_arg (Fcast SMessage) [k]); [|left; reflexivity]. apply (plain_arg (Fuser pk) [FFun (Fcast SMessage) [k]]); [|left; reflexivity]. apply (plain_arg _ _ _ P). cbn. tauto.
  Qed.
  Lemma candidates_plain found mv cs c : (forall t p f c, sorted_terms t -> at_path t p f -> In c (found f) -> plain (ca_message c) /\ plain (ca_signature c) /\ plain (ca_key c)) ->
    candidates found fuel mv (top_level_terms w) = Some cs -> In c cs -> plain (ca_message c) /\ plain (ca_signature c) /\ plain (ca_key c).
  Proof.
    intros Hf H Hc. apply candidates_spec in H as [_ H]. destruct (H c Hc) as (t & q & f & c0 & Ht & Hq & Hc0 & Hp). unfold prepare in Hp.
    destruct (translate_vars mv (ca_message c0)) as [m|] eqn:Em; [|discriminate]. destruct (translate_vars mv (ca_signature c0)) as [s|] eqn:Es; [|discriminate].
    destruct (translate_vars mv (ca_key c0)) as [k|] eqn:Ek; [|discriminate]. injection Hp as <-. cbn [ca_message ca_signature ca_key].
    destruct (Hf t q f c0 (proj2 (top_sorted t Ht)) Hq Hc0) as (P1 & P2 & P3). split; [|split]; eapply translate_plain; eassumption.
  Qed.
  Lemma uf_plain mac verify hmac mv cs c : candidates (uf_found mac verify hmac) fuel mv (top_level_terms w) = Some cs -> In c cs -> plain (ca_message c) /\ plain (ca_signature c) /\ plain (ca_key c).
  Proof. apply candidates_plain. intros t p f [m s k] Hs Hp Hf. apply uf_found_in in Hf. cbn. eapply uf_checks_plain; eassumption. Qed.
  Lemma euf_plain verify pk mv cs c : candidates (euf_found verify pk) fuel mv (top_level_terms w) = Some cs -> In c cs -> plain (ca_message c) /\ plain (ca_signature c) /\ plain (ca_key c).
  Proof. apply candidates_plain. intros t p f [m s k] Hs Hp Hf. apply euf_found_in in Hf. cbn. eapply euf_checks_plain; eassumption. Qed.
  Lemma dec_plain dec mv cs c : dec_candidates dec fuel mv (top_level_terms w) = Some cs -> In c cs -> plain (fst c) /\ plain (snd c).
  Proof.
    unfold dec_candidates. destruct (mapM (all_terms fuel) _) as [ts|] eqn:Et; [|discriminate]. destruct (mapM (prepare2 mv) _) as [l|] eqn:El; [|discriminate]. intros [= <-] Hc.
    apply uniq_in in Hc. destruct (mapM_from _ _ _ _ El Hc) as ([a b] & Hab & Ep). apply in_flat_map in Hab as (f & Hf & Hab). apply dec_found_in in Hab as ->.
    apply in_concat in Hf as (fs & Hfs & Hf). destruct (mapM_from _ _ _ _ Et Hfs) as (t & Ht & Eft). apply (all_terms_complete _ _ _ Eft) in Hf as (q & Hq).
    pose proof (proj2 (top_sorted t Ht) _ _ _ Hq (or_introl I)) as P. unfold prepare2 in Ep. cbn [fst snd] in Ep. destruct (translate_vars mv a) as [a'|] eqn:Ea; [|discriminate].
    destruct (translate_vars mv b) as [b'|] eqn:Eb; [|discriminate]. injection Ep as <-. cbn [fst snd]. split; (eapply translate_plain; [eassumption|]).
    - apply (plain_arg _ _ _ P). cbn. tauto.
    - apply (plain_arg (Fcast SMessage) [b]); [|left; reflexivity]. apply (plain_arg _ _ _ P). cbn. tauto.
  Qed.
  Lemma enc_plain_covered enc dec fail es sc : In (ACtxt enc dec fail) (wp_assumptions w) -> enc_candidates enc (top_level_terms w) = (es, sc) -> Forall enc_plain es /\ Forall enc_covered es.
  Proof.
    intros Hin H. apply enc_candidates_spec in H as (_ & _ & H). split; apply Forall_forall; intros e He; destruct (H e He) as (t & l & Ht & E); unfold Crypto_Spec.is_enc in E; destruct (top_sorted t Ht) as [Hp Hs]; subst t.
    - pose proof (Hs [] _ _ (at_here _) (or_introl I)) as P. split; [|split; apply (plain_arg _ _ _ P); cbn; tauto].
      apply (plain_arg (Fcast SMessage) (en_rand e :: l)); [|left; reflexivity]. apply (plain_arg _ _ _ P). cbn. tauto.
    - intros i Hi. eapply HK; eassumption.
  Qed.

  Notation written o := (Forall sentence (o_axioms o)).
  Lemma instances_closed {A} (b : bool) (cands : nat -> option (list A)) one l : when b (instances fuel w cands one) = Some l ->
    (forall mv cs c x, cands mv = Some cs -> In c cs -> one mv c = Some (Some x) -> sentence x) -> Forall sentence l.
  Proof.
    intros H Hq. destruct b; cbn in H; [|injection H as <-; constructor]. apply Forall_forall. intros x Hx. destruct (instances_from _ _ _ _ _ H x Hx) as (mv & cs & c & E1 & E2 & E3). eauto.
  Qed.
  Lemma definitions_closed key main g split ds axs split' : subterms_next (se_nexts key) -> subterms_next (se_nexts main) -> (forall a, g = Some a -> sentence a) ->
    definitions sig table r defined anc scmp mfuel fuel w key main g split = Some (ds, axs, split') -> Forall sentence axs.
  Proof.
    intros Hk Hm Hg H. unfold definitions in H. destruct defined; cbn [negb] in H; [|injection H as <- <- <-; constructor].
    match type of H with match ?o with Some _ => _ | None => None end = _ => destruct o as [defs|] eqn:Ed; [|discriminate] end.
    assert (HD : Forall sentence defs) by (eapply define_subterms_closed; [exact scoped_protocol|exact Hans|exact Hk|exact Hm|exact Ed]).
    match type of H with (if ?b then _ else _) = _ => destruct b end; [|injection H as <- <- <-; exact HD].
    destruct (problem_max_var fuel (top_level_terms w)) as [mv|]; [|discriminate].
    match type of H with match ?o with Some _ => _ | None => None end = _ => destruct o as [sa|] eqn:Es; [|discriminate] end.
    destruct g as [g|]; [|discriminate]. injection H as <- <- <-. apply Forall_app. split; [exact HD|]. constructor; [|constructor; [|constructor]].
    - eapply split_closed; [exact scoped_protocol|exact Hans|exact Hk|exact Es].
    - apply Hg. reflexivity.
  Qed.
  Lemma generate_closed_assumption a n split o : In a (wp_assumptions w) ->
    generate_assumption sig table r vampire_flag defined preprocess anc scmp mfuel fuel w a n split = Some o -> written o.
  Proof.
    intros Hin H. destruct a as [mac verify hmac|sign verify pk|enc dec fail| | |direct recursive]; cbn [generate_assumption] in H.
    - unfold generate_uf in H. destruct (new_kind _ _ _ n) as [kmain n1]. destruct (new_kind _ _ _ n1) as [kkey n2].
      match type of H with match ?o with Some _ => _ | None => None end = _ => destruct o as [ins|] eqn:Ei; [|discriminate] end.
      match type of H with match ?o with Some _ => _ | None => None end = _ => destruct o as [[[ds axs] split']|] eqn:Ed; [|discriminate] end. injection H as <-. cbn [o_axioms].
      constructor; [apply uf_base_closed|]. apply Forall_app. split.
      + eapply instances_closed; [exact Ei|]. intros mv cs c x Hcs Hc Hx. destruct (uf_plain _ _ _ _ _ _ Hcs Hc) as (P1 & P2 & P3).
        unfold uf_instance in Hx. eapply instance_closed; [exact scoped_protocol|exact Hans|apply uf_main_sub| | |exact P1|exact P2|exact P3|exact Hx].
        * intros l a b Ha Hb. apply within_fun. intros y [<-|[<-|[]]]; assumption.
        * intros l a b d Ha Hb Hd. unfold uf_premise. destruct hmac; bind; assumption.
      + refine (definitions_closed _ _ _ _ _ _ _ _ _ _ Ed); [apply uf_key_sub|apply uf_main_sub|]. intros a Ha. eapply general_closed; [| |exact Ha]; intros; cbv beta; bind; assumption.
    - unfold generate_euf in H. destruct (new_kind _ _ _ n) as [kmain n1]. destruct (new_kind _ _ _ n1) as [kkey n2].
      match type of H with match ?o with Some _ => _ | None => None end = _ => destruct o as [ins|] eqn:Ei; [|discriminate] end.
      match type of H with match ?o with Some _ => _ | None => None end = _ => destruct o as [[[ds axs] split']|] eqn:Ed; [|discriminate] end. injection H as <-. cbn [o_axioms].
      apply Forall_app. split.
      + eapply instances_closed; [exact Ei|]. intros mv cs c x Hcs Hc Hx. destruct (euf_plain _ _ _ _ _ Hcs Hc) as (P1 & P2 & P3).
        unfold euf_instance in Hx. eapply instance_closed; [exact scoped_protocol|exact Hans|apply children_sub| | |exact P1|exact P2|exact P3|exact Hx].
        * intros l a b Ha Hb. apply within_fun. intros y [<-|[<-|[]]]; assumption.
        * intros l a b d Ha Hb Hd. unfold euf_premise. bind; assumption.
      + refine (definitions_closed _ _ _ _ _ _ _ _ _ _ Ed); [apply euf_key_sub|apply children_sub|]. intros a Ha. eapply general_closed; [| |exact Ha]; intros; cbv beta; bind; assumption.
    - unfold generate_ctxt in H. destruct (new_kind _ _ _ n) as [kmain n1]. destruct (new_kind _ _ _ n1) as [kkey n2]. destruct (new_kind _ _ _ n2) as [krand n3]. cbv zeta in H.
      destruct (enc_candidates enc (top_level_terms w)) as [es sc] eqn:Ee. destruct (enc_plain_covered _ _ _ _ _ Hin Ee) as [Hp Hc].
      match type of H with match ?o with Some _ => _ | None => None end = _ => destruct o as [ins|] eqn:Ei; [|discriminate] end.
      match type of H with match ?o with Some _ => _ | None => None end = _ => destruct o as [defs|] eqn:Ed; [|discriminate] end.
      match type of H with match ?o with Some _ => _ | None => None end = _ => destruct o as [g|] eqn:Eg; [|discriminate] end. injection H as <-. cbn [o_axioms].
      apply Forall_app. split; [|apply Forall_app; split; [|apply Forall_app; split; [|constructor; [apply ctxt_base_closed|constructor]]]].
      + eapply instances_closed; [exact Ei|]. intros mv cs c x Hcs Hin' Hx. destruct (dec_plain _ _ _ _ Hcs Hin') as (P1 & P2).
        eapply ctxt_instance_closed; [exact scoped_protocol|exact Hans|exact Hp|exact Hc|exact P1|exact P2|exact Hx].
      + destruct defined; cbn [when] in Ed; [|injection Ed as <-; constructor].
        eapply ctxt_define_closed; [exact scoped_protocol|exact Hans| | | |exact Ed]; [apply children_sub|apply ctxt_key_sub|apply ctxt_rand_sub].
      + match type of Eg with when ?b _ = _ => destruct b end; cbn [when] in Eg; [|injection Eg as <-; constructor]. destruct (ctxt_general _ _ _ _ _ _ _ _ _ _) as [ga|] eqn:Ega; [|discriminate].
        injection Eg as <-. constructor; [eapply ctxt_general_closed; exact Ega|constructor].
    - unfold generate_nonce in H. destruct (new_kind _ _ _ n) as [k n1]. destruct (nonce_axioms _ _ _ _ _ _ _ _ _ _ _ _) as [axs|] eqn:E; [|discriminate]. injection H as <-. cbn [o_axioms].
      eapply nonce_closed; [exact scoped_protocol|exact Hans|exact E].
    - unfold generate_cells in H. destruct (protocol_max_var _ _ _) as [mv|]; [|discriminate]. destruct (mapM _ _) as [l|] eqn:E; [|discriminate]. injection H as <-. cbn [o_axioms].
      apply Forall_forall. intros x Hx. apply in_concat in Hx as (y & Hy & Hx). destruct (mapM_from _ _ _ _ E Hy) as (c & Hc & Ec).
      pose proof (cells_closed _ _ _ (fun a Ha => sw_asgs _ _ HS c a Hc Ha) Ec) as F. rewrite Forall_forall in F. auto.
    - unfold generate_unfolding in H. destruct (gp_steps (wp_gen w)) as [|init others] eqn:Es; [discriminate|]. injection H as <-. cbn [o_axioms]. change (Forall sentence (map msg_cond_axiom (init :: others) ++ exec_axioms direct recursive init others)). apply Forall_app. split.
      + apply Forall_forall. intros x Hx. apply in_map_iff in Hx as (s & <- & Hs). apply msg_cond_closed. apply (sw_steps _ _ HS). rewrite Es. exact Hs.
      + apply exec_closed. eapply sw_init; eassumption.
  Qed.
  Lemma generate_closed_assumptions l : (forall a, In a l -> In a (wp_assumptions w)) -> forall n split o,
    generate_assumptions sig table r vampire_flag defined preprocess anc scmp mfuel fuel w l n split = Some o -> written o.
  Proof.
    induction l as [|a l IH]; intros Hl n split o H; cbn [generate_assumptions] in H; [injection H as <-; constructor|].
    destruct (generate_assumption _ _ _ _ _ _ _ _ _ _ _ a n split) as [o1|] eqn:E1; [|discriminate]. destruct (generate_assumptions _ _ _ _ _ _ _ _ _ _ _ l _ _) as [o2|] eqn:E2; [|discriminate].
    injection H as <-. cbn [o_axioms]. apply Forall_app. split; [eapply generate_closed_assumption; [apply Hl; left; reflexivity|exact E1]|]. eapply IH; [intros b Hb; apply Hl; right; exact Hb|exact E2].
  Qed.
  Lemma base_closed l : Forall sentence l -> Forall closed_axiom (map ABase l).
  Proof. intros H. apply Forall_forall. intros x Hx. apply in_map_iff in Hx as (f & <- & Hf). rewrite Forall_forall in H. exact (H f Hf). Qed.
  Lemma whole_closed no_bitstring legacy skolem n split le ds axs :
    whole_file sig table r vampire_flag defined preprocess anc scmp mfuel fuel w no_bitstring legacy skolem n split le = Some (ds, axs) -> Forall closed_axiom axs.
  Proof.
    intros H. unfold whole_file in H. destruct (problem_decls sig r (wp_gen w)); [|discriminate]. destruct (evaluate_decls _ _ _ _ _ _); [|discriminate].
    destruct (order_axioms (wp_gen w)) as [a1|] eqn:E1; [|discriminate]. destruct (Evaluate_Model.generate _ _ _ _ _ _ _) as [a2|] eqn:E2; [|discriminate].
    destruct (generate_assumptions _ _ _ _ _ _ _ _ _ _ _ _ _ _) as [o|] eqn:Eo; [|discriminate]. destruct (mapM _ _) as [a3|] eqn:E3; [|discriminate]. destruct (rewrites_found _ _ _ _ _); [|discriminate].
    injection H as <- <-. apply Forall_app. split; [|apply Forall_app; split; [|apply Forall_app; split]].
    - unfold order_axioms in E1. destruct (gp_steps (wp_gen w)) as [|init others] eqn:Es; [discriminate|]. injection E1 as <-. apply (base_closed (order_theory (into_formula init) ++ [gt_axiom] ++ step_axioms (init :: others) ++ map Parser_Model.order_axiom (gp_orders (wp_gen w)))).
      apply Forall_app. split; [|apply Forall_app; split; [|apply Forall_app; split]].
      + apply order_theory_closed. apply (proj1 (bound_nil _)). apply bound_step. rewrite (sw_init _ _ HS _ _ Es). intros v [].
      + constructor; [apply gt_closed|constructor].
      + unfold step_axioms. apply Forall_app. split; [|constructor; [apply exhaustive_closed|constructor]]. apply Forall_forall. intros x Hx. apply in_map_iff in Hx as (s & <- & _). apply distinct_closed.
      + apply Forall_forall. intros x Hx. apply in_map_iff in Hx as (s & <- & Hs). apply ordering_closed. apply (sw_orders _ _ HS). exact Hs.
    - eapply generate_closed; [|exact E2]. intros k q Hi. apply in_map_iff in Hi as (f & Ef & _). destruct f; cbn in Ef; repeat match type of Ef with match ?o with _ => _ end = _ => destruct o eqn:?; try discriminate end; try discriminate.
      injection Ef as <- <-. eapply (sw_quants _ _ HS). eassumption.
    - apply base_closed. eapply generate_closed_assumptions; [|exact Eo]. auto.
    - apply base_closed. apply Forall_forall. intros x Hx. destruct (mapM_from _ _ _ _ E3 Hx) as (g & Hg & Eg). eapply propagate_closed; [exact (sw_quants _ _ HS)| |exact Eg|apply (sw_asserts _ _ HS); exact Hg].
      apply (sw_terms _ _ HS). apply in_app_or in Hg as [Hg|[<-|[]]]; [apply pt_assert; exact Hg|apply pt_query].
  Qed.
End Whole.
