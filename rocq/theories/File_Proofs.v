(** Proofs about the declarations of a file. *)
From Coq Require Import List Arith Bool Lia Permutation.
From Verif Require Import Syntax_Model Syntax_Proofs Subst_Model Subst_Proofs Sort_Model Order_Model Evaluate_Model Propagate_Model Problem_Model
  Problem_Spec Problem_Proofs File_Model File_Spec.
From Verif Require Parser_Model.
Import ListNotations.

(** The symbols are in [P] and the sorts of bound variables in [S]. *)
Definition all_in (P : fsym -> Prop) (S : sort -> Prop) (g : formula) : Prop := (forall f, uses f g -> P f) /\ (forall s, quantifies s g -> S s).
Definition ax_in (P : fsym -> Prop) (S : sort -> Prop) (a : eaxiom) : Prop := (forall f, axiom_uses f a -> P f) /\ (forall s, axiom_quantifies s a -> S s).

Section AllIn.
  Context (P : fsym -> Prop) (S : sort -> Prop).
  Definition sorts_in (vs : list var) : Prop := Forall (fun v => S (vsort v)) vs.
  Lemma all_var v : all_in P S (FVar v).
  Proof. split; intros f H; inversion H. Qed.
  Lemma all_fun g args : all_in P S (FFun g args) <-> P g /\ Forall (all_in P S) args.
  Proof.
    split.
    - intros [H H']. split; [apply H; constructor|]. apply Forall_forall. intros a Ha. split; intros f Hf; [apply H|apply H']; econstructor; eassumption.
    - intros [Hg Ha]. rewrite Forall_forall in Ha. split; intros f Hf; inversion Hf; subst; [assumption|eapply Ha; eassumption|eapply Ha; eassumption].
  Qed.
  Lemma all_q q vs b : all_in P S (FQ q vs b) <-> sorts_in vs /\ all_in P S b.
  Proof.
    split.
    - intros [H H']. split; [apply Forall_forall; intros v Hv; apply H'; econstructor; [exact Hv|reflexivity]|].
      split; intros f Hf; [apply H|apply H']; constructor; assumption.
    - intros [Hv [H H']]. split; intros f Hf; inversion Hf; subst; [auto| |auto]. unfold sorts_in in Hv. rewrite Forall_forall in Hv. auto.
  Qed.
  Lemma all_forall vs b : all_in P S (mk_forall vs b) <-> sorts_in vs /\ all_in P S b.
  Proof. destruct vs; [cbn; split; [intros H; split; [constructor|exact H]|intros H; apply H]|apply all_q]. Qed.
  Lemma all_exists vs b : all_in P S (mk_exists vs b) <-> sorts_in vs /\ all_in P S b.
  Proof. destruct vs; [cbn; split; [intros H; split; [constructor|exact H]|intros H; apply H]|apply all_q]. Qed.
  Lemma all_vars vs : Forall (all_in P S) (map FVar vs).
  Proof. apply Forall_forall. intros a Ha. apply in_map_iff in Ha. destruct Ha as (v & <- & _). apply all_var. Qed.
  Lemma ax_base g : ax_in P S (ABase g) <-> all_in P S g.
  Proof. reflexivity. Qed.
  Lemma ax_rewrite vs l t : ax_in P S (ARewrite vs l t) <-> sorts_in vs /\ all_in P S l /\ all_in P S t.
  Proof.
    split.
    - intros [H H']. cbn in H, H'. split; [apply Forall_forall; intros v Hv; apply H'; eauto|]. split; split; intros f Hf; [apply H|apply H'|apply H|apply H']; auto.
    - intros [Hv [[H1 H1'] [H2 H2']]]. unfold sorts_in in Hv. rewrite Forall_forall in Hv.
      split; intros f Hf; cbn in Hf; [destruct Hf; auto|]. destruct Hf as [(v & Hi & <-)|[Hf|Hf]]; auto.
  Qed.
  Lemma sorts_in_add k vs : sorts_in vs -> sorts_in (map (fun v => var_add v k) vs).
  Proof. intros H. apply Forall_forall. intros v Hv. apply in_map_iff in Hv. destruct Hv as (w & <- & Hw). unfold sorts_in in H. rewrite Forall_forall in H. cbn. auto. Qed.

  Lemma sapply_all s f : forall g, sapply s f = Some g -> all_in P S f -> (forall v t, s v = Some t -> all_in P S t) -> all_in P S g.
  Proof.
    induction f as [v|h args IH|q vs b IH] using formula_ind'; intros g H Hf Hs.
    - eapply Hs. exact H.
    - rewrite sapply_fun in H. destruct (mapM (sapply s) args) as [l|] eqn:E; [|discriminate]. injection H as <-.
      apply all_fun in Hf. destruct Hf as [Hh Ha]. apply all_fun. split; [assumption|].
      clear Hh. revert l E. induction args as [|a args IHa]; cbn; intros l E; [injection E as <-; constructor|].
      destruct (sapply s a) as [b|] eqn:Ea; [|discriminate]. destruct (mapM (sapply s) args) as [bs|] eqn:Eb; [|discriminate]. injection E as <-.
      inversion IH; subst. inversion Ha; subst. constructor; [eauto|]. apply IHa; auto.
    - cbn in H. destruct (sapply s b) as [b'|] eqn:E; [|discriminate]. injection H as <-. apply all_q. apply all_q in Hf. destruct Hf. split; [assumption|eauto].
  Qed.
  Lemma frozen_all ids args v t : frozen ids args v = Some t -> Forall (all_in P S) args -> all_in P S t.
  Proof.
    unfold frozen. revert args. induction ids as [|i ids IH]; intros [|a args] H Ha; cbn in H; try discriminate; [injection H as <-; apply all_var|].
    inversion Ha; subst. destruct (i =? vid v); [injection H as <-; assumption|]. eauto.
  Qed.
  Lemma frozen_ov_all l v t : frozen_ov l v = Some t -> Forall (fun x => all_in P S (snd x)) l -> all_in P S t.
  Proof.
    unfold frozen_ov. intros H Hl. destruct (find _ l) as [x|] eqn:E; [|injection H as <-; apply all_var].
    apply find_some in E. destruct E as [E _]. rewrite Forall_forall in Hl. unfold one_var in H.
    destruct (vid v =? fst x); injection H as <-; [apply Hl; assumption|apply all_var].
  Qed.
End AllIn.

(** ** Which symbols are declared *)
Lemma declared_in ds f : declared ds f <-> In (GF f) (flat_map declares ds).
Proof. unfold declared. rewrite in_flat_map. reflexivity. Qed.

Section Declared.
  Context (sig : fsym -> option (list sort * sort)) (table : nat -> option quantifier) (r : realm) (no_bitstring legacy : bool).

  Lemma problem_decls_funs p ds : problem_decls sig r p = Some ds ->
    Permutation (flat_map declares ds) (filter (fun g => negb (lift is_builtin g)) (map GF (gp_funs p))).
  Proof.
    intros H. unfold problem_decls, Problem_Model.declare in H.
    match type of H with context [partition_functions ?a ?b ?c ?d ?e ?f ?g ?h] => destruct (partition_functions a b c d e f g h) as [[m free]|] eqn:E end; [|discriminate].
    injection H as <-. apply partition_spec in E; [|constructor]. destruct E as (E & _). cbn in E.
    rewrite !flat_map_app.
    assert (A1 : forall l, flat_map declares (map (@DSort gsym) l) = []) by (induction l; cbn; auto).
    assert (A2 : forall l : list gsym, flat_map declares (map DFun l) = l) by (induction l; cbn; congruence).
    rewrite A1, A2. cbn. rewrite app_nil_r. exact E.
  Qed.

  Lemma fun_declared p ds f : problem_decls sig r p = Some ds -> In f (gp_funs p) -> logical f \/ In (GF f) (flat_map declares ds).
  Proof.
    intros H Hf. apply problem_decls_funs in H. destruct (is_builtin f) eqn:E.
    - left. destruct f; try discriminate; constructor.
    - right. eapply Permutation_in; [symmetry; exact H|]. apply filter_In. split; [apply in_map; assumption|]. cbn. rewrite E. reflexivity.
  Qed.

  Definition dfuns (ds : list (declaration gsym)) : list gsym := flat_map declares ds.
  Lemma dfuns_map {A} (f : A -> gsym) l : dfuns (map (fun x => DFun (f x)) l) = map f l.
  Proof. unfold dfuns. induction l; cbn; congruence. Qed.

  Lemma skolem_dfuns fs : forall n, exists m, dfuns (skolem_decls n fs) = map (fun i => GF (Fskolem i)) (seq n m).
  Proof.
    induction fs as [|f fs IH]; intros n; cbn; [exists 0; reflexivity|].
    destruct f as [| | | |k q|]; try apply IH. destruct (qt_inner q); try apply IH.
    destruct (IH (n + length (qt_bound q))) as [m Hm]. exists (length (qt_bound q) + m). rewrite seq_app, map_app, <- Hm.
    unfold dfuns. rewrite flat_map_app. f_equal. apply dfuns_map.
  Qed.

  Lemma relevant_in fs us : relevant fs = Some us -> forall i args, In (i, args) us <-> exists out, In (PUser i args out) fs.
  Proof.
    revert us. induction fs as [|f fs IH]; intros us H i args; cbn in H.
    - injection H as <-. split; [intros []|intros (? & [])].
    - assert (Hno : forall fs', relevant fs = Some us -> f = fs' -> (forall out, f <> PUser i args out) -> In (i, args) us <-> (exists out, In (PUser i args out) (f :: fs))).
      { intros fs' Hr _ Hn. rewrite (IH _ Hr). split; intros (out & Ho); exists out; [right; assumption|destruct Ho as [Ho|Ho]; [exfalso; eapply Hn; exact Ho|assumption]]. }
      destruct f as [j a o| | | | |]; try (eapply Hno; [assumption|reflexivity|discriminate]).
      destruct (is_evaluatable o) eqn:Eo; [|discriminate]. destruct (relevant fs) as [l|]; [|discriminate]. injection H as <-. cbn. rewrite (IH l eq_refl).
      split.
      + intros [[= <- <-]|(out & Ho)]; [exists o; auto|exists out; auto].
      + intros (out & [[= <- <- _]|Ho]); [auto|eauto].
  Qed.

  (** The skolems of the axioms of the evaluation. *)
  Lemma quant_skolems osort evs n k q l n' : quant_axioms osort evs n k q = Some (l, n') ->
    n' = n + match qt_inner q with IFind _ _ _ => length (qt_bound q) | _ => 0 end.
  Proof.
    unfold quant_axioms. destruct (ev osort evs _); [|discriminate]. destruct (qt_inner q).
    - destruct (ev osort evs content); [|discriminate]. intros [= _ <-]. lia.
    - destruct (ev osort evs content); [|discriminate]. intros [= _ <-]. lia.
    - repeat match goal with |- context [match ?x with Some _ => _ | None => _ end] => destruct x; [|discriminate] end. intros [= _ <-]. reflexivity.
  Qed.

  Lemma ev_all osort evs (P : fsym -> Prop) (S : sort -> Prop) f g : ev osort evs f = Some g -> all_in P S f -> (forall s, In s evs -> P (Feval s)) -> all_in P S g.
  Proof.
    unfold ev. destruct (term_sort osort f) as [s|]; [|discriminate]. intros [= <-] Hf He. destruct (existsb (sort_eqb s) evs) eqn:E; [|assumption].
    apply all_fun. split; [|auto]. apply existsb_exists in E. destruct E as (s' & Hs & E). unfold sort_eqb in E. destruct (sort_eq_dec s s'); [subst; auto|discriminate].
  Qed.
  Lemma ev_var_all evs (P : fsym -> Prop) (S : sort -> Prop) v : (forall s, In s evs -> P (Feval s)) -> all_in P S (ev_var evs v).
  Proof.
    intros He. unfold ev_var. destruct (existsb _ evs) eqn:E; [|apply all_var]. apply all_fun. split; [|constructor; [apply all_var|constructor]].
    apply existsb_exists in E. destruct E as (s' & Hs & E). unfold sort_eqb in E. destruct (sort_eq_dec (vsort v) s') as [->|]; [auto|discriminate].
  Qed.
  Lemma ev_vars_all evs (P : fsym -> Prop) (S : sort -> Prop) vs : (forall s, In s evs -> P (Feval s)) -> Forall (all_in P S) (map (ev_var evs) vs).
  Proof. intros He. apply Forall_forall. intros a Ha. apply in_map_iff in Ha. destruct Ha as (v & <- & _). apply ev_var_all. assumption. Qed.
End Declared.

Ltac use :=
  repeat match goal with
  | |- all_in _ _ (FVar _) => apply all_var
  | |- all_in _ _ (mk_forall _ _) => apply all_forall; split
  | |- all_in _ _ (mk_exists _ _) => apply all_exists; split
  | |- all_in _ _ (FQ _ _ _) => apply all_q; split
  | |- sorts_in _ _ => first [assumption | repeat (constructor; [assumption|]); constructor]
  | |- all_in _ _ (fimp _ _) => apply all_fun; split
  | |- all_in _ _ (fand _ _) => apply all_fun; split
  | |- all_in _ _ (for_ _ _) => apply all_fun; split
  | |- all_in _ _ (fnot _) => apply all_fun; split
  | |- all_in _ _ (meq _ _) => apply all_fun; split
  | |- all_in _ _ (ands _) => apply all_fun; split
  | |- all_in _ _ (ors _) => apply all_fun; split
  | |- all_in _ _ (FFun _ _) => apply all_fun; split
  | |- Forall _ [] => constructor
  | |- Forall _ (_ :: _) => constructor
  | |- Forall _ (map FVar _) => apply all_vars
  | |- all_in _ _ (ev_var _ _) => apply ev_var_all
  | |- Forall _ (map (ev_var _) _) => apply ev_vars_all
  end.

Lemma sorts_to_variables_in (S : sort -> Prop) ss : forall n, Forall S ss -> sorts_in S (sorts_to_variables n ss).
Proof. induction ss as [|x ss IH]; intros n H; cbn; [constructor|]. inversion H; subst. constructor; [assumption|]. apply IH. assumption. Qed.

Section Axioms.
  Context (osort : fsym -> option sort) (evs : list sort) (P : fsym -> Prop) (S : sort -> Prop).
  Hypothesis (PL : forall f, logical f -> P f) (PE : forall s, In s evs -> P (Feval s)) (SC : S SCondition) (SM : S SMessage) (SE : forall s, In s evs -> S s).

  Ltac done := use; auto; try (apply PL; constructor).
  Ltac evs := match goal with H : ev _ _ _ = Some _ |- _ => apply (ev_all _ _ P S) in H; [|done|assumption] end.

  Lemma function_axiom_all i args a : function_axiom osort evs i args = Some a -> Forall S args -> P (Fuser i) -> P (Fuser_eval i) -> ax_in P S a.
  Proof.
    unfold function_axiom. intros H Hs Hi He. destruct (ev osort evs _) as [e|] eqn:E; [|discriminate]. injection H as <-. evs. apply ax_rewrite.
    split; [apply sorts_to_variables_in; assumption|]. split; [assumption|]. done.
  Qed.
  Lemma legacy_axiom_all i args a : legacy_axiom osort evs i args = Some a -> Forall S args -> P (Fuser i) -> ax_in P S a.
  Proof.
    unfold legacy_axiom. intros H Hs Hi. destruct (ev osort evs _) as [e1|] eqn:E1; [|discriminate]. destruct (ev osort evs (FFun (Fuser i) (map FVar (map _ _)))) as [e2|] eqn:E2; [|discriminate].
    injection H as <-. apply (ev_all _ _ P S) in E1; [|done|assumption]. apply (ev_all _ _ P S) in E2; [|done|assumption]. apply ax_base.
    apply all_forall. split.
    - apply Forall_app. split; [|apply sorts_in_add]; apply sorts_to_variables_in; assumption.
    - done. apply Forall_forall. intros x Hx. apply in_map_iff in Hx. destruct Hx as (v & <- & _). done.
  Qed.
  Lemma ite_axiom_all a : ite_axiom osort evs = Some a -> P (Fta TIte) -> ax_in P S a.
  Proof. unfold ite_axiom. intros H Hi. destruct (ev osort evs _) as [e|] eqn:E; [|discriminate]. injection H as <-. evs. apply ax_base. done. Qed.
  Lemma eq_axiom_all a : eq_axiom osort evs = Some a -> P (Fta TEq) -> ax_in P S a.
  Proof. unfold eq_axiom. intros H Hi. destruct (ev osort evs _) as [e|] eqn:E; [|discriminate]. injection H as <-. evs. apply ax_base. done. Qed.
  Lemma conn_axiom_all c a : conn_axiom osort evs c = Some a -> P (Fta (sym_conn c)) -> ax_in P S a.
  Proof.
    unfold conn_axiom. intros H Hi. destruct c; cbn [sym_conn] in Hi;
      (destruct (ev osort evs _) as [e|] eqn:E; [|discriminate]); injection H as <-; evs; apply ax_base; done.
  Qed.
  Lemma identity_axiom_all s : In s evs -> ax_in P S (identity_axiom s).
  Proof. intros Hs. pose proof (SE s Hs). unfold identity_axiom. apply ax_base. done. Qed.

  Lemma quant_axioms_all n k q l n' : quant_axioms osort evs n k q = Some (l, n') -> P (Fquant k) -> sorts_in S (qt_bound q ++ qt_free q) ->
    (forall g, In g (quantifier_formulas q) -> all_in P S g) ->
    (match qt_inner q with IFind _ _ _ => forall i, n <= i < n + length (qt_bound q) -> P (Fskolem i) | _ => True end) -> Forall (ax_in P S) l.
  Proof.
    unfold quant_axioms, quantifier_formulas. intros H Hk HV Hq Hs. apply Forall_app in HV. destruct HV as [HV1 HV2].
    change (sorts_in S (qt_bound q)) in HV1. change (sorts_in S (qt_free q)) in HV2.
    destruct (ev osort evs _) as [e|] eqn:E; [|discriminate]. evs.
    destruct (qt_inner q) as [c|c|c lt rt].
    - destruct (ev osort evs c) as [c'|] eqn:Ec; [|discriminate]. injection H as <- <-. apply (ev_all _ _ P S) in Ec; [|apply Hq; cbn; auto|assumption].
      constructor; [|constructor]. apply ax_base. done.
    - destruct (ev osort evs c) as [c'|] eqn:Ec; [|discriminate]. injection H as <- <-. apply (ev_all _ _ P S) in Ec; [|apply Hq; cbn; auto|assumption].
      constructor; [|constructor]. apply ax_base. done.
    - match type of H with context [sapply ?s c] => set (sb := s) in H end.
      assert (HS : forall v t, sb v = Some t -> all_in P S t).
      { intros v t Hv. eapply frozen_ov_all; [exact Hv|]. apply Forall_forall. intros [i t'] Hi. apply in_combine_r in Hi. apply in_map_iff in Hi.
        destruct Hi as (f & <- & Hf). apply in_map_iff in Hf. destruct Hf as (j & <- & Hj). apply in_seq in Hj. cbn [snd]. done. }
      assert (HC : forall g h, In g [c; lt; rt] -> sapply sb g = Some h -> all_in P S h) by (intros g h Hg Hh; eapply sapply_all; [exact Hh|apply Hq; assumption|exact HS]).
      destruct (sapply sb c) as [cs|] eqn:E1; [|discriminate]. destruct (sapply sb lt) as [ls|] eqn:E2; [|discriminate]. destruct (sapply sb rt) as [rs|] eqn:E3; [|discriminate].
      destruct (ev osort evs c) as [c'|] eqn:F0; [|discriminate].
      destruct (ev _ evs cs) as [cs'|] eqn:F1; [|discriminate]. destruct (ev _ evs ls) as [ls'|] eqn:F2; [|discriminate]. destruct (ev _ evs rs) as [rs'|] eqn:F3; [|discriminate].
      injection H as <- <-.
      apply (ev_all _ _ P S) in F0; [|apply Hq; cbn; auto|assumption].
      apply (ev_all _ _ P S) in F1; [|eapply HC; [|exact E1]; cbn; auto|assumption].
      apply (ev_all _ _ P S) in F2; [|eapply HC; [|exact E2]; cbn; auto|assumption].
      apply (ev_all _ _ P S) in F3; [|eapply HC; [|exact E3]; cbn; auto|assumption].
      constructor; [|constructor; [|constructor]]; apply ax_base; done.
  Qed.

  Context (table : nat -> option quantifier).
  (** The symbols of a function of the problem. *)
  Definition fine (f : pfun) : Prop :=
    match f with
    | PUser i args _ => P (Fuser i) /\ Forall S args
    | PIte => P (Fta TIte)
    | PEq => P (Fta TEq)
    | PConn c => P (Fta (sym_conn c))
    | PQuant k q => P (Fquant k) /\ sorts_in S (qt_bound q ++ qt_free q) /\ forall g, In g (quantifier_formulas q) -> all_in P S g
    | POther => True
    end.
  Lemma loop_all fs : forall n l, Evaluate_Model.loop osort evs n fs = Some l -> Forall fine fs ->
    (forall g, In g (dfuns (skolem_decls n fs)) -> match g with GF f => P f | GRewrite _ => True end) -> Forall (ax_in P S) l.
  Proof.
    induction fs as [|f fs IH]; intros n l H HF HS; cbn [Evaluate_Model.loop] in H; [injection H as <-; constructor|].
    inversion HF as [|? ? Hf HF']; subst.
    assert (Hone : forall a : option eaxiom, match option_map (fun x => ([x], n)) a with Some (l0, n') => match Evaluate_Model.loop osort evs n' fs with Some l' => Some (l0 ++ l') | None => None end | None => None end = Some l ->
      (forall x, a = Some x -> ax_in P S x) -> (forall g, In g (dfuns (skolem_decls n fs)) -> match g with GF f => P f | GRewrite _ => True end) -> Forall (ax_in P S) l).
    { intros [x|] Ha Hx HS'; cbn in Ha; [|discriminate]. destruct (Evaluate_Model.loop osort evs n fs) as [l'|] eqn:E; [|discriminate]. injection Ha as <-.
      constructor; [auto|]. eapply IH; eassumption. }
    destruct f as [i args out| | |c|k q|]; cbn [fine] in Hf.
    - cbn [app] in H. destruct (Evaluate_Model.loop osort evs n fs) as [l'|] eqn:E; [|discriminate]. injection H as <-. eapply IH; eassumption.
    - eapply Hone; [exact H|intros x Hx; apply ite_axiom_all; assumption|assumption].
    - eapply Hone; [exact H|intros x Hx; apply eq_axiom_all; assumption|assumption].
    - eapply Hone; [exact H|intros x Hx; eapply conn_axiom_all; eassumption|assumption].
    - destruct (quant_axioms osort evs n k q) as [[l0 n']|] eqn:Eq; [|discriminate]. destruct (Evaluate_Model.loop osort evs n' fs) as [l'|] eqn:E; [|discriminate]. injection H as <-.
      pose proof (quant_skolems _ _ _ _ _ _ _ Eq) as Hn. destruct Hf as [Hk [Hv Hq]]. apply Forall_app. split.
      + eapply quant_axioms_all; [exact Eq|assumption|assumption|assumption|]. destruct (qt_inner q) eqn:Ei; try exact I. intros i Hi.
        specialize (HS (GF (Fskolem i))). cbn [skolem_decls] in HS. rewrite Ei in HS. apply HS. unfold dfuns. rewrite flat_map_app. apply in_or_app. left.
        apply in_flat_map. exists (DFun (GF (Fskolem i))). split; [|left; reflexivity]. apply in_map_iff. exists i. split; [reflexivity|]. apply in_seq. exact Hi.
      + eapply IH; [exact E|assumption|]. intros g Hg. apply HS. cbn [skolem_decls]. destruct (qt_inner q); subst n'; rewrite ?Nat.add_0_r in Hg; try assumption.
        unfold dfuns. rewrite flat_map_app. apply in_or_app. right. exact Hg.
    - cbn [app] in H. destruct (Evaluate_Model.loop osort evs n fs) as [l'|] eqn:E; [|discriminate]. injection H as <-. eapply IH; eassumption.
  Qed.

  Lemma mapM_in {A B} (f : A -> option B) : forall l bs, mapM f l = Some bs -> forall b, In b bs -> exists a, In a l /\ f a = Some b.
  Proof.
    induction l as [|a l IH]; intros bs H b Hb; cbn in H; [injection H as <-; destruct Hb|].
    destruct (f a) as [x|] eqn:Ef; [|discriminate]. destruct (mapM f l) as [xs|]; [|discriminate]. injection H as <-.
    destruct Hb as [<-|Hb]; [exists a; cbn; auto|]. destruct (IH _ eq_refl _ Hb) as (a' & Ha & Hf). exists a'. cbn. auto.
  Qed.

  Lemma generate_all r nb legacy n fs l : Evaluate_Model.generate osort evs r nb legacy n fs = Some l -> Forall fine fs ->
    (r = RSymbolic -> nb = false -> forall i args out, In (PUser i args out) fs -> P (Fuser_eval i)) ->
    (forall g, In g (dfuns (skolem_decls n fs)) -> match g with GF f => P f | GRewrite _ => True end) -> Forall (ax_in P S) l.
  Proof.
    unfold Evaluate_Model.generate. intros H HF HU HS. destruct (relevant fs) as [us|] eqn:Er; [|discriminate].
    match type of H with match ?x with _ => _ end = _ => destruct x as [a|] eqn:Ea end; [|discriminate].
    destruct (Evaluate_Model.loop osort evs n fs) as [b|] eqn:El; [|discriminate]. injection H as <-.
    apply Forall_app. split; [|eapply loop_all; eassumption].
    pose proof (relevant_in _ _ Er) as HR. rewrite Forall_forall in HF.
    destruct r.
    - destruct (if nb then Some [] else mapM (fun u => function_axiom osort evs (fst u) (snd u)) us) as [a1|] eqn:E1; [|discriminate].
      destruct (if legacy then mapM (fun u => legacy_axiom osort evs (fst u) (snd u)) us else Some []) as [a2|] eqn:E2; [|discriminate]. injection Ea as <-.
      apply Forall_app. split; apply Forall_forall; intros x Hx.
      + destruct nb; [injection E1 as <-; destruct Hx|]. destruct (mapM_in _ _ _ E1 _ Hx) as ([i args] & Hi & Hf). cbn in Hf. apply HR in Hi. destruct Hi as (out & Hi).
        destruct (HF _ Hi) as [Hp Hs]. eapply function_axiom_all; [exact Hf|exact Hs|exact Hp|eapply HU; eauto].
      + destruct legacy; [|injection E2 as <-; destruct Hx]. destruct (mapM_in _ _ _ E2 _ Hx) as ([i args] & Hi & Hf). cbn in Hf. apply HR in Hi. destruct Hi as (out & Hi).
        destruct (HF _ Hi) as [Hp Hs]. eapply legacy_axiom_all; [exact Hf|exact Hs|exact Hp].
    - injection Ea as <-. apply Forall_forall. intros x Hx. apply in_map_iff in Hx. destruct Hx as (s & <- & Hs). apply identity_axiom_all. assumption.
  Qed.

  (** ** Evaluations pushed inwards *)
  Lemma after_eval_all n : forall f g, after_eval osort evs table n f = Some g -> all_in P S f ->
    (forall i, P (Fuser i) -> P (Fuser_eval i)) ->
    (forall k q, P (Fquant k) -> table k = Some q -> sorts_in S (qt_free q) /\ forall h, In h (quantifier_formulas q) -> all_in P S h) -> all_in P S g.
  Proof.
    induction n as [|n IH]; intros f g H Hf HU HQ; [discriminate|]. cbn [after_eval] in H. destruct f as [v|h args|q vs b].
    - destruct (maybe_evaluated_sort (vsort v)); [injection H as <-; apply all_var|]. eapply ev_all; eassumption.
    - pose proof Hf as Hf0. apply all_fun in Hf. destruct Hf as [Hh Ha]. destruct (maybe_evaluated h) as [h'|] eqn:Eh.
      + destruct (mapM (after_eval osort evs table n) args) as [l|] eqn:El; cbn in H; [|discriminate]. injection H as <-. apply all_fun. split.
        * destruct h; try discriminate; cbn in Eh; [destruct c; try discriminate; injection Eh as <-; apply PL; constructor|injection Eh as <-; auto].
        * apply Forall_forall. intros x Hx. destruct (mapM_in _ _ _ El _ Hx) as (a & Hin & Hax). rewrite Forall_forall in Ha. eapply IH; eauto.
      + destruct (match h with Fquant k => table k | _ => None end) as [q|] eqn:Et; [|eapply ev_all; eassumption].
        destruct h as [| | | | | | | | | | | | | |k| | | | |]; try discriminate.
        destruct (qt_inner q) as [c|c|c x y] eqn:Ei; [| |eapply ev_all; eassumption].
        all: (destruct (frozen_new (map vid (qt_bound q)) args) as [s|] eqn:Es; [|discriminate]);
          (destruct (sapply s c) as [c'|] eqn:Ec; [|discriminate]);
          (destruct (after_eval osort evs table n c') as [d|] eqn:Ed; cbn in H; [|discriminate]); injection H as <-;
          destruct (HQ _ _ Hh Et) as [HV HB]; apply all_q; split; [exact HV|]; eapply IH; [exact Ed| |assumption|assumption];
          unfold frozen_new in Es; (destruct (_ =? _); [|discriminate]); injection Es as <-;
          (eapply sapply_all; [exact Ec|apply HB; [unfold quantifier_formulas; rewrite Ei; cbn; auto]|intros v t Hv; eapply frozen_all; eassumption]).
    - discriminate.
  Qed.
  Lemma before_eval_all n : forall f x, before_eval osort evs table n f = Some x -> all_in P S f ->
    (forall i, P (Fuser i) -> P (Fuser_eval i)) ->
    (forall k q, P (Fquant k) -> table k = Some q -> sorts_in S (qt_free q) /\ forall h, In h (quantifier_formulas q) -> all_in P S h) -> all_in P S (snd x).
  Proof.
    induction f as [v|h args IH|q vs b IH] using formula_ind'; intros x H Hf HU HQ.
    - injection H as <-. apply all_var.
    - cbn [before_eval] in H. pose proof Hf as Hf0. apply all_fun in Hf. destruct Hf as [Hh Ha].
      destruct h as [| | | | | | |s| | | | | | | | | | | |];
        try (match type of H with option_map ?k ?y = _ => destruct y; [|discriminate] end; injection H as <-; exact Hf0).
      destruct args as [|a args]; [discriminate|]. destruct (after_eval osort evs table n a) as [d|] eqn:E; cbn in H; [|discriminate]. injection H as <-.
      inversion Ha; subst. eapply after_eval_all; eassumption.
    - cbn [before_eval] in H. destruct (before_eval osort evs table n b) as [y|] eqn:E; cbn in H; [|discriminate]. injection H as <-.
      apply all_q in Hf. destruct Hf as [Hv Hf]. specialize (IH _ eq_refl Hf HU HQ). destruct (fst y); cbn; apply all_q; auto.
  Qed.
  Lemma propagate_all n f g : propagate_evaluate osort evs table n f = Some g -> all_in P S f ->
    (forall i, P (Fuser i) -> P (Fuser_eval i)) ->
    (forall k q, P (Fquant k) -> table k = Some q -> sorts_in S (qt_free q) /\ forall h, In h (quantifier_formulas q) -> all_in P S h) -> all_in P S g.
  Proof.
    unfold propagate_evaluate. intros H Hf HU HQ. destruct (before_eval osort evs table n f) as [x|] eqn:E; cbn in H; [|discriminate]. injection H as <-.
    eapply before_eval_all; eassumption.
  Qed.
End Axioms.

Section Order.
  Context (P : fsym -> Prop) (S : sort -> Prop).
  Hypothesis (PL : forall f, logical f -> P f) (PB : forall f, In f BUILT_IN_FUNCTIONS -> P f) (SS : S SStep).
  Ltac bi := match goal with |- P ?f => first [apply PL; constructor | apply PB; cbn; tauto | assumption] end.
  Ltac done := unfold happens, leq, lt, gt, pred, st in *; use; auto; try bi.

  Lemma order_theory_all init : all_in P S init -> Forall (all_in P S) (order_theory init ++ [gt_axiom]).
  Proof. intros Hi. unfold order_theory, gt_axiom. repeat (constructor; [done|]). constructor. Qed.

  Lemma step_axioms_all steps : (forall s, In s steps -> P (Fstep (ps_fun s)) /\ sorts_in S (ps_vars s)) -> Forall (all_in P S) (step_axioms steps).
  Proof.
    intros Hs. assert (HF : forall s, In s steps -> P (Fstep (ps_fun s))) by (intros s Hi; apply Hs; exact Hi).
    assert (HV : forall s, In s steps -> sorts_in S (ps_vars s)) by (intros s Hi; apply Hs; exact Hi). clear Hs.
    unfold step_axioms. apply Forall_app. split.
    - apply Forall_forall. intros a Ha. apply in_map_iff in Ha. destruct Ha as (s & <- & Hin). unfold distinct_axiom, step_term, fv.
      pose proof (HV s Hin) as Hv. apply all_forall. split; [exact Hv|]. done.
      apply Forall_forall. intros x Hx. apply in_map_iff in Hx. destruct Hx as (s2 & <- & Hs2). pose proof (HV s2 Hs2) as Hv2.
      destruct (ps_fun s =? ps_fun s2).
      + apply all_forall. split; [apply sorts_in_add; exact Hv|]. done; auto. apply Forall_forall. intros y Hy. apply in_map_iff in Hy. destruct Hy as ([v1 v2] & <- & _). done.
      + apply all_forall. split; [apply sorts_in_add; exact Hv2|]. done; auto.
    - constructor; [|constructor]. unfold exhaustive_axiom, step_term, fv. done. apply Forall_forall. intros x Hx. apply in_map_iff in Hx. destruct Hx as (s & <- & Hin).
      pose proof (HV s Hin). apply all_exists. split; [assumption|]. done.
  Qed.

  Lemma order_axiom_all o : sorts_in S (Parser_Model.or_vars o) -> (forall g, In g (order_formulas o) -> all_in P S g) -> all_in P S (Parser_Model.order_axiom o).
  Proof.
    intros HV H. unfold order_formulas in H. unfold Parser_Model.order_axiom. apply all_q. split; [exact HV|]. destruct (Parser_Model.or_kind o) as [a b|a b].
    - assert (Ha : all_in P S a) by (apply H; cbn; auto). assert (Hb : all_in P S b) by (apply H; cbn; auto).
      assert (Hg : all_in P S (Parser_Model.or_guard o)) by (apply H; cbn; auto). done.
    - assert (Ha : all_in P S a) by (apply H; cbn; auto). assert (Hb : all_in P S b) by (apply H; cbn; auto).
      assert (Hg : all_in P S (Parser_Model.or_guard o)) by (apply H; cbn; auto). done.
  Qed.
End Order.

Lemma classify_user sig table f i args out : classify sig table f = PUser i args out -> f = Fuser i /\ sig (Fuser i) = Some (args, out).
Proof.
  destruct f as [| | | | | |c| | | | | | | |k|j| | | |]; cbn; try discriminate; [destruct c; discriminate|destruct (table k); discriminate|].
  destruct (sig (Fuser j)) as [[a o]|] eqn:E; [|discriminate]. intros [= <- <- <-]. auto.
Qed.

Section Whole.
  Context (sig : fsym -> option (list sort * sort)) (table : nat -> option quantifier) (r : realm) (no_bitstring legacy : bool)
    (fuel n : nat) (le : declaration gsym -> declaration gsym -> bool) (p : gen_problem) (ds : list (declaration gsym)) (axs : list eaxiom).
  Context (S : sort -> Prop).
  Hypothesis (HG : generate_file sig table r no_bitstring legacy fuel n le p = Some (ds, axs)) (HC : closed_problem sig table p)
    (HS : forall s, In s (gp_sorts p) -> S s).

  Lemma parts : exists d1 d2 a1 a2 a3,
    problem_decls sig r p = Some d1 /\ evaluate_decls sig table r no_bitstring n p = Some d2 /\ order_axioms p = Some a1 /\
    Evaluate_Model.generate (osort sig) (gp_evs p) r no_bitstring (legacy && match r with RSymbolic => true | REvaluated => false end) n (map (classify sig table) (gp_funs p)) = Some a2 /\
    mapM (propagate_evaluate (osort sig) (gp_evs p) table fuel) (gp_asserts p ++ [gp_query p]) = Some a3 /\
    ds = sort_decls le (d1 ++ [DSort (code SStep)] ++ d2) /\ axs = a1 ++ a2 ++ map ABase a3.
  Proof.
    unfold generate_file in HG. destruct (problem_decls sig r p) as [d1|]; [|discriminate]. destruct (evaluate_decls sig table r no_bitstring n p) as [d2|]; [|discriminate].
    destruct (order_axioms p) as [a1|]; [|discriminate]. destruct (Evaluate_Model.generate _ _ _ _ _ _ _) as [a2|]; [|discriminate].
    destruct (mapM _ _) as [a3|]; [|discriminate]. destruct (rewrites_found _ _ _ _ _); [|discriminate]. injection HG as <- <-.
    exists d1, d2, a1, a2, a3. auto 10.
  Qed.

  Definition readable (f : fsym) : Prop := logical f \/ declared ds f.

  Section Parts.
    Context (d1 d2 : list (declaration gsym)).
    Hypothesis (H1 : problem_decls sig r p = Some d1) (H2 : evaluate_decls sig table r no_bitstring n p = Some d2)
      (HD : ds = sort_decls le (d1 ++ [DSort (code SStep)] ++ d2)).

    Lemma declared_parts f : declared ds f <-> In (GF f) (dfuns d1) \/ In (GF f) (dfuns d2).
    Proof.
      rewrite declared_in, HD. unfold dfuns.
      assert (HP : Permutation (flat_map declares (sort_decls le (d1 ++ [DSort (code SStep)] ++ d2))) (flat_map declares (d1 ++ [DSort (code SStep)] ++ d2)))
        by (apply Permutation_flat_map; apply sort_perm).
      rewrite (Permutation_in' eq_refl HP), !flat_map_app. cbn. rewrite in_app_iff. reflexivity.
    Qed.
    Lemma decls1 f : In (GF f) (dfuns d1) <-> In f (gp_funs p) /\ ~ logical f.
    Proof.
      pose proof (problem_decls_funs sig r _ _ H1) as HP. unfold dfuns. rewrite (Permutation_in' eq_refl HP), filter_In, in_map_iff. cbn. split.
      - intros [(g & [= ->] & Hg) Hb]. split; [assumption|]. intros Hl. destruct Hl; discriminate.
      - intros [Hf Hl]. split; [exists f; auto|]. destruct f; try reflexivity; exfalso; apply Hl; constructor.
    Qed.
    Lemma decls2 f : In (GF f) (dfuns d2) <->
      (exists s, f = Feval s /\ In s (gp_evs p)) \/
      (r = RSymbolic /\ no_bitstring = false /\ exists i, f = Fuser_eval i /\ In (Fuser i) (gp_funs p) /\ sig (Fuser i) <> None) \/
      In (GF f) (dfuns (skolem_decls n (map (classify sig table) (gp_funs p)))).
    Proof.
      unfold evaluate_decls in H2. destruct (relevant _) as [us|] eqn:Er; [|discriminate]. injection H2 as <-.
      assert (A1 : forall l, dfuns (map (fun x : sort * sort => match r with RSymbolic => DSort (code (snd x)) | REvaluated => DAlias (code (fst x)) (code (snd x)) end) l) = [])
        by (unfold dfuns; induction l; cbn; [reflexivity|destruct r; assumption]).
      assert (A2 : dfuns (match r with RSymbolic => [] | REvaluated => [DAlias 0 1] end) = []) by (destruct r; reflexivity).
      assert (HR : forall i, In i (map fst us) <-> In (Fuser i) (gp_funs p) /\ sig (Fuser i) <> None).
      { intros i. rewrite in_map_iff. split.
        - intros ([j args] & <- & Hj). cbn. apply (relevant_in _ _ Er) in Hj. destruct Hj as (out & Hj). apply in_map_iff in Hj. destruct Hj as (g & Hg & Hin).
          apply classify_user in Hg. destruct Hg as [-> Hg]. split; [assumption|]. congruence.
        - intros [Hi Hs]. destruct (sig (Fuser i)) as [[a o]|] eqn:Es; [|congruence]. exists (i, a). split; [reflexivity|].
          apply (relevant_in _ _ Er). exists o. apply in_map_iff. exists (Fuser i). cbn. rewrite Es. auto. }
      unfold dfuns in *. rewrite !flat_map_app, !in_app_iff, A1, A2. cbn [In].
      change (flat_map declares (map (fun s => DFun (GF (Feval s))) (gp_evs p))) with (dfuns (map (fun s => DFun (GF (Feval s))) (gp_evs p))).
      rewrite dfuns_map, in_map_iff. split.
      - intros [[]|[[]|[(s & [= <-] & Hs)|[Hu|Hk]]]]; [left; eauto| |right; right; assumption]. right. left.
        destruct r; [|destruct Hu]. destruct no_bitstring; [destruct Hu|]. repeat split; auto. rewrite flat_map_app, in_app_iff in Hu.
        change (In (GF f) (dfuns (map (fun u : nat * list sort => DFun (GF (Fuser_eval (fst u)))) us)) \/ In (GF f) (dfuns (map (fun x : sort * sort => DFun (GRewrite (snd x))) (relevant_sorts (gp_sorts p))))) in Hu.
        rewrite !dfuns_map, !in_map_iff in Hu. destruct Hu as [([i args] & [= <-] & Hi)|(x & ? & _)]; [|discriminate].
        exists i. split; [reflexivity|]. apply HR. apply in_map_iff. exists (i, args). auto.
      - intros [(s & -> & Hs)|[(Hr & Hb & i & -> & Hi)|Hk]]; [right; right; left; exists s; auto| |auto 10]. right. right. right. left.
        rewrite Hr, Hb. apply HR in Hi. apply in_map_iff in Hi. destruct Hi as ([j args] & <- & Hi). rewrite flat_map_app, in_app_iff. left.
        apply in_flat_map. exists (DFun (GF (Fuser_eval j))). split; [|left; reflexivity]. apply in_map_iff. exists (j, args). auto.
    Qed.

    Lemma readable_known f : known p f -> readable f.
    Proof.
      unfold readable. intros [Hl|[Hf|(s & -> & Hs)]]; [auto| |].
      - destruct (is_builtin f) eqn:E; [left; destruct f; try discriminate; constructor|]. right. apply declared_parts. left. apply decls1. split; [assumption|]. intros Hl. destruct Hl; discriminate.
      - right. apply declared_parts. right. apply decls2. left. eauto.
    Qed.
    Lemma readable_within g : within_known p g -> all_in readable S g.
    Proof. intros [H H']. split; [intros f Hf; apply readable_known; auto|intros s Hs; apply HS; auto]. Qed.

    (** Declared symbols of a user function or of a quantifier are functions of the problem. *)
    Lemma declared_fun f : (forall s, f <> Feval s) -> (forall i, f <> Fuser_eval i) -> (forall i, f <> Fskolem i) -> readable f -> logical f \/ In f (gp_funs p).
    Proof.
      intros E1 E2 E3 [Hl|Hd]; [auto|]. right. apply declared_parts in Hd. destruct Hd as [Hd|Hd]; [apply decls1 in Hd; tauto|]. apply decls2 in Hd.
      destruct Hd as [(s & -> & _)|[(_ & _ & i & -> & _)|Hd]]; [congruence|congruence|]. destruct (skolem_dfuns (map (classify sig table) (gp_funs p)) n) as [m Hm]. rewrite Hm in Hd.
      apply in_map_iff in Hd. destruct Hd as (i & [= <-] & _). congruence.
    Qed.
  End Parts.

  Lemma sorts_known vs : (forall v, In v vs -> In (vsort v) (gp_sorts p)) -> sorts_in S vs.
  Proof. intros H. apply Forall_forall. intros v Hv. apply HS. auto. Qed.

  Lemma generated_readable a1 a2 : order_axioms p = Some a1 ->
    Evaluate_Model.generate (osort sig) (gp_evs p) r no_bitstring (legacy && match r with RSymbolic => true | REvaluated => false end) n (map (classify sig table) (gp_funs p)) = Some a2 ->
    Forall (ax_in readable S) (a1 ++ a2).
  Proof.
    intros E1 E2. destruct parts as (d1 & d2 & _ & _ & _ & H1 & H2 & _ & _ & _ & HD & _). destruct HC as [CB CBS CE CS CO CA CQ CU CG].
    pose proof (readable_known d1 d2 H1 H2 HD) as RK. pose proof (readable_within d1 d2 H1 H2 HD) as RW.
    assert (RL : forall f, logical f -> readable f) by (intros f Hf; left; exact Hf).
    assert (RF : forall f, In f (gp_funs p) -> readable f) by (intros f Hf; apply RK; right; left; exact Hf).
    assert (SB : forall s, In s BUILT_IN_SORTS -> S s) by (intros s Hs; apply HS; apply CBS; exact Hs).
    assert (SS : S SStep) by (apply SB; cbn; tauto).
    apply Forall_app. split.
    - unfold order_axioms in E1. destruct (gp_steps p) as [|init rest] eqn:Es; [discriminate|].
      apply (f_equal (fun o => match o with Some x => x | None => a1 end)) in E1. cbn beta iota in E1. rewrite <- E1. clear E1.
      apply Forall_forall. intros a Ha. apply in_map_iff in Ha. destruct Ha as (g & <- & Hg). apply ax_base. rewrite app_assoc in Hg. apply in_app_or in Hg. destruct Hg as [Hg|Hg].
      + pose proof (order_theory_all readable S RL (fun f Hf => RF f (CB f Hf)) SS (into_formula init)) as HO. rewrite Forall_forall in HO. apply HO; [|exact Hg].
        unfold into_formula, step_term, fv. apply all_fun. split; [apply RF; apply CS; left; reflexivity|apply all_vars].
      + apply in_app_or in Hg. destruct Hg as [Hg|Hg].
        * pose proof (step_axioms_all readable S RL (fun f Hf => RF f (CB f Hf)) SS (init :: rest)) as HO. rewrite Forall_forall in HO. apply HO; [|exact Hg].
          intros s Hs. destruct (CS s Hs) as [C1 C2]. split; [apply RF; exact C1|apply sorts_known; exact C2].
        * apply in_map_iff in Hg. destruct Hg as (o & <- & Ho). destruct (CO o Ho) as [C1 C2].
          apply order_axiom_all; [exact RL|intros f Hf; apply RF; apply CB; exact Hf|apply sorts_known; exact C1|].
          intros g Hg. apply RW. apply C2. exact Hg.
    - eapply (generate_all (osort sig) (gp_evs p) readable S RL); [| | | |exact E2| | |].
      + intros s Hs. apply RK. right. right. eauto.
      + apply SB. cbn. tauto.
      + apply SB. cbn. tauto.
      + intros s Hs. apply HS. apply CE. exact Hs.
      + apply Forall_forall. intros x Hx. apply in_map_iff in Hx. destruct Hx as (f & <- & Hf). pose proof (RF _ Hf) as HR. destruct f; try exact I; cbn.
        * destruct c; exact HR.
        * destruct (table i) as [q|] eqn:Et; [|exact I]. destruct (CQ _ _ Hf Et) as [C1 C2]. split; [exact HR|]. split; [apply sorts_known; exact C1|]. intros g Hg. apply RW. apply C2. exact Hg.
        * destruct (sig (Fuser i)) as [[args out]|] eqn:Eg; [|exact I]. split; [exact HR|]. apply Forall_forall. intros s Hs. apply HS. eapply CG; [exact Hf|exact Eg|right; exact Hs].
      + intros Hr Hb i args out Hi. right. apply (declared_parts d1 d2 HD). right. apply (decls2 d1 d2 H1 H2 HD). right. left. repeat split; auto.
        exists i. split; [reflexivity|]. apply in_map_iff in Hi. destruct Hi as (f & Hf & Hin).
        apply classify_user in Hf. destruct Hf as [-> Hf]. split; [assumption|]. congruence.
      + intros g Hg. destruct g as [f|s]; [|exact I]. right. apply (declared_parts d1 d2 HD). right. apply (decls2 d1 d2 H1 H2 HD). right. right. exact Hg.
  Qed.

  Lemma asserts_readable : r = RSymbolic -> no_bitstring = false -> Forall (ax_in readable S) axs.
  Proof.
    intros Hr Hb. destruct parts as (d1 & d2 & a1 & a2 & a3 & H1 & H2 & E1 & E2 & E3 & HD & HX). rewrite HX, app_assoc. apply Forall_app. split; [eapply generated_readable; eassumption|].
    destruct HC as [CB CBS CE CS CO CA CQ CU CG].
    pose proof (readable_known d1 d2 H1 H2 HD) as RK. pose proof (readable_within d1 d2 H1 H2 HD) as RW. pose proof (declared_fun d1 d2 H1 H2 HD) as DF.
    apply Forall_forall. intros a Ha. apply in_map_iff in Ha. destruct Ha as (g & <- & Hg). apply ax_base. destruct (mapM_in _ _ _ E3 _ Hg) as (f & Hf & Hp).
    eapply (propagate_all (osort sig) (gp_evs p) readable S); [| |exact Hp| | |].
    - intros x Hx. left. exact Hx.
    - intros s Hs. apply RK. right. right. eauto.
    - apply RW. apply CA. exact Hf.
    - intros i Hi. apply DF in Hi; try discriminate. destruct Hi as [Hi|Hi]; [inversion Hi|]. right. apply (declared_parts d1 d2 HD). right. apply (decls2 d1 d2 H1 H2 HD).
      right. left. repeat split; auto. exists i. split; [reflexivity|]. split; [assumption|]. apply CU. assumption.
    - intros k q Hk Ht. apply DF in Hk; try discriminate. destruct Hk as [Hk|Hk]; [inversion Hk|]. destruct (CQ _ _ Hk Ht) as [C1 C2]. split.
      + apply sorts_known. intros v Hv. apply C1. apply in_or_app. right. exact Hv.
      + intros h Hh. apply RW. apply C2. exact Hh.
  Qed.

  (** In every realm: only evaluated functions may lack a declaration. *)
  Lemma asserts_nearly : Forall (ax_in (fun f => readable f \/ exists i, f = Fuser_eval i /\ In (Fuser i) (gp_funs p)) S) axs.
  Proof.
    destruct parts as (d1 & d2 & a1 & a2 & a3 & H1 & H2 & E1 & E2 & E3 & HD & HX). rewrite HX, app_assoc. apply Forall_app. split.
    { pose proof (generated_readable _ _ E1 E2) as HR. rewrite Forall_forall in *. intros a Ha. destruct (HR a Ha) as [R1 R2]. split; [intros f Hf; left; auto|exact R2]. }
    destruct HC as [CB CBS CE CS CO CA CQ CU CG].
    pose proof (readable_known d1 d2 H1 H2 HD) as RK. pose proof (readable_within d1 d2 H1 H2 HD) as RW. pose proof (declared_fun d1 d2 H1 H2 HD) as DF.
    assert (RW' : forall g, within_known p g -> all_in (fun f => readable f \/ exists i, f = Fuser_eval i /\ In (Fuser i) (gp_funs p)) S g).
    { intros g Hg. destruct (RW g Hg) as [R1 R2]. split; [intros f Hf; left; auto|exact R2]. }
    apply Forall_forall. intros a Ha. apply in_map_iff in Ha. destruct Ha as (g & <- & Hg). apply ax_base. destruct (mapM_in _ _ _ E3 _ Hg) as (f & Hf & Hp).
    eapply (propagate_all (osort sig) (gp_evs p) _ S); [| |exact Hp| | |].
    - intros x Hx. left. left. exact Hx.
    - intros s Hs. left. apply RK. right. right. eauto.
    - apply RW'. apply CA. exact Hf.
    - intros i [Hi|(j & ? & _)]; [|discriminate]. apply DF in Hi; try discriminate. destruct Hi as [Hi|Hi]; [inversion Hi|]. right. eauto.
    - intros k q [Hk|(j & ? & _)] Ht; [|discriminate]. apply DF in Hk; try discriminate. destruct Hk as [Hk|Hk]; [inversion Hk|]. destruct (CQ _ _ Hk Ht) as [C1 C2]. split.
      + apply sorts_known. intros v Hv. apply C1. apply in_or_app. right. exact Hv.
      + intros h Hh. apply RW'. apply C2. exact Hh.
  Qed.
End Whole.

(** ** Sorts *)
Section Keys.
  Context {F : Type} (builtin always ta : F -> bool) (outsort : F -> option nat) (symbolic : bool).
  Lemma add_constructor_keys s (f : F) m k : In k (map fst (add_constructor s f m)) <-> k = s \/ In k (map fst m).
  Proof.
    induction m as [|[k' l] m IH]; cbn [add_constructor map fst In]; [intuition congruence|].
    destruct (Nat.eqb_spec s k') as [E|E]; [subst; cbn; intuition congruence|].
    destruct (s <? k'); cbn; [intuition congruence|]. rewrite IH. tauto.
  Qed.
  Lemma partition_keys fs : forall m free m' free', partition_functions builtin always ta outsort symbolic fs m free = Some (m', free') ->
    forall k, In k (map fst m') <-> In k (map fst m) \/ exists f, In f fs /\ builtin f = false /\ (always f || (ta f && symbolic) = true) /\ outsort f = Some k.
  Proof.
    induction fs as [|f fs IH]; intros m free m' free' H k; cbn in H.
    - injection H as <- <-. split; [auto|intros [?|(f & [] & _)]; assumption].
    - destruct (builtin f) eqn:Eb.
      + rewrite (IH _ _ _ _ H). split; intros [Hk|(g & Hg & Hr)]; auto; right; [exists g; cbn; auto|]. destruct Hg as [<-|Hg]; [destruct Hr; congruence|eauto].
      + destruct (always f || (ta f && symbolic)) eqn:Ec.
        * destruct (outsort f) as [s|] eqn:Eo; [|discriminate]. rewrite (IH _ _ _ _ H), add_constructor_keys. split.
          -- intros [[->|Hk]|(g & Hg & Hr)]; [right; exists f; cbn; auto|auto|right; exists g; cbn; auto].
          -- intros [Hk|(g & [<-|Hg] & Hr)]; [auto| |right; eauto]. left. left. destruct Hr as (_ & _ & Hr). congruence.
        * rewrite (IH _ _ _ _ H). split; intros [Hk|(g & Hg & Hr)]; auto; right; [exists g; cbn; auto|].
          destruct Hg as [<-|Hg]; [destruct Hr as (_ & Hr & _); congruence|eauto].
  Qed.
End Keys.

Lemma code_inj s s' : code s = code s' -> s = s'.
Proof. destruct s, s'; cbn; intros H; try reflexivity; try (exfalso; lia); f_equal; lia. Qed.

Section Sorts.
  Context (sig : fsym -> option (list sort * sort)) (table : nat -> option quantifier) (r : realm) (no_bitstring : bool) (n : nat) (p : gen_problem).

  Lemma problem_sorts ds : problem_decls sig r p = Some ds -> forall k,
    In k (flat_map declares_sort ds) <-> (exists s, k = code s /\ In s (gp_sorts p) /\ sort_declared r s = true) \/
      exists f s, k = code s /\ In f (gp_funs p) /\ is_builtin f = false /\ (is_always_datatype f || (is_term_algebra f && match r with RSymbolic => true | _ => false end) = true) /\ osort sig f = Some s.
  Proof.
    intros H k. unfold problem_decls, Problem_Model.declare in H.
    match type of H with context [partition_functions ?a ?b ?c ?d ?e ?f ?g ?h] => destruct (partition_functions a b c d e f g h) as [[m free]|] eqn:E end; [|discriminate].
    injection H as <-. rewrite !flat_map_app, !in_app_iff.
    assert (A1 : forall l, flat_map declares_sort (map (@DSort gsym) l) = l) by (induction l; cbn; congruence).
    assert (A2 : forall l : list gsym, flat_map declares_sort (map DFun l) = []) by (induction l; cbn; auto).
    rewrite A1, A2. cbn [flat_map declares_sort app]. rewrite app_nil_r. rewrite (partition_keys _ _ _ _ _ _ _ _ _ _ E). split.
    - intros [Hk|[[]|[[]|(g & Hg & Hb & Hc & Ho)]]].
      + left. apply filter_In in Hk. destruct Hk as [Hk _]. apply in_map_iff in Hk. destruct Hk as (s & <- & Hs). apply filter_In in Hs. exists s. tauto.
      + right. apply in_map_iff in Hg. destruct Hg as (f & <- & Hf). cbn in *. destruct (osort sig f) as [s|] eqn:Es; [|discriminate]. cbn in Ho. injection Ho as <-. exists f, s. auto.
    - intros [(s & -> & Hs & Hd)|(f & s & -> & Hf & Hb & Hc & Ho)].
      + left. apply filter_In. split; [|reflexivity]. apply in_map. apply filter_In. auto.
      + right. right. right. exists (GF f). split; [apply in_map; assumption|]. cbn. rewrite Ho. auto.
  Qed.

  Lemma relevant_sorts_in ss s e : In (s, e) (relevant_sorts ss) <-> In s ss /\ maybe_evaluated_sort s = Some e /\ e <> SBool.
  Proof.
    unfold relevant_sorts. rewrite in_flat_map. split.
    - intros (x & Hx & Hin). destruct (maybe_evaluated_sort x) as [y|] eqn:E; [|destruct Hin]. destruct (sort_eqb y SBool) eqn:Eb; [destruct Hin|].
      destruct Hin as [[= <- <-]|[]]. repeat split; auto. intros ->. unfold sort_eqb in Eb. destruct (sort_eq_dec SBool SBool); congruence.
    - intros (Hs & He & Hn). exists s. split; [assumption|]. rewrite He. unfold sort_eqb. destruct (sort_eq_dec e SBool); [congruence|]. left. reflexivity.
  Qed.

  Definition dsorts (ds : list (declaration gsym)) : list nat := flat_map declares_sort ds.
  Lemma skolem_dsorts fs : forall m, dsorts (skolem_decls m fs) = [].
  Proof.
    induction fs as [|f fs IH]; intros m; cbn; [reflexivity|]. destruct f as [| | | |k q|]; try apply IH. destruct (qt_inner q); try apply IH.
    unfold dsorts. rewrite flat_map_app. assert (A : forall l, flat_map declares_sort (map (fun i => DFun (GF (Fskolem i))) l) = []) by (induction l; auto). rewrite A. apply IH.
  Qed.
  Lemma evaluate_sorts ds : evaluate_decls sig table r no_bitstring n p = Some ds ->
    dsorts ds = map (fun x => code (snd x)) (relevant_sorts (gp_sorts p)) ++ match r with REvaluated => [code SCondition] | RSymbolic => [] end.
  Proof.
    intros H. unfold evaluate_decls in H. destruct (relevant _) as [us|]; [|discriminate].
    apply (f_equal (fun o => match o with Some x => x | None => ds end)) in H. cbn beta iota in H. rewrite <- H. clear H. unfold dsorts. rewrite !flat_map_app.
    assert (A1 : forall l, flat_map declares_sort (map (fun x : sort * sort => match r with RSymbolic => DSort (code (snd x)) | REvaluated => DAlias (code (fst x)) (code (snd x)) end) l : list (declaration gsym)) = map (fun x => code (snd x)) l)
      by (induction l as [|x l IH]; cbn; [reflexivity|rewrite IH; destruct r; reflexivity]).
    assert (A2 : forall A (f : A -> gsym) l, flat_map declares_sort (map (fun x => DFun (f x)) l) = []) by (induction l; auto).
    rewrite A1, (A2 _ (fun s => GF (Feval s))). f_equal. pose proof (skolem_dsorts (map (classify sig table) (gp_funs p)) n) as HS. unfold dsorts in HS. rewrite HS. cbn [app].
    destruct r; [|reflexivity]. cbn [flat_map app]. destruct no_bitstring; [reflexivity|]. rewrite flat_map_app, (A2 _ (fun u : nat * list sort => GF (Fuser_eval (fst u)))), (A2 _ (fun x : sort * sort => GRewrite (snd x))). reflexivity.
  Qed.

  Lemma sorts_declared legacy fuel le ds axs : generate_file sig table r no_bitstring legacy fuel n le p = Some (ds, axs) ->
    closed_problem sig table p -> constructed sig p -> forall s, In s (gp_sorts p) -> declared_sort ds s.
  Proof.
    intros HG HC HS s Hs. destruct (parts _ _ _ _ _ _ _ _ _ _ _ HG) as (d1 & d2 & a1 & a2 & a3 & H1 & H2 & _ & _ & _ & HD & _).
    pose proof (problem_sorts _ H1) as P1. pose proof (evaluate_sorts _ H2) as P2. destruct HC as [CB CBS _ _ _ _ _ _ _]. destruct HS as [S1 S2 S3 S4 S5].
    assert (HD' : forall k, (exists d, In d ds /\ In k (declares_sort d)) <-> In k (dsorts d1) \/ k = code SStep \/ In k (dsorts d2)).
    { intros k. rewrite <- in_flat_map. rewrite HD.
      assert (HP : Permutation (flat_map declares_sort (sort_decls le (d1 ++ [DSort (code SStep)] ++ d2))) (flat_map declares_sort (d1 ++ [DSort (code SStep)] ++ d2)))
        by (apply Permutation_flat_map; apply sort_perm).
      rewrite (Permutation_in' eq_refl HP), !flat_map_app, !in_app_iff. cbn [flat_map declares_sort app In]. unfold dsorts. intuition. }
    assert (D1 : forall f t, In f (gp_funs p) -> is_builtin f = false -> (is_always_datatype f || (is_term_algebra f && match r with RSymbolic => true | _ => false end) = true) -> osort sig f = Some t -> declared_sort ds t).
    { intros f t Hf Hb Hc Ho. right. apply HD'. left. apply P1. right. exists f, t. auto. }
    assert (D2 : forall t, In t (gp_sorts p) -> sort_declared r t = true -> declared_sort ds t).
    { intros t Ht Hd. right. apply HD'. left. apply P1. left. eauto. }
    assert (D3 : forall t e, In t (gp_sorts p) -> maybe_evaluated_sort t = Some e -> e <> SBool -> declared_sort ds e).
    { intros t e Ht He Hn. right. apply HD'. right. right. rewrite P2. apply in_or_app. left. apply in_map_iff. exists (t, e). split; [reflexivity|]. apply relevant_sorts_in. auto. }
    destruct s.
    - left. reflexivity.
    - destruct r eqn:Er.
      + eapply (D1 (Fta TTrue)); [apply CB; cbn; tauto|reflexivity|reflexivity|]. unfold osort. rewrite S3. reflexivity.
      + right. apply HD'. right. right. rewrite P2. apply in_or_app. right. left. reflexivity.
    - destruct r eqn:Er; [|apply D2; [assumption|reflexivity]].
      eapply (D1 (Fuser 0)); [apply CB; cbn; tauto|reflexivity|reflexivity|]. unfold osort. rewrite S2. reflexivity.
    - eapply (D3 SMessage); [apply CBS; cbn; tauto|reflexivity|discriminate].
    - destruct r eqn:Er; [|apply D2; [assumption|reflexivity]]. destruct (S4 _ Hs) as (j & args & Hj & Hsig).
      eapply (D1 (Fuser j)); [assumption|reflexivity|reflexivity|]. unfold osort. rewrite Hsig. reflexivity.
    - eapply (D3 (SUserSym i)); [apply S5; assumption|reflexivity|discriminate].
    - apply D2; [assumption|]. destruct r; reflexivity.
    - destruct S1 as (i & args & Hi & Hsig). eapply (D1 (Fname i)); [assumption|reflexivity|reflexivity|]. unfold osort. rewrite Hsig. reflexivity.
    - right. apply HD'. auto.
  Qed.
End Sorts.

(** ** Once *)
Lemma NoDup_app_intro {A} (l l' : list A) : NoDup l -> NoDup l' -> (forall x, In x l -> ~ In x l') -> NoDup (l ++ l').
Proof.
  intros H H' D. induction H as [|x l Hx H IH]; cbn; [assumption|]. constructor.
  - rewrite in_app_iff. intros [Hi|Hi]; [contradiction|]. eapply D; [left; reflexivity|exact Hi].
  - apply IH. intros y Hy. apply D. right. exact Hy.
Qed.
Lemma NoDup_map_inj {A B} (f : A -> B) l : (forall x y, In x l -> In y l -> f x = f y -> x = y) -> NoDup l -> NoDup (map f l).
Proof.
  intros Hi H. induction H as [|x l Hx H IH]; cbn; [constructor|]. constructor.
  - rewrite in_map_iff. intros (y & E & Hy). apply Hi in E; [subst; contradiction|right; assumption|left; reflexivity].
  - apply IH. intros a b Ha Hb. apply Hi; right; assumption.
Qed.

Section Once.
  Context (sig : fsym -> option (list sort * sort)) (table : nat -> option quantifier) (r : realm) (no_bitstring legacy : bool)
    (fuel n : nat) (le : declaration gsym -> declaration gsym -> bool) (p : gen_problem) (ds : list (declaration gsym)) (axs : list eaxiom).
  Hypothesis (HG : generate_file sig table r no_bitstring legacy fuel n le p = Some (ds, axs)) (HO : listed_once sig p).

  Lemma relevant_sorts_once ss : NoDup ss -> NoDup (map (fun x => code (snd x)) (relevant_sorts ss)).
  Proof.
    intros H. induction H as [|s ss Hs H IH]; cbn; [constructor|]. rewrite map_app. apply NoDup_app_intro; [|exact IH|].
    - destruct (maybe_evaluated_sort s); [destruct (sort_eqb s0 SBool)|]; cbn; repeat constructor; intros [].
    - intros k Hk Hk'. destruct (maybe_evaluated_sort s) as [e|] eqn:E; [|destruct Hk]. destruct (sort_eqb e SBool); [destruct Hk|]. destruct Hk as [<-|[]].
      apply in_map_iff in Hk'. destruct Hk' as ([s' e'] & Hc & Hin). cbn in Hc. apply code_inj in Hc. subst e'. apply relevant_sorts_in in Hin. destruct Hin as (Hin & He & _).
      apply Hs. assert (s = s') as -> by (destruct s, s'; cbn in E, He; congruence). exact Hin.
  Qed.
  Lemma relevant_once fs us : relevant (map (classify sig table) fs) = Some us -> NoDup fs -> NoDup (map fst us).
  Proof.
    revert us. induction fs as [|f fs IH]; intros us H Hn; cbn in H; [injection H as <-; constructor|]. inversion Hn as [|? ? Hf Hn']; subst.
    destruct (classify sig table f) as [i args out| | | | |] eqn:E; try (apply IH; assumption).
    destruct (is_evaluatable out); [|discriminate]. destruct (relevant (map (classify sig table) fs)) as [l|] eqn:Er; [|discriminate]. injection H as <-. cbn. constructor; [|auto].
    intros Hi. apply in_map_iff in Hi. destruct Hi as ([j a] & Hj & Hin). cbn in Hj. subst j. apply (relevant_in _ _ Er) in Hin. destruct Hin as (o & Hin).
    apply in_map_iff in Hin. destruct Hin as (g & Hg & Hin). apply classify_user in E, Hg. destruct E as [-> _]. destruct Hg as [-> _]. contradiction.
  Qed.

  Lemma functions_once : NoDup (flat_map declares ds).
  Proof.
    destruct (parts _ _ _ _ _ _ _ _ _ _ _ HG) as (d1 & d2 & a1 & a2 & a3 & H1 & H2 & _ & _ & _ & HD & _). destruct HO as [O1 O2 O3 O4 O5].
    rewrite HD. eapply Permutation_NoDup; [symmetry; apply Permutation_flat_map; apply sort_perm|]. rewrite !flat_map_app. cbn [flat_map declares app].
    apply NoDup_app_intro.
    - pose proof (problem_decls_funs _ _ _ _ H1) as HP. eapply Permutation_NoDup; [symmetry; exact HP|]. apply NoDup_filter. apply NoDup_map_inj; [congruence|exact O1].
    - unfold evaluate_decls in H2. destruct (relevant _) as [us|] eqn:Er; [|discriminate].
      apply (f_equal (fun o => match o with Some x => x | None => d2 end)) in H2. cbn beta iota in H2. rewrite <- H2. clear H2. rewrite !flat_map_app.
      assert (A1 : forall l, flat_map declares (map (fun x : sort * sort => match r with RSymbolic => DSort (code (snd x)) | REvaluated => DAlias (code (fst x)) (code (snd x)) end) l : list (declaration gsym)) = [])
        by (induction l; cbn; [reflexivity|destruct r; assumption]).
      assert (A2 : flat_map declares (match r with REvaluated => [@DAlias gsym (code SBool) (code SCondition)] | RSymbolic => [] end) = []) by (destruct r; reflexivity).
      rewrite A1, A2. cbn [app].
      change (NoDup (dfuns (map (fun s => DFun (GF (Feval s))) (gp_evs p)) ++ flat_map declares (match r with
               | REvaluated => []
               | RSymbolic => if no_bitstring then []
                              else map (fun u => DFun (GF (Fuser_eval (fst u)))) us ++ map (fun x => DFun (GRewrite (snd x))) (relevant_sorts (gp_sorts p))
               end) ++ dfuns (skolem_decls n (map (classify sig table) (gp_funs p))))).
      destruct (skolem_dfuns (map (classify sig table) (gp_funs p)) n) as [m Hm]. rewrite Hm, dfuns_map.
      assert (HU : forall x, In x (flat_map declares (match r with
               | REvaluated => []
               | RSymbolic => if no_bitstring then []
                              else map (fun u => DFun (GF (Fuser_eval (fst u)))) us ++ map (fun x => DFun (GRewrite (snd x))) (relevant_sorts (gp_sorts p))
               end)) -> (exists i, x = GF (Fuser_eval i)) \/ exists s, x = GRewrite s).
      { destruct r; [destruct no_bitstring|]; try (intros x []). intros x. rewrite flat_map_app, in_app_iff.
        change (In x (dfuns (map (fun u : nat * list sort => DFun (GF (Fuser_eval (fst u)))) us)) \/ In x (dfuns (map (fun x : sort * sort => DFun (GRewrite (snd x))) (relevant_sorts (gp_sorts p)))) -> (exists i, x = GF (Fuser_eval i)) \/ exists s, x = GRewrite s).
        rewrite !dfuns_map, !in_map_iff. intros [(u & <- & _)|(u & <- & _)]; eauto. }
      apply NoDup_app_intro; [apply NoDup_map_inj; [congruence|exact O2]|apply NoDup_app_intro|].
      + destruct r; [destruct no_bitstring|]; try constructor. rewrite flat_map_app.
        change (NoDup (dfuns (map (fun u : nat * list sort => DFun (GF (Fuser_eval (fst u)))) us) ++ dfuns (map (fun x : sort * sort => DFun (GRewrite (snd x))) (relevant_sorts (gp_sorts p))))).
        rewrite !dfuns_map. apply NoDup_app_intro.
        * rewrite <- (map_map fst (fun i => GF (Fuser_eval i))). apply NoDup_map_inj; [congruence|]. eapply relevant_once; eassumption.
        * rewrite <- (map_map snd GRewrite). apply NoDup_map_inj; [congruence|]. pose proof (relevant_sorts_once _ O3) as HN. rewrite <- (map_map snd code) in HN. eapply NoDup_map_inv. exact HN.
        * intros x Hx Hx'. apply in_map_iff in Hx, Hx'. destruct Hx as (u & <- & _). destruct Hx' as (v & ? & _). discriminate.
      + apply NoDup_map_inj; [congruence|apply seq_NoDup].
      + intros x Hx Hx'. apply in_map_iff in Hx'. destruct Hx' as (i & <- & _). destruct (HU _ Hx) as [(j & ?)|(s & ?)]; discriminate.
      + intros x Hx Hx'. apply in_map_iff in Hx. destruct Hx as (s & <- & _). apply in_app_or in Hx'. destruct Hx' as [Hx'|Hx'].
        * destruct (HU _ Hx') as [(j & ?)|(s' & ?)]; discriminate.
        * apply in_map_iff in Hx'. destruct Hx' as (i & ? & _). discriminate.
    - intros x Hx Hx'. pose proof (problem_decls_funs _ _ _ _ H1) as HP. apply (Permutation_in x HP) in Hx. apply filter_In in Hx. destruct Hx as [Hx _]. apply in_map_iff in Hx.
      destruct Hx as (f & <- & Hf). specialize (O4 _ Hf). change (In (GF f) (dfuns d2)) in Hx'. eapply decls2 in Hx'; [|exact HG|exact H1|exact H2|exact HD].
      destruct Hx' as [(s & -> & _)|[(_ & _ & i & -> & _)|Hx']]; [exact O4|exact O4|]. destruct (skolem_dfuns (map (classify sig table) (gp_funs p)) n) as [m Hm]. rewrite Hm in Hx'.
      apply in_map_iff in Hx'. destruct Hx' as (i & [= <-] & _). exact O4.
  Qed.

  Lemma sorts_once : NoDup (flat_map declares_sort ds).
  Proof.
    destruct (parts _ _ _ _ _ _ _ _ _ _ _ HG) as (d1 & d2 & a1 & a2 & a3 & H1 & H2 & _ & _ & _ & HD & _). destruct HO as [O1 O2 O3 O4 O5].
    pose proof (problem_sorts sig table r n p d1 H1) as P1. pose proof (evaluate_sorts _ _ _ _ _ _ d2 H2) as P2.
    assert (HC : forall f s, In f (gp_funs p) -> (is_always_datatype f || (is_term_algebra f && match r with RSymbolic => true | _ => false end) = true) -> osort sig f = Some s -> is_datatype r s = true /\ s <> SStep).
    { intros f s Hf Hc Ho. unfold osort in Ho. destruct (sig f) as [[args o]|] eqn:Es; [|discriminate]. injection Ho as <-. specialize (O5 _ _ _ Hf Es).
      destruct f; try discriminate Hc; cbn in Hc; destruct r; try discriminate Hc; try (subst; split; [reflexivity|discriminate]); destruct O5 as [->|[->|(j & ->)]]; split; try reflexivity; discriminate. }
    rewrite HD. eapply Permutation_NoDup; [symmetry; apply Permutation_flat_map; apply sort_perm|]. rewrite !flat_map_app. cbn [flat_map declares_sort app].
    change (code SStep :: flat_map declares_sort d2) with ([code SStep] ++ dsorts d2). rewrite P2. apply NoDup_app_intro.
    - unfold problem_decls, Problem_Model.declare in H1.
      match type of H1 with context [partition_functions ?a ?b ?c ?d ?e ?f ?g ?h] => destruct (partition_functions a b c d e f g h) as [[m free]|] eqn:E end; [|discriminate].
      injection H1 as <-. rewrite !flat_map_app.
      assert (A1 : forall l, flat_map declares_sort (map (@DSort gsym) l) = l) by (induction l; cbn; congruence).
      assert (A2 : forall l : list gsym, flat_map declares_sort (map DFun l) = []) by (induction l; cbn; auto).
      rewrite A1, A2. cbn [flat_map declares_sort app]. rewrite app_nil_r. pose proof (partition_keys _ _ _ _ _ _ _ _ _ _ E) as HK.
      apply partition_spec in E; [|constructor]. destruct E as (_ & E & _). apply NoDup_app_intro.
      + apply NoDup_filter. apply NoDup_map_inj; [intros x y _ _; apply code_inj|]. apply NoDup_filter. exact O3.
      + clear -E. induction E as [|k l E IH F]; constructor; [|assumption]. intros Hi. rewrite Forall_forall in F. specialize (F _ Hi). lia.
      + intros k Hk Hk'. apply HK in Hk'. destruct Hk' as [[]|(g & Hg & _ & Hc & Ho)]. apply filter_In in Hk. destruct Hk as [Hk _]. apply in_map_iff in Hk. destruct Hk as (s & <- & Hs).
        apply filter_In in Hs. destruct Hs as [_ Hs]. apply in_map_iff in Hg. destruct Hg as (f & <- & Hf). cbn in Hc, Ho. destruct (osort sig f) as [s'|] eqn:Es; [|discriminate].
        cbn in Ho. injection Ho as Ho. apply code_inj in Ho. subst s'. destruct (HC _ _ Hf Hc Es) as [Hd _]. unfold sort_declared in Hs. rewrite Hd in Hs. discriminate.
    - apply NoDup_app_intro; [repeat constructor; intros []|apply NoDup_app_intro|].
      + apply relevant_sorts_once. exact O3.
      + destruct r; repeat constructor. intros [].
      + intros k Hk Hk'. apply in_map_iff in Hk. destruct Hk as ([s e] & <- & Hin). apply relevant_sorts_in in Hin. destruct Hin as (_ & He & _). destruct r; [destruct Hk'|].
        destruct Hk' as [Hk'|[]]. change (code SCondition = code e) in Hk'. apply code_inj in Hk'. subst e. destruct s; discriminate.
      + intros k [<-|[]] Hk. apply in_app_or in Hk. destruct Hk as [Hk|Hk].
        * apply in_map_iff in Hk. destruct Hk as ([s e] & Hc & Hin). apply relevant_sorts_in in Hin. destruct Hin as (_ & He & _). change (code e = code SStep) in Hc. apply code_inj in Hc. subst e. destruct s; discriminate.
        * destruct r; [destruct Hk|]. destruct Hk as [Hk|[]]. apply code_inj in Hk. discriminate.
    - intros k Hk Hk'. apply P1 in Hk. apply in_app_or in Hk'.
      assert (HK : k = code SStep \/ (exists s e, k = code e /\ maybe_evaluated_sort s = Some e) \/ (r = REvaluated /\ k = code SCondition)).
      { destruct Hk' as [[<-|[]]|Hk']; [auto|]. apply in_app_or in Hk'. destruct Hk' as [Hk'|Hk'].
        - apply in_map_iff in Hk'. destruct Hk' as ([s e] & <- & Hin). apply relevant_sorts_in in Hin. right. left. exists s, e. split; [reflexivity|apply Hin].
        - destruct r; [destruct Hk'|]. destruct Hk' as [<-|[]]. auto. }
      clear Hk'. destruct Hk as [(s & -> & Hs & Hd)|(f & s & -> & Hf & _ & Hc & Ho)].
      + unfold sort_declared in Hd. destruct HK as [HK|[(s' & e & HK & He)|(Hr & HK)]].
        * apply code_inj in HK. subst s. destruct r; discriminate.
        * apply code_inj in HK. subst e. destruct s'; try discriminate; injection He as <-; destruct r; discriminate.
        * apply code_inj in HK. subst s. rewrite Hr in Hd. discriminate.
      + destruct (HC _ _ Hf Hc Ho) as [Hd Hn]. destruct HK as [HK|[(s' & e & HK & He)|(Hr & HK)]].
        * apply code_inj in HK. contradiction.
        * apply code_inj in HK. subst e. destruct s'; try discriminate; injection He as <-; destruct r; discriminate.
        * apply code_inj in HK. subst s. rewrite Hr in Hd. discriminate.
  Qed.
End Once.
