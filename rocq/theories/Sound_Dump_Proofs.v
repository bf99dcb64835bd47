(** From the files of Squirrel to the answers of the prover. *)
From Coq Require Import List Arith Bool Lia String Ascii Permutation Sorted.
From Verif Require Import Syntax_Model Traversal_Spec Semantics_Spec Sort_Model Order_Model Macro_Model Parser_Model Parser_Spec Source_Model Source_Spec Source_Problem_Spec Source_Proofs Source_Props Semantics_Proofs Parser_Base_Proofs
  Smt_Model Squirrel_Model Squirrel_Spec Squirrel_Proofs Squirrel_Props Utils_Model Utils_Spec Convert_Model Convert_Spec Meaning_Spec Meaning_Props
  Dump_Model Dump_Spec Dump_Proofs Dump_Props Dump_Source_Model Dump_Source_Spec Dump_Source_Proofs Dump_Symbols_Proofs Dump_Source_Props
  Dump_Meaning_Spec Dump_Meaning_Proofs Dump_Step_Proofs Problem_Model Problem_Spec File_Model File_Spec Assumption_Model Source_Closed_Spec Arity_Source_Spec Sound_Spec Sound_Source_Spec Sound_Source_Proofs Sound_Dump_Spec.
Import ListNotations.
Local Open Scope list_scope.

Lemma couples_in {A} (l : list A) cs a b : couples l cs -> In (a, b) cs -> In a l /\ In b l.
Proof.
  intros H. induction H as [|x l m H IH]; [intros []|]. rewrite in_app_iff, in_map_iff. intros [(y & E & I)|I].
  - injection E as <- <-. split; [left; reflexivity|right; exact I].
  - destruct (IH I). split; right; assumption.
Qed.

Section Contents.
  Context (wide : text -> bool) (table : nat -> jsort) (d : dump).

  (** Only the sections of the orders, of the projections and of the query have such items. *)
  Lemma other_items (term : jterm -> aterm -> Prop) types ms ns os xs T C N F G K S P i :
    section (type_item wide) types T -> section (cell_item wide table d) ms C -> section (global_item wide table d term) ms G ->
    section (name_item wide table d) ns N -> section (operator_item wide table d) os F -> section (defined_item wide table d term) os K ->
    section (crypto_item wide) os P -> section (step_item wide table d term) xs S ->
    In i T \/ In i C \/ In i N \/ In i F \/ In i G \/ In i K \/ In i S \/ In i P ->
    match i with DOrder _ | DAssert _ | DQuery _ => False | _ => True end.
  Proof.
    intros ST SC SG SN SF SK SP SS H.
    repeat (destruct H as [H|H]).
    - destruct (section_in _ _ _ _ ST H) as (x & ys & _ & R & I). destruct R as [[_ ->]|[_ ->]]; [destruct I as [<-|[]]; exact Logic.I|destruct I].
    - destruct (section_in _ _ _ _ SC H) as (x & ys & _ & R & I). unfold cell_item in R. destruct (snd x); try (subst ys; destruct I; fail). destruct R as (? & ? & _ & _ & ->). destruct I as [<-|[]]; exact Logic.I.
    - destruct (section_in _ _ _ _ SN H) as (x & ys & _ & R & I). unfold name_item in R. destruct (f_poly (snd x)); [subst ys; destruct I|]. destruct R as (? & ? & _ & _ & ->). destruct I as [<-|[]]; exact Logic.I.
    - destruct (section_in _ _ _ _ SF H) as (x & ys & _ & R & I). unfold operator_item in R. destruct (op_def (snd x)); [|subst ys; destruct I].
      destruct R as [[_ ->]|[[_ ->]|(_ & _ & ins & args & out & _ & _ & _ & ->)]]; [destruct I|destruct I|destruct I as [<-|[]]; exact Logic.I].
    - destruct (section_in _ _ _ _ SG H) as (x & ys & _ & R & I). unfold global_item in R. destruct (snd x); try (subst ys; destruct I; fail). unfold let_item in R; destruct R as (? & ? & _ & _ & ->). destruct I as [<-|[]]; exact Logic.I.
    - destruct (section_in _ _ _ _ SK H) as (x & ys & _ & R & I). unfold defined_item in R. destruct (op_def (snd x)); [subst ys; destruct I|]. unfold let_item in R; destruct R as (? & ? & _ & _ & ->). destruct I as [<-|[]]; exact Logic.I.
    - destruct (section_in _ _ _ _ SS H) as (x & ys & _ & R & I). destruct R as (_ & args & cond & message & updates & _ & _ & _ & _ & ->). destruct I as [<-|[]]; exact Logic.I.
    - destruct (section_in _ _ _ _ SP H) as (x & ys & _ & R & I). unfold crypto_item in R. cbv zeta in R. destruct (op_def (snd x)) as [k l|]; [|subst ys; destruct I]. destruct k; try (subst ys; destruct I; fail).
      all: try (subst ys; destruct I as [<-|[<-|[]]]; exact Logic.I). all: destruct R as (y & l' & _ & ->); destruct I as [<-|[]]; exact Logic.I.
  Qed.
End Contents.

Section Values.
  Context {M : structure} (env : penv) (qsem : qkind -> list sort -> (list (D M) -> list (D M)) -> D M) (mval : callee -> realm -> list (D M) -> list (D M) -> D M) (code : text -> name).
  Hypothesis Inj : forall a b, code a = code b -> a = b.
  Hypothesis Ext : extensional M qsem.
  Notation T := (reading env qsem mval code).
  Notation val := (value env qsem mval).

  Lemma over_true ss : forall k : list (D M) -> bool, (forall ds, Forall2 (dom M) ss ds -> k ds = true) -> over QForall ss k = true.
  Proof.
    induction ss as [|s ss IH]; intros k H; [apply H; constructor|]. cbn [over]. apply all_spec. intros x Hx. apply IH. intros ds Hds. apply H. constructor; assumption.
  Qed.
  (** What the variables of an order stand for. *)
  Lemma assigned_value : forall xs ss ds (e : text -> D M * D M) x, List.length xs = List.length ss -> Forall2 (dom M) ss ds -> In x xs -> a_value (assign xs (stand ss ds) e x).
  Proof.
    assert (A : forall xs ss ds (e : text -> D M * D M) x, List.length xs = List.length ss -> Forall2 (dom M) ss ds -> In x xs \/ a_value (e x) -> a_value (assign xs (stand ss ds) e x)).
    { induction xs as [|y xs IH]; intros ss ds e x L F H; [destruct H as [[]|H]; exact H|]. destruct F as [|s v ss ds Hv F]; [discriminate L|]. cbn [stand assign].
      apply IH; [cbn in L; lia|exact F|]. destruct (list_eq_dec ascii_dec x y) as [->|Ne]; [right; exists s, v; split; [exact Hv|reflexivity]|].
      destruct H as [[H|H]|H]; [congruence|left; exact H|right; exact H]. }
    intros. apply A; auto.
  Qed.
  Lemma step_read (t : text * list text) e sc : seen env qsem mval code e sc -> val (to_step code t) REvaluated sc = snd (t_app T (fst t) (map e (snd t))).
  Proof.
    intros H. assert (ML : message_lets env code (AApp (fst t) (map AVar (snd t)))) by (constructor; intros a Ia; apply in_map_iff in Ia as (x & <- & _); constructor).
    pose proof (f_equal snd (read_value env qsem mval code Inj Ext _ ML e sc H)) as E. cbn [avalue to_term] in E. rewrite !map_map in E. symmetry. exact E.
  Qed.

  Lemma order_true (o : Squirrel_Model.order) : (forall x, In x (snd (o_t1 o)) \/ In x (snd (o_t2 o)) -> In x (map fst (o_args o))) ->
    (forall v : text -> D M * D M, Forall a_value (map v (snd (o_t1 o))) -> Forall a_value (map v (snd (o_t2 o))) ->
       let t1 := t_app T (fst (o_t1 o)) (map v (snd (o_t1 o))) in let t2 := t_app T (fst (o_t2 o)) (map v (snd (o_t2 o))) in
       match o_kind o with OLt => happening t2 -> not_after t1 t2 | OIncompatible => ~ (happening t1 /\ happening t2) end) ->
    order_meaning env qsem mval (to_order code o) = true.
  Proof.
    intros Cl H. unfold order_meaning. cbn [to_order od_q od_args od_guard od_kind od_t1 od_t2].
    rewrite (over_quantify env code) by (intros a b Hab; rewrite (value_ext M env qsem mval Ext (to_step code (o_t1 o)) REvaluated a b Hab), (value_ext M env qsem mval Ext (to_step code (o_t2 o)) REvaluated a b Hab); reflexivity).
    apply over_true. intros ds Hds.
    set (e := assign (map fst (o_args o)) (stand (sorts_read env code (map snd (o_args o))) ds) (fun x => constant env code x)).
    pose proof (seen_binds env qsem mval code Inj (o_args o) _ _ ds (seen_none env qsem mval code)) as Se. fold e in Se.
    rewrite !(step_read _ _ _ Se).
    assert (V : forall l, (forall x, In x l -> In x (map fst (o_args o))) -> Forall a_value (map e l)).
    { intros l Hl. apply Forall_forall. intros v Iv. apply in_map_iff in Iv as (x & <- & Ix). apply assigned_value; [unfold sorts_read; rewrite !map_length; reflexivity|exact Hds|apply Hl; exact Ix]. }
    specialize (H e (V _ (fun x Hx => Cl x (or_introl Hx))) (V _ (fun x Hx => Cl x (or_intror Hx)))). cbv zeta in H. unfold happening, not_after in H. 
    revert H. destruct (o_kind o); cbn [implb]; intros H.
    - unfold implb. change (app Fhappens ?l) with (fint M Fhappens l).
      destruct (dtest M (fint M Fhappens [snd (t_app T (fst (o_t2 o)) (map e (snd (o_t2 o))))])); [exact (H eq_refl)|reflexivity].
    - apply negb_true_iff, not_true_is_false. intros B. apply andb_true_iff in B. exact (H B).
  Qed.

  Lemma projection_true (f x : string) : In (f, x) [("fst", "x"); ("snd", "y")]%string -> sort_named env (code (str "Message")) = SMessage -> projects T ->
    dtest M (val (to_term code (AQuant QForall [(str "x", str "Message"); (str "y", str "Message")]
             (AInfix OEq [AApp (str f) [AApp (str "pair") [AVar (str "x"); AVar (str "y")]]; AVar (str x)]))) REvaluated (fun _ => None)) = true.
  Proof.
    intros I Ms Pr. set (a := AQuant _ _ _). assert (ML : message_lets env code a) by (repeat (constructor; cbn; intuition; subst)).
    pose proof (read_value env qsem mval code Inj Ext a ML _ _ (seen_none env qsem mval code)) as E. apply (f_equal snd) in E. cbn [by_realm snd] in E. rewrite <- E. clear E.
    unfold a. cbn [avalue reading t_all snd]. rewrite dtest_inj. apply over_true. intros ds Hds. cbn [sorts_read map snd] in Hds |- *. rewrite Ms in Hds |- *.
    inversion Hds as [|s1 d1 ss1 ds1 H1 Hds1]; subst. inversion Hds1 as [|s2 d2 ss2 ds2 H2 Hds2]; subst. inversion Hds2; subst. clear Hds Hds1 Hds2.
    destruct (Pr d1 d2 H1 H2) as [P1 P2]. 
    assert (Q : forall u v, u = v -> dtest M (chain_eq M [u; v]) = true).
    { intros u v ->. unfold chain_eq. rewrite dtest_inj. cbn. rewrite (proj2 (deq_spec M v v) eq_refl). reflexivity. }
    destruct I as [E|[E|[]]]; injection E as <- <-; [apply (Q _ _ P1)|apply (Q _ _ P2)].
  Qed.
End Values.

Section Model.
  Context (wide : text -> bool) (csort : nat -> option text) (names : path -> option jfun) (operators : path -> option jfun) (macros : path -> option jmacro) (d : dump) (code : text -> name).
  Context {M : structure} (env : penv) (qsem : qkind -> list sort -> (list (D M) -> list (D M)) -> D M) (mval : callee -> realm -> list (D M) -> list (D M) -> D M)
    (S : Meaning_Spec.source (D M * D M)).
  Hypothesis Inj : forall a b, code a = code b -> a = b.
  Hypothesis Ext : extensional M qsem.
  Hypothesis AG : agree wide csort names operators macros S (reading env qsem mval code).
  Hypothesis FF : follows_flow d S.
  Hypothesis Prop_ : forall a, is_action d a -> proper a.

  Lemma pair_true n a b (o : Squirrel_Model.order) : is_action d a -> is_action d b -> pair_lemma wide csort n a b = OOk (Some o) -> order_meaning env qsem mval (to_order code o) = true.
  Proof.
    intros Ia Ib H. pose proof (Prop_ _ Ia) as Pa. pose proof (Prop_ _ Ib) as Pb. destruct FF as [Fb Fc].
    destruct (o_kind o) eqn:Ko.
    - destruct (C56_lt (D M * D M) (dinj M true, dinj M true) wide csort n a b o Pa Pb H Ko) as (x & y & Hxy & T1 & T2 & Cl & Sa & _).
      apply (order_true env qsem mval code Inj Ext o Cl). intros v V1 V2. cbv zeta. rewrite Ko, T1, T2. intros Hh.
      destruct (Sa v) as (L1 & L2 & Pf). unfold step_text in *. rewrite <- !(ag_action _ _ _ _ _ _ _ AG) in *.
      apply Fb; try assumption; destruct Hxy as [[-> ->]|[-> ->]]; assumption.
    - destruct (C56_mutex_partial (D M * D M) (dinj M true, dinj M true) wide csort n a b o Pa Pb H Ko) as (T1 & T2 & Cl & Sa & _).
      apply (order_true env qsem mval code Inj Ext o Cl). intros v V1 V2. cbv zeta. rewrite Ko, T1, T2.
      destruct (Sa v) as (L1 & L2 & Pf). unfold step_text. rewrite <- !(ag_action _ _ _ _ _ _ _ AG). apply Fc; assumption.
  Qed.
End Model.

Lemma last_in {A} (l : list (path * A)) p a : last_entry l p a -> In (p, a) l.
Proof. intros (l1 & l2 & -> & _). apply in_app_iff. right. left. reflexivity. Qed.

Lemma dump_sound wide table shuffle fuel d x i l code bs bf kw so es il pfuel p s' sig w systems s :
  (forall A (l : list A), Permutation (shuffle A l) l) -> convert_dump wide table shuffle fuel d = OOk x -> aget x i = Some l ->
  coded code bs bf kw -> read_from bs bf kw (map (to_item code) l) so es il pfuel p s' sig w -> direct_parts (p_qs s') p ->
  StronglySorted lex systems -> nth_error systems i = Some s -> (forall a, is_action d a -> proper a) ->
  exists csort names operators macros,
    (forall n t, csort n = Some t <-> sort_name wide d (table n) t) /\
    (forall q f, names q = Some f <-> last_entry (d_names d) q f) /\
    (forall q f, operators q = Some f <-> exists o, last_entry (d_operators d) q o /\
       f = mkJFun (op_poly o) (op_args o) (op_out o) (match op_def o with Concrete _ _ => true | Abstract _ _ => false end)) /\
    (forall q m, macros q = Some m <-> exists a, last_entry (d_macros d) q a /\
       m = match a with DProtocol => MProtocol | DStructured => MStructured | DState _ _ _ => MState | DGlobal ins _ _ _ => MGlobal ins end) /\
    forall r b K ground crypto skolem, weaker ground -> (forall k, invariant (skolems_of sig (table_of (p_qs s')) w (skolem k)) K) ->
    all_proved sig (table_of (p_qs s')) r K ground w p b crypto skolem ->
    forall (M : structure) qsem mval (S : Meaning_Spec.source (D M * D M)), let env := penv_of (so_env so) in
    K M -> execution sig (table_of (p_qs s')) r w M -> (forall k, Sound_Spec.assumed (skolems_of sig (table_of (p_qs s')) w (skolem k)) M (crypto k)) ->
    unfolds env qsem mval -> extensional M qsem -> respects qsem (p_qs s') -> agree wide csort names operators macros S (reading env qsem mval code) ->
    follows_flow d S -> projects (reading env qsem mval code) ->
    systems_of systems (goal d) -> no_diff_tuple names operators (goal d) -> proper_term wide names operators macros (side s (goal d)) ->
    dtest M (snd (jvalue (global_inputs macros) S (fun y => constant env code (sanitize wide KVariable y)) (side s (goal d)))) = true.
Proof.
  intros sh E H Co RF DP Hsys Hi Pr.
  destruct (C103_contents _ _ _ _ _ _ _ _ sh E H) as (csort & names & operators & macros & Hsort & Hnam & Hop & Hmac & types & ms & ns & os & xs & cs & TT & C & N & F & G & K & SS & O & P & q &
    LT & ST & LM & SC & SG & LN & SN & LO & SF & SK & SP & LX & SST & Cs & SO & Hq & El).
  exists csort, names, operators, macros. do 4 (split; [assumption|]).
  intros r b K0 ground crypto skolem Wk Inv All M qsem mval S env HK HE Ha Unf Ext Resp AG FF Pj Q1 Q2 Q3. pose proof (co_inj _ _ _ _ Co) as Inj.
  assert (Ms : sort_named env (code (str "Message")) = SMessage).
  { unfold sort_named. assert (X : e_sorts env (code (str "Message")) = Some SMessage); [|rewrite X; reflexivity].
    pose proof (rf_builtins _ _ _ _ _ _ _ _ _ _ _ _ RF) as B. pose proof (rf_declared _ _ _ _ _ _ _ _ _ _ _ _ RF) as A. pose proof (C97_declared _ _ _ _ _ _ B A) as De.
    assert (W : well_declared bs bf kw (map (to_item code) l)) by (apply (C97_accepted bs bf kw false); eauto). eapply srt_builtin; eauto. rewrite (co_sorts _ _ _ _ Co). cbn. tauto. }
  pose proof (fun j => other_items wide table d _ _ _ _ _ _ _ _ _ _ _ _ _ _ j ST SC SG SN SF SK SP SST) as Other.
  assert (Mo : model_of env (p_qs s') (map (to_item code) l) M qsem mval).
  { constructor; try assumption.
    - intros o Io. apply in_flat_map in Io as (j & Ij & Io). apply in_map_iff in Ij as (y & <- & Iy).
      destruct y as [| | | | | |o'| |]; cbn [to_item] in Io; try (destruct Io; fail). destruct Io as [<-|[]].
      assert (Io : In (DOrder o') O).
      { specialize (Other (DOrder o')). cbv beta iota in Other. rewrite El, !in_app_iff in Iy. cbn [map In] in Iy.
        decompose [or] Iy; try discriminate; try contradiction; try assumption; exfalso; apply Other; tauto. }
      destruct (section_in _ _ _ _ SO Io) as ([a1 a2] & ys & Ic & [[_ ->]|(o2 & Pl & ->)] & Iy2); [destruct Iy2|]. destruct Iy2 as [E2|[]]. injection E2 as ->.
      cbn [fst snd] in Pl. destruct (couples_in _ _ _ _ Cs Ic) as [I1 I2].
      assert (Act : forall a, In a (filter (fun a => if list_eq_dec ascii_dec (path_text (a_name a)) (str "init") then false else true) (map (fun e => x_action (snd e)) xs)) -> is_action d a).
      { intros a I. apply filter_In in I as [I _]. apply in_map_iff in I as ((pp & xx) & <- & I). cbn [snd]. apply LX in I. pose proof (last_in _ _ _ I) as J. apply in_map_iff in J as (z & [= <- <-] & _).
        exists z. split; [reflexivity|exact I]. }
      exact (pair_true wide csort names operators macros d code env qsem mval S Inj Ext AG FF Pr fuel a1 a2 o' (Act _ I1) (Act _ I2) Pl).
    - intros t It. apply in_flat_map in It as (j & Ij & It). apply in_map_iff in Ij as (y & <- & Iy).
      destruct y as [| | | |a| | | |]; cbn [to_item] in It; try (destruct It; fail). destruct It as [<-|[]].
      assert (Ia : In (DAssert a) (map (fun c => DAssert (AQuant QForall [(str "x", str "Message"); (str "y", str "Message")]
             (AInfix OEq [AApp (str (fst c)) [AApp (str "pair") [AVar (str "x"); AVar (str "y")]]; AVar (str (snd c))])))
            [("fst", "x"); ("snd", "y")]%string)).
      { specialize (Other (DAssert a)). cbv beta iota in Other. rewrite El, !in_app_iff in Iy.
        assert (NO : ~ In (DAssert a) O).
        { intros Io. destruct (section_in _ _ _ _ SO Io) as (c & ys & _ & [[_ ->]|(o2 & _ & ->)] & Iy2); [destruct Iy2|destruct Iy2 as [E2|[]]; discriminate E2]. }
        destruct Iy as [I|[I|[I|[I|[I|[I|[I|[I|[I|[I|[I|[I|I]]]]]]]]]]]]; try exact I; exfalso; try (apply Other; tauto); try (exact (NO I)).
        all: cbn in I; decompose [or] I; try discriminate; contradiction. }
      apply in_map_iff in Ia as ((f & z) & [= <-] & If). cbn [fst snd]. exact (projection_true env qsem mval code Inj Ext f z If Ms Pj). }
  destruct (term_value wide csort names operators macros i systems s Hsys Hi env qsem mval code S AG (goal d) q Q1 Q2 Q3 Hq) as (ML & V).
  assert (Iq : In (IQuery (to_term code q)) (map (to_item code) l)).
  { apply in_map_iff. exists (DQuery q). split; [reflexivity|]. rewrite El, !in_app_iff. do 12 right. left. reflexivity. }
  rewrite <- (V _ (fun y => constant env code y)) by reflexivity.
  rewrite (read_value env qsem mval code Inj Ext _ ML _ _ (seen_none env qsem mval code)). cbn [by_realm snd].
  eapply source_sound; [exact RF|exact DP|exact Wk|exact Inv|exact All|exact HK|exact HE|exact Ha|exact Mo|].
  left. apply in_flat_map. eexists. split; [exact Iq|left; reflexivity].
Qed.
