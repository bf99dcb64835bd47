(** C106: the meaning of a converted Squirrel file. *)
From Coq Require Import List Arith Bool Lia String Ascii Permutation Sorted.
From Verif Require Import Syntax_Model Traversal_Spec Semantics_Spec Sort_Model Order_Model Macro_Model Parser_Model Parser_Spec Parser_Props Source_Model Source_Spec Source_Problem_Spec Source_Proofs Source_Props Source_Closed_Props Semantics_Proofs
  Source_Problem_Props Smt_Model Squirrel_Model Squirrel_Spec Squirrel_Proofs Utils_Model Utils_Spec Convert_Model Convert_Spec Meaning_Spec Meaning_Props
  Dump_Model Dump_Spec Dump_Proofs Dump_Props Dump_Source_Model Dump_Source_Spec Dump_Source_Proofs Dump_Symbols_Proofs Dump_Source_Props
  Dump_Meaning_Spec Dump_Meaning_Proofs Dump_Step_Proofs.
Import ListNotations.
Local Open Scope list_scope.

(** The query of the problem has the value of the query of the Squirrel file, and the steps of the problem are its actions, with the values of their
    conditions and messages, whenever the symbols of Squirrel mean what CryptoVampire takes them to mean. Partial: for terms whose macro calls do not
    capture ([gentle_item]), that respect the arities ([counted_item]), and see [proper_step] and [proper_term]. *)
Theorem C106_meaning_partial : forall wide table shuffle fuel d x i l code bs bf kw so es il pfuel p s' systems s,
  (forall A (l : list A), Permutation (shuffle A l) l) -> convert_dump wide table shuffle fuel d = OOk x -> aget x i = Some l ->
  coded code bs bf kw -> spelled code bf -> declare_all bs bf kw false (map (to_item code) l) = DOk so ->
  Forall (gentle_item (penv_of (so_env so))) (map (to_item code) l) -> Forall (counted_item (penv_of (so_env so))) (map (to_item code) l) ->
  Permutation es (d_funs (so_env so)) -> parse_parts so es il pfuel (mkPst [] [] []) = Done p s' ->
  StronglySorted lex systems -> nth_error systems i = Some s ->
  exists csort names operators macros,
    (forall n t, csort n = Some t <-> sort_name wide d (table n) t) /\
    (forall q f, names q = Some f <-> last_entry (d_names d) q f) /\
    (forall q f, operators q = Some f <-> exists o, last_entry (d_operators d) q o /\
       f = mkJFun (op_poly o) (op_args o) (op_out o) (match op_def o with Concrete _ _ => true | Abstract _ _ => false end)) /\
    (forall q m, macros q = Some m <-> exists a, last_entry (d_macros d) q a /\
       m = match a with DProtocol => MProtocol | DStructured => MStructured | DState _ _ _ => MState | DGlobal ins _ _ _ => MGlobal ins end) /\
    forall (M : structure) qsem mval (S : Meaning_Spec.source (D M * D M)), let env := penv_of (so_env so) in
    unfolds env qsem mval -> extensional M qsem -> respects qsem (p_qs s') -> agree wide csort names operators macros S (reading env qsem mval code) ->
    (let query := JQuant JForAll (map JVar (d_variables d))
       (JApp (JFun (mkPath [] (str "=>")))
          [fold_left (fun acc t => JApp (JFun (mkPath [] (str "&&"))) [acc; t]) (d_hypotheses d) (JApp (JFun (mkPath [] (str "true"))) []); d_query d]) in
     systems_of systems query -> no_diff_tuple names operators query -> proper_term wide names operators macros (side s query) ->
     forall rho : Semantics_Spec.env M,
       eval (pa_query p) rho = snd (jvalue (global_inputs macros) S (fun y => constant env code (sanitize wide KVariable y)) (side s query))) /\
    (forall a, last_entry (map (fun x => (a_name (x_action x), x)) (d_actions d)) (a_name (x_action a)) a ->
       exists q, In q (pa_steps p) /\
         (exists fc, e_functions env (code (sanitize wide KStep (path_text (a_name (x_action a))))) = Some fc /\ fc_sym fc = Fstep (ps_fun q)) /\
         Forall2 (fun v w => exists t, sort_name wide d (table (j_sort v)) t /\ e_sorts env (code t) = Some (vsort w)) (a_indices (x_action a)) (ps_vars q) /\
         (proper_step wide table d names operators macros systems s a (x_output a) ->
            step_means wide d macros env code S s a (ps_vars q) (x_output a) (ps_msg q)) /\
         (proper_step wide table d names operators macros systems s a (x_cond a) ->
            step_means wide d macros env code S s a (ps_vars q) (x_cond a) (ps_cond q))) /\
    (forall q, In q (pa_steps p) -> exists fc, fc_sym fc = Fstep (ps_fun q) /\
       ((exists a, last_entry (map (fun x => (a_name (x_action x), x)) (d_actions d)) (a_name (x_action a)) a /\
           e_functions env (code (sanitize wide KStep (path_text (a_name (x_action a))))) = Some fc) \/
        e_functions env (code (str "init")) = Some fc)).
Proof.
  intros wide table shuffle fuel d x i l code bs bf kw so es il pfuel p s' systems s sh E H Co Sp A GI CI Pe Pp Hsys Hi.
  pose proof (coded_builtins _ _ _ _ Co) as B. pose proof (C97_declared _ _ _ _ _ _ B A) as De.
  assert (W : well_declared bs bf kw (map (to_item code) l)) by (apply (C97_accepted bs bf kw false); eauto).
  destruct (C102_problem_partial bs bf kw false _ so es il pfuel p s' B A GI Pe Pp) as ([(a0 & as' & Perm & Ea0 & Fst) _ _ _ _ (tq & Eq & (_ & Rq)) _ _] & _).
  assert (Sh : e_shadowing (penv_of (so_env so)) = false).
  { destruct (accepted_only bs bf kw false _ B so A) as (_ & Es & _). rewrite Es. cbn [full_source so_env penv_of e_shadowing]. unfold full_env. rewrite env_all_eq. reflexivity. }
  destruct (C103_contents _ _ _ _ _ _ _ _ sh E H) as (csort & names & operators & macros & Hsort & Hnam & Hop & Hmac & types & ms & ns & os & xs & cs & TT & C & N & F & G & K & SS & O & P & q &
    LT & ST & LM & SC & SG & LN & SN & LO & SF & SK & SP & LX & SST & _ & SO & Hq & El).
  exists csort, names, operators, macros. do 4 (split; [assumption|]).
  intros M qsem mval S env Unf Ext Resp AG. pose proof (co_inj _ _ _ _ Co) as Inj.
  split; [|split].
  - intros query Q1 Q2 Q3 rho.
    destruct (term_value wide csort names operators macros i systems s Hsys Hi env qsem mval code S AG query q Q1 Q2 Q3 Hq) as (ML & V).
    assert (Iq : In (IQuery (to_term code q)) (map (to_item code) l)).
    { apply in_map_iff. exists (DQuery q). split; [reflexivity|]. rewrite El, !in_app_iff. do 12 right. left. reflexivity. }
    assert (tq = to_term code q) as ->.
    { assert (I : In (to_term code q) (queries_of (map (to_item code) l))) by (apply in_flat_map; eexists; split; [exact Iq|left; reflexivity]).
      rewrite Eq in I. destruct I as [->|[]]. reflexivity. }
    rewrite Forall_forall in CI. rewrite (Rq Sh (CI _ Iq) M qsem mval Unf Ext Resp rho).
    rewrite <- (V _ (fun y => constant env code y)) by reflexivity.
    rewrite (read_value env qsem mval code Inj Ext _ ML _ _ (seen_none env qsem mval code)). reflexivity.
  - intros a La. apply LX in La. destruct (section_has _ _ _ _ SST La) as (ys & R & Inc). unfold step_item in R; cbv zeta in R; cbn [fst snd] in R.
    destruct R as (_ & args & cond & message & updates & Fargs & Pc & Pm & _ & ->).
    set (sa := mkStepAst (code (sanitize wide KStep (path_text (a_name (x_action a))))) (map (code_pair code) args) (to_term code cond) (to_term code message) (map (to_asg code) updates)).
    assert (Is : In (IStep sa) (map (to_item code) l)).
    { apply in_map_iff. eexists. split; [|rewrite El, !in_app_iff; do 8 right; left; apply Inc; left; reflexivity]. reflexivity. }
    assert (Ia : In sa (a0 :: as')).
    { apply (Permutation_in _ (Permutation_sym Perm)). apply in_flat_map. exists (IStep sa). split; [|left; reflexivity].
      unfold completed. destruct (in_dec Nat.eq_dec 6 (names_of (map (to_item code) l))); [exact Is|apply in_app_iff; left; exact Is]. }
    destruct (F2_in _ _ _ Fst _ Ia) as (q0 & Iq & j & st & ((fc & Ef & Es & Est) & En & Eso & Emsg & Econd) & [R1 R2 R3 R4 R5]).
    exists q0. split; [exact Iq|]. split; [exists fc; split; [exact Ef|congruence]|].
    assert (Names : map fst (st_args st) = map (fun v => code (sanitize wide KVariable (j_name v))) (a_indices (x_action a))).
    { rewrite En. cbn [sa sa_params]. rewrite map_map. cbn [code_pair fst]. clear - Fargs. induction Fargs as [|v b vs args (Hn & _) F IH]; cbn; [reflexivity|]. rewrite Hn, IH. reflexivity. }
    rewrite Forall_forall in CI. pose proof (CI _ Is) as (Cc & Cm). cbn [sa sa_cond sa_msg] in Cc, Cm, Emsg, Econd.
    assert (W5 : code (str "in") = 5) by (pose proof (sp_words _ _ Sp) as X; cbn [map] in X; congruence).
    assert (Di : forall r, denotes env (code (str "input")) r = Some (mkFc (Fmacro MInput) (SgFixed [SStep] SMessage) None None)).
    { intros r. pose proof (sp_words _ _ Sp) as X. cbn [map] in X. injection X as X0 X1 X2 X3 X4 X5.
      assert (NE : forall t k, code (str t) = k -> str t <> str "input" -> code (str "input") <> k) by (intros t k <- Nt Et; apply Inj in Et; congruence).
      unfold denotes. destruct (in_dec Nat.eq_dec (code (str "input")) [n_true; n_True]) as [J|_].
      { exfalso. destruct J as [J|[J|[]]]; symmetry in J; revert J; [apply (NE "true"%string 0 X0)|apply (NE "True"%string 1 X1)]; discriminate. }
      destruct (in_dec Nat.eq_dec (code (str "input")) [n_false; n_False]) as [J|_].
      { exfalso. destruct J as [J|[J|[]]]; symmetry in J; revert J; [apply (NE "false"%string 2 X2)|apply (NE "False"%string 3 X3)]; discriminate. }
      destruct (Nat.eq_dec (code (str "input")) n_not) as [J|_]; [exfalso; revert J; apply (NE "not"%string 4 X4); discriminate|].
      exact (de_builtin _ _ _ _ De _ _ (sp_input _ _ Sp)). }
    assert (Ms : sort_named env (code (str "Message")) = SMessage).
    { unfold sort_named. assert (X : e_sorts env (code (str "Message")) = Some SMessage); [|rewrite X; reflexivity].
      eapply srt_builtin; eauto. rewrite (co_sorts _ _ _ _ Co). cbn. tauto. }
    assert (Nd : forall t, proper_step wide table d names operators macros systems s a t -> NoDup (map fst (st_args st) ++ [5])).
    { intros t Pr. rewrite Names. apply (step_nodup wide table d names operators macros systems s code Inj a t Pr); [|exact W5].
      assert (Hpr : exists vs, step_inputs d a vs) by (destruct Pm as (vs & ? & ? & Hvs & _); eauto). exact Hpr. }
    split; [|split].
    + apply F2_from.
      * rewrite <- (map_length vsort (ps_vars q0)), R2, map_length, <- (map_length fst (st_args st)), Names, map_length. reflexivity.
      * intros k v w Hv Hw. pose proof (map_nth_error vsort k _ Hw) as X. rewrite R2 in X. destruct (F2_nth' _ _ _ Fargs k v Hv) as (b & Hb & (_ & Hs)).
        exists (snd b). split; [exact Hs|]. pose proof (map_nth_error (e_sorts env) k _ (map_nth_error snd k _ (map_nth_error (code_pair code) k _ Hb))) as Y. cbn [sa sa_params] in Eso.
        fold env in Eso. rewrite Eso in Y. pose proof (map_nth_error Some k _ X) as Z. rewrite Z in Y. exact (eq_sym (f_equal (fun o => match o with Some a => a | None => None end) Y)).
    + intros Pr. destruct (step_value wide table d csort names operators macros i systems s Hsys Hi Hsort Hmac env qsem mval code Inj Ext S AG a (x_output a) message j st (ps_vars q0) Pr Pm Names R2 W5 Di Ms)
        as (vs & cs0 & K1 & K2 & K3 & K4). exists vs, cs0. split; [exact K1|]. split; [exact K2|]. split; [exact K3|]. intros rho. destruct (K4 rho) as (K5 & K6). split; [exact K5|].
      intros e He. rewrite <- (K6 e He). rewrite Emsg in R4. exact (ri_means _ _ _ _ _ _ _ _ _ R4 Sh Cm (Nd _ Pr) M qsem mval Unf Ext Resp rho).
    + intros Pr. destruct (step_value wide table d csort names operators macros i systems s Hsys Hi Hsort Hmac env qsem mval code Inj Ext S AG a (x_cond a) cond j st (ps_vars q0) Pr Pc Names R2 W5 Di Ms)
        as (vs & cs0 & K1 & K2 & K3 & K4). exists vs, cs0. split; [exact K1|]. split; [exact K2|]. split; [exact K3|]. intros rho. destruct (K4 rho) as (K5 & K6). split; [exact K5|].
      intros e He. rewrite <- (K6 e He). rewrite Econd in R5. exact (ri_means _ _ _ _ _ _ _ _ _ R5 Sh Cc (Nd _ Pr) M qsem mval Unf Ext Resp rho).
  - intros q0 Iq. destruct (F2_in' _ _ _ Fst _ Iq) as (sa & Isa & j & st & ((fc & Ef & Es & Est) & _) & [R1 _ _ _ _]).
    exists fc. split; [congruence|]. apply (Permutation_in _ Perm) in Isa. apply in_flat_map in Isa as (it & Iit & Isa).
    destruct it; try (destruct Isa; fail). destruct Isa as [->|[]].
    assert (Dec : In (IStep sa) (map (to_item code) l) \/ sa_name sa = 6).
    { unfold completed in Iit. destruct (in_dec Nat.eq_dec 6 (names_of (map (to_item code) l))); [left; exact Iit|].
      apply in_app_iff in Iit as [I|[I|[]]]; [left; exact I|right]. unfold default_init in I. injection I as <-. reflexivity. }
    destruct Dec as [I|E6]; [left|right; rewrite (co_init _ _ _ _ Co), <- E6; exact Ef].
    apply in_map_iff in I as (dt & Edt & Idt). destruct dt as [| | | | |n args c m us| | |]; try discriminate Edt. injection Edt as <-. cbn [sa_name] in Ef.
    assert (Iss : In (DStep n args c m us) SS).
    { assert (NT : forall {X} (R : X -> list ditem -> Prop) lx m0, section R lx m0 -> (forall y ys, R y ys -> forall dt, In dt ys -> match dt with DStep _ _ _ _ _ => False | _ => True end) ->
                ~ In (DStep n args c m us) m0).
      { intros X R lx m0 Sx Hx Ix. destruct (section_in _ _ _ _ Sx Ix) as (y & ys & _ & Ry & Iy). exact (Hx y ys Ry _ Iy). }
      rewrite El in Idt. rewrite !in_app_iff in Idt. destruct Idt as [J|[J|[J|[J|[J|[J|[J|[J|[J|[J|[J|[J|J]]]]]]]]]]]]; [exfalso|exfalso|exfalso|exfalso|exfalso|exfalso|exfalso|exfalso|exact J|exfalso|exfalso|exfalso|exfalso].
      - revert J. eapply NT; [exact ST|]. intros y ys [(_ & ->)|(_ & ->)] dt Idt; [destruct Idt as [<-|[]]; exact I|destruct Idt].
      - destruct J as [J|[]]; discriminate J.
      - revert J. eapply NT; [exact SC|]. intros [y0 y] ys R dt Idt. unfold cell_item in R. cbn [snd] in R. destruct y; try (subst ys; destruct Idt; fail). destruct R as (? & ? & _ & _ & ->). destruct Idt as [<-|[]]. exact I.
      - revert J. eapply NT; [exact SN|]. intros [y0 y] ys R dt Idt. unfold name_item in R. cbn [snd] in R. destruct (f_poly y); [subst ys; destruct Idt|]. destruct R as (? & ? & _ & _ & ->). destruct Idt as [<-|[]]. exact I.
      - revert J. eapply NT; [exact SF|]. intros [y0 y] ys R dt Idt. unfold operator_item in R. cbn [snd] in R. destruct (op_def y); [|subst ys; destruct Idt].
        destruct R as [(_ & ->)|[(_ & ->)|(_ & _ & ? & ? & ? & _ & _ & _ & ->)]]; [destruct Idt|destruct Idt|]. destruct Idt as [<-|[]]. exact I.
      - revert J. eapply NT; [exact SG|]. intros [y0 y] ys R dt Idt. unfold global_item in R. cbn [snd] in R. destruct y; try (subst ys; destruct Idt; fail). destruct R as (? & ? & _ & _ & ->). destruct Idt as [<-|[]]. exact I.
      - revert J. eapply NT; [exact SK|]. intros [y0 y] ys R dt Idt. unfold defined_item in R. cbn [snd] in R. destruct (op_def y); [subst ys; destruct Idt|]. destruct R as (? & ? & _ & _ & ->). destruct Idt as [<-|[]]. exact I.
      - destruct J as [J|[J|[]]]; discriminate J.
      - revert J. eapply NT; [exact SO|]. intros y ys [(_ & ->)|(o & _ & ->)] dt Idt; [destruct Idt|]. destruct Idt as [<-|[]]. exact I.
      - destruct J as [J|[J|[J|[]]]]; discriminate J.
      - revert J. eapply NT; [exact SP|]. intros [y0 y] ys R dt Idt. unfold crypto_item in R. cbn [fst snd] in R. destruct (op_def y) as [[] ?|]; try (subst ys; destruct Idt; fail).
        + subst ys. destruct Idt as [<-|[<-|[]]]; exact I.
        + destruct R as (? & ? & _ & ->). destruct Idt as [<-|[]]. exact I.
        + destruct R as (? & ? & _ & ->). destruct Idt as [<-|[]]. exact I.
      - destruct J as [J|[]]; discriminate J. }
    destruct (section_in _ _ _ _ SST Iss) as ([p0 a] & ys & Ia & R & Iy). unfold step_item in R; cbv zeta in R; cbn [fst snd] in R. destruct R as (_ & args' & cond & message & updates & _ & _ & _ & _ & ->).
    destruct Iy as [Ey|[]]. injection Ey as <- _ _ _ _. apply LX in Ia. exists a. split; [|exact Ef].
    assert (p0 = a_name (x_action a)) as <-; [|exact Ia].
    destruct Ia as (l1 & l2 & Ei & _). assert (In (p0, a) (map (fun a => (a_name (x_action a), a)) (d_actions d))) as I' by (rewrite Ei; apply in_elt).
    apply in_map_iff in I'. destruct I' as (m' & Em & _). injection Em as <- <-. reflexivity.
Qed.
Print Assumptions C106_meaning_partial.

(** A reader with two systems. Its action [R(i)] checks whether the global macro [g] is the hash of the cell [s(i)] and answers, on the left, with its
    input, and on the right with the hash of its input. *)
Definition answerer : dump := mkDump
  (JDiff [(str "left", ffn "=" [JVar (mkJVar (str "m") 0); JName (pth "k") [JVar vj]]); (str "right", ffn "true" [])])
  [ffn "happens" [JAction (pth "R") [JVar vj]]] [mkJVar (str "m") 0; vj]
  [mkJAction (mkAction (pth "init") [] [] 0) [] (ffn "true" []) [mkUpdate (pth "s") [JVar vj] (JName (pth "k") [JVar vj])] (ffn "empty" []) [];
   mkJAction (mkAction (pth "R") [mkItem (0, [vi]) (0, [])] [vi] 1) []
     (ffn "=" [JMacro (pth "g") [JVar vi] (JAction (pth "R") [JVar vi]); ffn "h" [msg_of_cell [JVar vi]; JName (pth "k") [JVar vi]]])
     [mkUpdate (pth "s") [JVar vi] (ffn "h" [msg_of_cell [JVar vi]; JName (pth "k") [JVar vi]])]
     (JDiff [(str "left", JVar vin); (str "right", ffn "h" [JVar vin; JName (pth "k") [JVar vi]])]) [pth "g"]]
  [(pth "k", mkJFun false [TPlain 1] (TPlain 0) false)]
  [(pth "h", mkOperator false [TPlain 0; TPlain 0] (TPlain 0) (Abstract AHash [])); (pth "pair", mkOperator false [TPlain 0; TPlain 0] (TPlain 0) (Abstract AOther []));
   (pth "fst", mkOperator false [TPlain 0] (TPlain 0) (Abstract AOther [])); (pth "snd", mkOperator false [TPlain 0] (TPlain 0) (Abstract AOther []))]
  [(pth "s", DState (TPlain 0) [vi] (ffn "empty" [])); (pth "input", DStructured); (pth "g", DGlobal [vin; mkJVar (str "$dummy") 0] [vi] vt (ffn "h" [JVar vin; JVar vin]))]
  [(pth "T", [KFinite; KFixed])].
Definition an_code : text -> name := cv_code reader_names.
Definition an_file : list Source_Model.item := map (to_item an_code) (alternative 1 answerer).
Definition an_read : dres Source_Model.source := declare_all (cv_sorts an_code) (cv_functions an_code) (cv_keywords an_code) false an_file.
Definition an_denv : denv := match an_read with DOk so => so_env so | _ => new_env [] [] [] false end.
Definition an_env : penv := penv_of an_denv.
Definition an_systems : list text := [str "left"; str "right"].
Definition an_R : jaction := nth 1 (d_actions answerer) (mkJAction (mkAction (pth "init") [] [] 0) [] (ffn "true" []) [] (ffn "empty" []) []).

(** All subterms. *)
Fixpoint subs (n : nat) (t : jterm) : list jterm := t :: match n with 0 => [] | S n' => flat_map (subs n') (parts t) end.
Fixpoint deep (n : nat) (t : jterm) : bool := match n with 0 => false | S n' => forallb (deep n') (parts t) end.
Lemma subs_all n : forall t u, deep n t = true -> sub u t -> In u (subs n t).
Proof.
  induction n as [|n IH]; intros t u H Hs; [discriminate H|]. destruct Hs as [|t c Hc Hs]; [left; reflexivity|]. right. cbn in H. rewrite forallb_forall in H.
  apply in_flat_map. exists c. split; [exact Hc|]. apply IH; auto.
Qed.
Lemma all_subs (P : jterm -> Prop) n t : deep n t = true -> Forall P (subs n t) -> forall u, sub u t -> P u.
Proof. intros H F u Hu. rewrite Forall_forall in F. apply F, subs_all; assumption. Qed.
Definition an_query : jterm := JQuant JForAll (map JVar (d_variables answerer))
  (JApp (JFun (pth "=>")) [fold_left (fun acc t => JApp (JFun (pth "&&")) [acc; t]) (d_hypotheses answerer) (ffn "true" []); d_query answerer]).
Lemma an_not_tuple p : ~ one_tuple (operators answerer p).
Proof. intros (g & ts & E & F). apply operators_spec in E as (o & L & ->). apply last_in in L. cbn in L. destruct L as [L|[L|[L|[L|[]]]]]; injection L as <- <-; discriminate F. Qed.
Lemma an_not_tuple' p : ~ one_tuple (names answerer p).
Proof. intros (g & ts & E & F). apply names_spec in E. apply last_in in E. cbn in E. destruct E as [L|[]]; injection L as <- <-; discriminate F. Qed.
Lemma an_macro p m : macros answerer p = Some m -> m <> MProtocol.
Proof. intros E. apply macros_spec in E as (o & L & ->). apply last_in in L. cbn in L. destruct L as [L|[L|[L|[]]]]; injection L as <- <-; discriminate. Qed.
Definition an_vars (t : jterm) : list text :=
  flat_map (fun u => match u with JVar v => [j_name v] | JMacro p _ _ => match global_inputs (macros answerer) p with Some l => l | None => [] end | _ => [] end) (subs 20 t).
Lemma an_variable t x : deep 20 t = true -> variable_of (macros answerer) t x -> In x (an_vars t).
Proof.
  intros D [(v & H & ->)|(p & a & ts & l & H & E & I)]; apply in_flat_map; eexists; (split; [apply subs_all; [exact D|exact H]|]); [left; reflexivity|]. cbn. rewrite E. exact I.
Qed.
Definition an_projs (t : jterm) : bool := forallb (fun u => match u with JProj _ _ => false | _ => true end) (subs 20 t).
Definition apart (l : list text) : bool := forallb (fun x => forallb (fun y => if list_eq_dec ascii_dec (sanitize all_ascii KVariable x) (sanitize all_ascii KVariable y) then if list_eq_dec ascii_dec x y then true else false else true) l) l.
Lemma apart_all l x y : apart l = true -> In x l -> In y l -> sanitize all_ascii KVariable x = sanitize all_ascii KVariable y -> x = y.
Proof.
  intros H Hx Hy E. unfold apart in H. rewrite forallb_forall in H. specialize (H _ Hx). cbv beta in H. rewrite forallb_forall in H. specialize (H _ Hy). cbv beta in H.
  destruct (list_eq_dec ascii_dec (sanitize all_ascii KVariable x) (sanitize all_ascii KVariable y)); [|contradiction]. destruct (list_eq_dec ascii_dec x y); [assumption|discriminate].
Qed.
Lemma an_proper t : deep 20 t = true -> an_projs t = true -> apart (an_vars t) = true -> proper_term all_ascii (names answerer) (operators answerer) (macros answerer) t.
Proof.
  intros D P A. constructor.
  - intros p args _ H. destruct (an_not_tuple _ H).
  - intros p args _ H. destruct (an_not_tuple' _ H).
  - intros i b H. unfold an_projs in P. rewrite forallb_forall in P. discriminate (P _ (subs_all _ _ _ D H)).
  - intros p args ts _ H. destruct (an_macro _ _ H eq_refl).
  - intros x y Hx Hy. apply (apart_all (an_vars t)); auto using an_variable.
Qed.
Definition diffs (t : jterm) : bool := forallb (fun u => match u with
  | JDiff [(a, _); (b, _)] => if list_eq_dec (list_eq_dec ascii_dec) [a; b] an_systems then true else false
  | JDiff _ => false | _ => true end) (subs 20 t).
Lemma an_diffs t : deep 20 t = true -> diffs t = true -> systems_of an_systems t.
Proof.
  intros D H l Hl. unfold diffs in H. rewrite forallb_forall in H. specialize (H _ (subs_all _ _ _ D Hl)). cbv beta iota in H.
  destruct l as [|[a u] [|[b v] [|]]]; try discriminate H. destruct (list_eq_dec (list_eq_dec ascii_dec) [a; b] an_systems) as [E|]; [|discriminate H]. cbn. rewrite E. apply Permutation_refl.
Qed.
Lemma an_no_tuple t : no_diff_tuple (names answerer) (operators answerer) t.
Proof. split; intros p l args _ H; [destruct (an_not_tuple _ H)|destruct (an_not_tuple' _ H)]. Qed.
Lemma an_inputs vs : step_inputs answerer an_R vs -> vs = [vin].
Proof.
  intros [(l1 & p & l2 & m & E & N & L & ->)|(H & _)].
  - cbn in E. destruct l1 as [|a [|]]; try discriminate E. injection E as <- <-. apply find_last in L. vm_compute in L. injection L as <-. reflexivity.
  - exfalso. apply (H (pth "g") (DGlobal [vin; mkJVar (str "$dummy") 0] [vi] vt (ffn "h" [JVar vin; JVar vin]))); [left; reflexivity|]. apply find_last. reflexivity.
Qed.
Lemma an_step t : deep 20 t = true -> diffs t = true -> let u := side (str "right") t in deep 20 u = true -> an_projs u = true -> apart ([str "i"; str "in1"] ++ an_vars u) = true -> apart (an_vars u) = true ->
  proper_step all_ascii sorts answerer (names answerer) (operators answerer) (macros answerer) an_systems (str "right") an_R t.
Proof.
  intros D1 F u D2 P A A'. constructor.
  - apply an_diffs; assumption.
  - apply an_no_tuple.
  - apply an_proper; assumption.
  - intros vs Hv. apply an_inputs in Hv. subst vs. split; [repeat constructor; cbn; intuition discriminate|].
    assert (X : forall y, In y (map j_name (a_indices (x_action an_R) ++ [vin])) \/ variable_of (macros answerer) (side (str "right") t) y -> In y ([str "i"; str "in1"] ++ an_vars u)).
    { intros y [H|H]; apply in_app_iff; [left; exact H|right; apply an_variable; assumption]. }
    intros y z Hy Hz. apply (apart_all ([str "i"; str "in1"] ++ an_vars u)); auto.
  - intros i v [<-|[]] [<-|[]]. left; reflexivity.
  - intros vs v Hv I. apply an_inputs in Hv. subst vs. destruct I as [<-|[]]. split; [constructor|]. exists DStructured. split; [apply find_last; reflexivity|right; reflexivity].
Qed.
Definition an_literal : list Source_Model.item := Eval vm_compute in an_file.
Lemma an_literal_eq : an_file = an_literal.
Proof. vm_compute. reflexivity. Qed.
Ltac each := let a := fresh "a" in let H := fresh "H" in intros a H; repeat (destruct H as [<-|H]; [|]); try (destruct H; fail).
Ltac node := first [apply ge_if|apply ge_find|apply ge_quant|apply ge_var|apply ge_app; each|apply ge_infix; each].
Ltac count := unfold counted; cbn [everywhere counted_node List.length]; repeat match goal with |- True => exact I | |- 2 = 2 => reflexivity | |- _ /\ _ => split end; try (let r := fresh "r" in let fc := fresh "fc" in let n := fresh "n" in let H := fresh "H" in
  intros r fc n H; destruct r; vm_compute in H; try discriminate H; injection H as <-; intros [= <-]; cbn; lia).
Ltac callm := apply ge_mac; [reflexivity|each; repeat node|let mc := fresh "mc" in let H := fresh "H" in intros mc H; vm_compute in H; injection H as <-; cbn [mc_args mc_body];
  split; [repeat constructor; cbn; intuition discriminate|]; split; [count|]; split; [cbn [length]; repeat node|left; cbn; lia]].
Ltac lets := repeat (apply lb_let; [repeat (apply apl_var || (apply apl_app; each))|cbn; repeat split; discriminate|vm_compute; auto|]); apply lb_gentle; repeat (node || callm).
Ltac gitem := cbn [gentle_item sa_cond sa_msg sa_asgs sa_params length]; first [exact I|
  split; [lets|split; [lets|repeat (apply Forall_cons; [split; [each|]; repeat node|]); apply Forall_nil]]|repeat (node || callm)|
  split; [repeat node|split; [repeat node|let g := fresh "g" in intros g [= <-]; repeat node]]].
Lemma an_gentle : Forall (gentle_item an_env) an_file.
Proof. rewrite an_literal_eq. unfold an_literal. repeat (apply Forall_cons; [gitem|]). apply Forall_nil. Qed.
Lemma an_counted : Forall (counted_item an_env) an_file.
Proof. rewrite an_literal_eq. unfold an_literal. repeat (apply Forall_cons; [cbn [counted_item sa_cond sa_msg]; match goal with |- True => exact I | |- _ /\ _ => split; count | |- _ => count end|]). apply Forall_nil. Qed.
Definition an_rank (c : callee) : nat := match c with CMac _ => 0 | CStep _ _ => 1 end.
Definition an_macros : list (name * _) := Eval vm_compute in Source_Model.d_macros an_denv.
Definition an_funs : list (name * entry) := Eval vm_compute in d_funs an_denv.
Lemma penv_macros d m : e_macros (penv_of d) m = lookup m (Source_Model.d_macros d).
Proof. reflexivity. Qed.
Lemma penv_functions d f : e_functions (penv_of d) f = option_map entry_cache (lookup f (d_funs d)).
Proof. reflexivity. Qed.
Lemma an_layered : layered an_env an_rank.
Proof.
  assert (Em : Source_Model.d_macros an_denv = an_macros) by (vm_compute; reflexivity). assert (Ef : d_funs an_denv = an_funs) by (vm_compute; reflexivity).
  split.
  - intros m mc H. unfold an_env in H. rewrite penv_macros, Em in H. apply lookup_in in H. unfold an_macros in H. repeat (destruct H as [H|H]; [injection H as <- <-; cbn; tauto|]); destruct H.
  - intros b f fc st H. unfold an_env in H. rewrite penv_functions, Ef in H. destruct (lookup f an_funs) as [e|] eqn:E; [|discriminate H]. injection H as <-. apply lookup_in in E.
    assert (A : Forall (fun e => forall st, fc_step (entry_cache (snd e)) = Some st -> forall b : bool, calls_only (fun c' => an_rank c' < 1) (if b then st_msg st else st_cond st)) an_funs).
    { unfold an_funs. repeat (apply Forall_cons; [cbn [snd entry_cache fc_step]; intros st' [= <-]; intros [|]; cbn; repeat split; lia|]). apply Forall_nil. }
    rewrite Forall_forall in A. intros Hs. exact (A _ E _ Hs b).
Qed.
Definition an_M : structure := finM 3 (fun f ds => match ds with [a; b] => if Nat.eqb a b then 0 else 1 | _ => 0 end).
Example C106_example :
  (exists x, convert_dump all_ascii sorts (@in_order) 10 answerer = OOk x /\ aget x 1 = Some (alternative 1 answerer)) /\
  coded an_code (cv_sorts an_code) (cv_functions an_code) (cv_keywords an_code) /\ spelled an_code (cv_functions an_code) /\
  Forall (gentle_item an_env) an_file /\ Forall (counted_item an_env) an_file /\ StronglySorted lex an_systems /\
  (systems_of an_systems an_query /\ proper_term all_ascii (names answerer) (operators answerer) (macros answerer) (side (str "right") an_query)) /\
  proper_step all_ascii sorts answerer (names answerer) (operators answerer) (macros answerer) an_systems (str "right") an_R (x_output an_R) /\
  proper_step all_ascii sorts answerer (names answerer) (operators answerer) (macros answerer) an_systems (str "right") an_R (x_cond an_R) /\
  (exists so p s', an_read = DOk so /\ penv_of (so_env so) = an_env /\
    parse_parts so (d_funs (so_env so)) false 20 (mkPst [] [] []) = Done p s' /\ p_qs s' = [] /\
    map ps_msg (pa_steps p) = [FFun (Fuser 0) []; FFun (Fuser 8) [FFun (Fmacro MInput) [FFun (Fstep 12) []]; FFun (Fcast SMessage) [FFun (Fname 7) [FVar (mkVar 0 (SIndex 7))]]]]) /\
  exists mval, let qsem := fun _ _ _ => 0 in unfolds (M:=an_M) an_env qsem mval /\ extensional an_M qsem /\ respects qsem [] /\
    agree all_ascii (Dump_Model.csort all_ascii sorts answerer) (names answerer) (operators answerer) (macros answerer)
      (induced all_ascii (Dump_Model.csort all_ascii sorts answerer) (names answerer) (operators answerer) (reading an_env qsem mval an_code) (fun _ => [])) (reading an_env qsem mval an_code).
Proof.
  split; [apply has_alternative; vm_compute; reflexivity|]. split; [apply cv_coded|]. split.
  { split; [reflexivity|]. right; right; right; right; left. reflexivity. }
  split; [|split; [|split; [|split; [|split; [|split; [|split]]]]]].
  - exact an_gentle.
  - exact an_counted.
  - constructor; [repeat constructor|]. constructor; [apply lex_head; cbn; lia|constructor].
  - split; [apply an_diffs; vm_compute; reflexivity|apply an_proper; vm_compute; reflexivity].
  - apply an_step; vm_compute; reflexivity.
  - apply an_step; vm_compute; reflexivity.
  - destruct (read_parts an_read false 20 (fun so p s => p_qs s = [] /\
      map ps_msg (pa_steps p) = [FFun (Fuser 0) []; FFun (Fuser 8) [FFun (Fmacro MInput) [FFun (Fstep 12) []]; FFun (Fcast SMessage) [FFun (Fname 7) [FVar (mkVar 0 (SIndex 7))]]]]))
      as (so & p & s' & H1 & H2 & H3 & H4); [vm_compute; repeat split; reflexivity|]. exists so, p, s'. unfold an_env, an_denv. rewrite H1. auto 6.
  - destruct (Parser_Props.C14_calls_have_a_meaning an_env an_rank an_layered an_M (fun _ _ _ => 0)) as (mval & U & _).
    + intros k ss F G _. reflexivity.
    + exists mval. split; [exact U|]. split; [intros k ss F G _; reflexivity|]. split; [intros [|] q H; discriminate H|]. apply induced_agree.
      * intros p ds H. destruct (an_not_tuple _ H).
      * intros p ds H. destruct (an_not_tuple' _ H).
      * intros p g E F. apply operators_spec in E as (o & L & ->). apply last_in in L. cbn in L. destruct L as [L|[L|[L|[L|[]]]]]; injection L as <- <-; discriminate F.
      * intros ss p q s t d E E'. split; [reflexivity|]. split; cbn [t_all t_some reading]; f_equal; f_equal; apply over_ext; intros ds _; rewrite E; reflexivity.
Qed.

(** Files that are converted and whose declarations are accepted, but that are rejected: the uses of a defined operator are converted to applications,
    though its definition is converted to a macro; operators with type variables are not declared. Both are fine when not used. *)
Definition with_op (o : joperator) (q : jterm) : dump :=
  mkDump q [] [] [mkJAction (mkAction (pth "init") [] [] 0) [] (ffn "true" []) [] (ffn "empty" []) []] []
    [(pth "pair", mkOperator false [TPlain 0; TPlain 0] (TPlain 0) (Abstract AOther [])); (pth "fst", fn 0 0); (pth "snd", fn 0 0); (pth "twice", o)] [] [].
Definition defined : joperator := mkOperator false [TPlain 0] (TPlain 0) (Concrete [mkJVar (str "a") 0] (ffn "pair" [JVar (mkJVar (str "a") 0); JVar (mkJVar (str "a") 0)])).
Definition used : jterm := ffn "=" [ffn "twice" [ffn "empty" []]; ffn "pair" [ffn "empty" []; ffn "empty" []]].
Definition using_read (d : dump) : dres Source_Model.source :=
  declare_all (cv_sorts an_code) (cv_functions an_code) (cv_keywords an_code) false (map (to_item an_code) (alternative 0 d)).
Theorem C106_refuted :
  let converted d := exists x, convert_dump all_ascii sorts (@in_order) 10 d = OOk x /\ aget x 0 = Some (alternative 0 d) in
  let parsed d := exists so p s', using_read d = DOk so /\ parse_parts so (d_funs (so_env so)) false 20 (mkPst [] [] []) = Done p s' in
  let rejected d := exists so, using_read d = DOk so /\ parse_parts so (d_funs (so_env so)) false 20 (mkPst [] [] []) = Parser_Model.Error in
  (forall o, In o [defined; mkOperator true [TPlain 0] (TPlain 0) (Abstract AOther [])] ->
     (converted (with_op o (ffn "true" [])) /\ parsed (with_op o (ffn "true" []))) /\ (converted (with_op o used) /\ rejected (with_op o used))) /\
  (converted (with_op (fn 0 0) used) /\ parsed (with_op (fn 0 0) used)).
Proof.
  assert (R : forall r : dres Source_Model.source, match r with DOk so => match parse_parts so (d_funs (so_env so)) false 20 (mkPst [] [] []) with Parser_Model.Error => True | _ => False end | _ => False end ->
    exists so, r = DOk so /\ parse_parts so (d_funs (so_env so)) false 20 (mkPst [] [] []) = Parser_Model.Error).
  { intros [| |so]; try contradiction. destruct (parse_parts _ _ _ _ _) eqn:E; try contradiction. eauto. }
  assert (P : forall r : dres Source_Model.source, match r with DOk so => match parse_parts so (d_funs (so_env so)) false 20 (mkPst [] [] []) with Done _ _ => True | _ => False end | _ => False end ->
    exists so p s', r = DOk so /\ parse_parts so (d_funs (so_env so)) false 20 (mkPst [] [] []) = Done p s').
  { intros [| |so]; try contradiction. destruct (parse_parts _ _ _ _ _) eqn:E; try contradiction. eauto. }
  intros converted parsed rejected. split; [intros o [<-|[<-|[]]]; split|]; (split; [apply has_alternative; vm_compute; reflexivity|first [apply P|apply R]; vm_compute; exact I]).
Qed.
Print Assumptions C106_refuted.
