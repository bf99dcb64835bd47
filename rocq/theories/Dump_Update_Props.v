(** C107: the updates of a converted Squirrel file. *)
From Coq Require Import List Arith Bool Lia String Ascii Permutation Sorted.
From Verif Require Import Syntax_Model Traversal_Spec Semantics_Spec Sort_Model Order_Model Macro_Model Parser_Model Parser_Spec Parser_Props Source_Model Source_Spec Source_Problem_Spec Source_Proofs Source_Props Source_Closed_Props Semantics_Proofs
  Source_Problem_Props Smt_Model Squirrel_Model Squirrel_Spec Squirrel_Proofs Utils_Model Utils_Spec Convert_Model Convert_Spec Meaning_Spec Meaning_Props
  Dump_Model Dump_Spec Dump_Proofs Dump_Props Dump_Source_Model Dump_Source_Spec Dump_Source_Proofs Dump_Symbols_Proofs Dump_Source_Props
  Dump_Meaning_Spec Dump_Meaning_Proofs Dump_Step_Proofs Dump_Meaning_Props Dump_Update_Spec Dump_Update_Proofs.
Import ListNotations.
Local Open Scope list_scope.

(** The cells of the problem are the state macros of the Squirrel file, and the assignments to a cell are exactly the updates of it by the actions: for all
    values of the variables of the arguments that are no indices of the action, the cell at the values of the arguments gets the value of the body.
    Partial: for terms whose macro calls do not capture ([gentle_item]) and that respect the arities ([counted_updates]), see [proper_update], and arguments
    beyond the parameters of the cell are dropped. *)
Theorem C107_updates_partial : forall wide table shuffle fuel d x i l code bs bf kw so es il pfuel p s' systems s,
  (forall A (l : list A), Permutation (shuffle A l) l) -> convert_dump wide table shuffle fuel d = OOk x -> aget x i = Some l ->
  coded code bs bf kw -> spelled code bf -> declare_all bs bf kw false (map (to_item code) l) = DOk so ->
  Forall (gentle_item (penv_of (so_env so))) (map (to_item code) l) -> Forall (counted_updates (penv_of (so_env so))) (map (to_item code) l) ->
  Permutation es (d_funs (so_env so)) -> parse_parts so es il pfuel (mkPst [] [] []) = Done p s' ->
  StronglySorted lex systems -> nth_error systems i = Some s ->
  exists csort names operators macros,
    (forall n t, csort n = Some t <-> sort_name wide d (table n) t) /\
    (forall q f, names q = Some f <-> last_entry (d_names d) q f) /\
    (forall q f, operators q = Some f <-> exists o, last_entry (d_operators d) q o /\
       f = mkJFun (op_poly o) (op_args o) (op_out o) (match op_def o with Concrete _ _ => true | Abstract _ _ => false end)) /\
    (forall q m, macros q = Some m <-> exists a, last_entry (d_macros d) q a /\
       m = match a with DProtocol => MProtocol | DStructured => MStructured | DState _ _ _ => MState | DGlobal ins _ _ _ => MGlobal ins end) /\
    let env := penv_of (so_env so) in
    let sorts_of vs ss := Forall2 (same_sort wide table d env code) vs ss in
    (forall q so vs t, last_entry (d_macros d) q (DState so vs t) -> exists m, In m (pa_cells p) /\ is_cell wide env code q m /\ sorts_of vs (ce_args m)) /\
    (forall a u, last_entry (map (fun x => (a_name (x_action x), x)) (d_actions d)) (a_name (x_action a)) a -> In u (x_updates a) ->
       exists q so vs t, last_entry (d_macros d) q (DState so vs t) /\ sanitize wide KMacro (path_text (u_symb u)) = sanitize wide KMacro (path_text q)) /\
    exists xs, listing (map (fun x => (a_name (x_action x), x)) (d_actions d)) xs /\
    forall m, In m (pa_cells p) -> exists q so vs t ws, last_entry (d_macros d) q (DState so vs t) /\ is_cell wide env code q m /\ sorts_of vs (ce_args m) /\
      Permutation ws (updates_of wide q xs) /\
      Forall2 (is_update wide table d names operators macros csort env (p_qs s') code (pa_steps p) (ce_args m) systems s) ws (ce_asgs m).
Proof.
  intros wide table shuffle fuel d x i l code bs bf kw so es il pfuel p s' systems s sh E H Co Sp A GI CI Pe Pp Hsys Hi.
  pose proof (coded_builtins _ _ _ _ Co) as B. pose proof (co_inj _ _ _ _ Co) as Inj.
  destruct (C102_problem_partial bs bf kw false _ so es il pfuel p s' B A GI Pe Pp) as ([(a0 & as' & Perm & Ea0 & Fst) (cs0 & Pcs & Fcs) Tg _ _ _ _ _] & _).
  assert (Sh : e_shadowing (penv_of (so_env so)) = false).
  { destruct (accepted_only bs bf kw false _ B so A) as (_ & Es & _). rewrite Es. cbn [full_source so_env penv_of e_shadowing]. unfold full_env. rewrite env_all_eq. reflexivity. }
  destruct (C103_contents _ _ _ _ _ _ _ _ sh E H) as (csort & names & operators & macros & Hsort & Hnam & Hop & Hmac & types & ms & ns & os & xs & cs & TT & C & N & F & G & K & SS & O & P & q &
    LT & ST & LM & SC & SG & LN & SN & LO & SF & SK & SP & LX & SST & _ & SO & Hq & El).
  assert (W5 : code (str "in") = 5) by (pose proof (sp_words _ _ Sp) as X; cbn [map] in X; congruence).
  assert (Steps : steps_of (map (to_item code) l) = steps_of (map (to_item code) SS)).
  { rewrite El, !map_app, !steps_app.
    rewrite (no_steps code TT) by (eapply both_left, only_in; [exact ST|intros ? ?; apply type_plain]).
    rewrite (no_steps code C) by (eapply only_in; [exact SC|intros ? ?; apply cell_plain]).
    rewrite (no_steps code N) by (eapply both_left, only_in; [exact SN|intros ? ?; apply name_plain]).
    rewrite (no_steps code F) by (eapply both_left, only_in; [exact SF|intros ? ?; apply operator_plain]).
    rewrite (no_steps code G) by (eapply both_left, only_in; [exact SG|intros ? ?; apply global_plain]).
    rewrite (no_steps code K) by (eapply both_left, only_in; [exact SK|intros ? ?; apply defined_plain]).
    rewrite (no_steps code O) by (eapply both_left, only_in; [exact SO|intros ? ?; apply (order_plain (fun c => pair_lemma wide csort fuel (fst c) (snd c)))]).
    rewrite (no_steps code P) by (eapply both_left, only_in; [exact SP|intros ? ?; apply crypto_plain]).
    cbn. rewrite app_nil_r. reflexivity. }
  assert (Cells : cells_of (map (to_item code) l) = cells_of (map (to_item code) C)).
  { rewrite El, !map_app, !cells_app.
    rewrite (no_cells code TT) by (eapply both_right, only_in; [exact ST|intros ? ?; apply type_plain]).
    rewrite (no_cells code N) by (eapply both_right, only_in; [exact SN|intros ? ?; apply name_plain]).
    rewrite (no_cells code F) by (eapply both_right, only_in; [exact SF|intros ? ?; apply operator_plain]).
    rewrite (no_cells code G) by (eapply both_right, only_in; [exact SG|intros ? ?; apply global_plain]).
    rewrite (no_cells code K) by (eapply both_right, only_in; [exact SK|intros ? ?; apply defined_plain]).
    rewrite (no_cells code SS) by (eapply only_in; [exact SST|intros ? ?; apply step_plain]).
    rewrite (no_cells code O) by (eapply both_right, only_in; [exact SO|intros ? ?; apply (order_plain (fun c => pair_lemma wide csort fuel (fst c) (snd c)))]).
    rewrite (no_cells code P) by (eapply both_right, only_in; [exact SP|intros ? ?; apply crypto_plain]).
    cbn. rewrite app_nil_r. reflexivity. }
  exists csort, names, operators, macros. do 4 (split; [assumption|]). intros env sorts_of.
  (* The cells of the file and the state macros. *)
  assert (From : forall n args, In (n, args) (cells_of (map (to_item code) l)) -> exists q so vs t args', last_entry (d_macros d) q (DState so vs t) /\
    n = code (sanitize wide KMacro (path_text q)) /\ args = map code args' /\ Forall2 (fun v a => sort_name wide d (table (j_sort v)) a) vs args').
  { intros n args I. rewrite Cells in I. apply in_flat_map in I as (it & Iit & I). apply in_map_iff in Iit as (dt & <- & Idt).
    destruct (section_in _ _ _ _ SC Idt) as ([q0 y] & ys & Iy & R & Idy). unfold cell_item in R. cbn [fst snd] in R. destruct y as [| |so0 vs t|]; try (subst ys; destruct Idy; fail).
    destruct R as (out & args' & _ & Fa & ->). destruct Idy as [<-|[]]. cbn [to_item] in I. destruct I as [I|[]]. injection I as <- <-.
    exists q0, so0, vs, t, args'. split; [apply LM; exact Iy|]. auto. }
  assert (To : forall q so vs t, last_entry (d_macros d) q (DState so vs t) -> exists args', In (code (sanitize wide KMacro (path_text q)), map code args') (cells_of (map (to_item code) l)) /\
    Forall2 (fun v a => sort_name wide d (table (j_sort v)) a) vs args').
  { intros q0 so0 vs t L. apply LM in L. destruct (section_has _ _ _ _ SC L) as (ys & R & Inc). unfold cell_item in R. cbn [fst snd] in R. destruct R as (out & args' & _ & Fa & ->).
    exists args'. split; [|exact Fa]. rewrite Cells. apply in_flat_map. exists (to_item code (DCell (sanitize wide KMacro (path_text q0)) args' out)). split; [apply in_map, Inc; left; reflexivity|]. left. reflexivity. }
  assert (So : forall vs args' ss, Forall2 (fun v a => sort_name wide d (table (j_sort v)) a) vs args' -> map (e_sorts env) (map code args') = map Some ss -> sorts_of vs ss).
  { intros vs args' ss Fa. revert ss. induction Fa as [|v a vs args' Hv Fa IH]; intros [|s0 ss] Em; try discriminate Em; [constructor|]. cbn [map] in Em. injection Em as E1 E2.
    constructor; [exists a; split; [exact Hv|exact E1]|apply IH; exact E2]. }
  split; [|split].
  - intros q0 so0 vs t L. destruct (To _ _ _ _ L) as (args' & Ic & Fa). apply (Permutation_in _ (Permutation_sym Pcs)) in Ic.
    destruct (F2_in _ _ _ Fcs _ Ic) as (m & Im & [(fc & Ef & Es) Hs _]). cbn [fst snd] in Ef, Hs. exists m. split; [exact Im|]. split; [exists fc; split; assumption|]. exact (So _ _ _ Fa Hs).
  - intros a u La Iu. apply LX in La. destruct (section_has _ _ _ _ SST La) as (ys & R & Inc). unfold step_item in R; cbv zeta in R; cbn [fst snd] in R.
    destruct R as (_ & args & cond & message & updates & Fargs & _ & _ & Fu & ->).
    destruct (F2_in _ _ _ Fu _ Iu) as (g & Ig & (Eg & _)).
    assert (Is : In (to_item code (DStep (sanitize wide KStep (path_text (a_name (x_action a)))) args cond message updates)) (map (to_item code) l)).
    { apply in_map. rewrite El, !in_app_iff. do 8 right. left. apply Inc. left. reflexivity. }
    destruct (Tg _ (to_asg code g) Is (in_map (to_asg code) _ _ Ig)) as (cargs & Ic). destruct (From _ _ Ic) as (q0 & so0 & vs & t & args' & L & En & _ & _).
    cbn [to_asg aa_cell] in En. apply Inj in En. exists q0, so0, vs, t. split; [exact L|]. congruence.
  - exists xs. split; [exact LX|]. intros m Im. destruct (F2_in' _ _ _ Fcs _ Im) as ([n cargs] & Ic & [(fc & Ef & Es) Hs (ws0 & Pws & Fws)]). cbn [fst snd] in Ef, Hs, Pws.
    apply (Permutation_in _ Pcs) in Ic. destruct (From _ _ Ic) as (q0 & so0 & vs & t & args' & L & -> & -> & Fa).
    pose proof (writes_section wide table d code Inj (term_of wide csort names operators macros i) xs SS q0 SST) as Fw.
    assert (Ew : writes (completed (map (to_item code) l)) (code (sanitize wide KMacro (path_text q0))) = writes (map (to_item code) SS) (code (sanitize wide KMacro (path_text q0)))).
    { rewrite writes_completed. unfold writes. rewrite Steps. reflexivity. }
    rewrite <- Ew in Fw. apply F2_swap in Fw. destruct (Permutation_Forall2 (Permutation_sym Pws) Fw) as (ws & Pw & Fw'). apply F2_swap in Fw'.
    exists q0, so0, vs, t, ws. split; [exact L|]. split; [exists fc; split; assumption|]. split; [exact (So _ _ _ Fa Hs)|]. split; [apply Permutation_sym; exact Pw|].
    assert (Cw : Forall (fun g => counted env (aa_term (snd g)) /\ forall t, In t (aa_args (snd g)) -> counted env t) ws0).
    { apply Forall_forall. intros [sa g] I. apply (Permutation_in _ Pws) in I. rewrite writes_completed in I. unfold writes in I. apply in_flat_map in I as (sa' & Isa & I).
      apply in_flat_map in I as (g' & Ig & I). destruct (Nat.eq_dec (aa_cell g') (code (sanitize wide KMacro (path_text q0)))); [|destruct I]. destruct I as [I|[]]. injection I as -> ->.
      apply in_flat_map in Isa as (it & Iit & Isa). destruct it; try (destruct Isa; fail). destruct Isa as [->|[]]. rewrite Forall_forall in CI. exact (CI _ Iit _ Ig). }
    clear Pws Pw Fw Ew. revert Cw Fws. generalize (ce_asgs m). induction Fw' as [|w g ws ws0 Hw Fw IH]; intros ys Cw Fy; inversion Fy as [|g' y gs ys' Hy Fy']; subst; [constructor|].
    inversion Cw as [|g' gs Cg Cgs]; subst. constructor; [|apply IH; assumption]. destruct Hy as (j & st & p0 & Ip & St & Sr & Ar).
    eapply assigned_means; eauto. intros v Ev. rewrite <- W5 in Ev. apply Inj in Ev. revert Ev. apply variable_in.
Qed.
Print Assumptions C107_updates_partial.

(** In [answerer], [init] updates [s(j)] to [k(j)] for all [j], and [R(i)] updates [s(i)] to the hash of its value before. *)
Definition an_init : jaction := nth 0 (d_actions answerer) an_R.
Lemma an_counted_updates : Forall (counted_updates an_env) an_file.
Proof.
  rewrite an_literal_eq. unfold an_literal.
  repeat (apply Forall_cons; [cbn [counted_updates sa_asgs]; match goal with |- True => exact I | |- _ => each; cbn [aa_term aa_args]; (split; [count|each; count]) end|]). apply Forall_nil.
Qed.
Definition occurring (t : jterm) : list text := flat_map (fun u => match u with JVar v => [j_name v] | _ => [] end) (subs 20 t).
Lemma occurs_sub v t : occurs v t -> sub (JVar v) t.
Proof. induction 1; [apply sub_refl|..]; (eapply sub_step; [|eassumption]); cbn in *; rewrite ?in_app_iff; cbn; tauto. Qed.
Lemma an_occurs v t : deep 20 t = true -> occurs v t -> In (j_name v) (occurring t).
Proof. intros D H. apply occurs_sub in H. apply in_flat_map. eexists. split; [apply subs_all; [exact D|exact H]|left; reflexivity]. Qed.
Lemma an_update x u : forallb (fun t => deep 20 t && diffs t && deep 20 (side (str "right") t) && an_projs (side (str "right") t) && apart (an_vars (side (str "right") t))) (u_body u :: u_args u) = true ->
  NoDup (map j_name (a_indices (x_action x))) ->
  apart (map j_name (a_indices (x_action x)) ++ flat_map occurring (u_args u) ++ flat_map (fun t => an_vars (side (str "right") t)) (u_body u :: u_args u)) = true ->
  proper_update all_ascii (names answerer) (operators answerer) (macros answerer) an_systems (str "right") x u.
Proof.
  intros F N A. rewrite forallb_forall in F.
  assert (F' : forall t, In t (u_body u :: u_args u) -> deep 20 t = true /\ diffs t = true /\ deep 20 (side (str "right") t) = true /\ an_projs (side (str "right") t) = true /\ apart (an_vars (side (str "right") t)) = true).
  { intros t It. specialize (F t It). rewrite !andb_true_iff in F. tauto. }
  constructor.
  - intros t It. destruct (F' t It) as (A1 & A2 & A3 & A4 & A5). split; [apply an_diffs; assumption|]. split; [apply an_no_tuple|]. apply an_proper; assumption.
  - exact N.
  - intros used. assert (X : forall y, used y -> In y (map j_name (a_indices (x_action x)) ++ flat_map occurring (u_args u) ++ flat_map (fun t => an_vars (side (str "right") t)) (u_body u :: u_args u))).
    { intros y [H|[(v & ((t & It & Oc) & _) & ->)|(t & It & Hv)]]; rewrite !in_app_iff; [left; exact H|right; left|right; right]; apply in_flat_map; exists t; (split; [exact It|]).
      - apply an_occurs; [|exact Oc]. destruct (F' t (or_intror It)) as (D & _). exact D.
      - apply an_variable; [|exact Hv]. apply F'. exact It. }
    intros y z Hy Hz. apply (apart_all _ y z A); auto.
Qed.
Definition an_cell_parsed (p : Source_Model.parts) : Prop :=
  let i := mkVar 0 (SIndex 7) in let j := mkVar 1 (SIndex 7) in let k v := FFun (Fcast SMessage) [FFun (Fname 7) [FVar v]] in
  map (fun m => (ce_args m, map (fun y => (ps_vars (as_step y), as_fresh y, as_args y, as_content y)) (ce_asgs m))) (pa_cells p) =
    [([SIndex 7],
      [([], [j], [FVar j], k j);
       ([i], [], [FVar i], FFun (Fuser 8) [FFun (Fcell 6) [FVar i; FFun Fpred [FFun (Fstep 13) [FVar i]]]; k i])])].
Example C107_example :
  (exists x, convert_dump all_ascii sorts (@in_order) 10 answerer = OOk x /\ aget x 1 = Some (alternative 1 answerer)) /\
  coded an_code (cv_sorts an_code) (cv_functions an_code) (cv_keywords an_code) /\ spelled an_code (cv_functions an_code) /\
  Forall (gentle_item an_env) an_file /\ Forall (counted_updates an_env) an_file /\ StronglySorted lex an_systems /\
  (forall a u, In (a, u) [(an_init, mkUpdate (pth "s") [JVar vj] (JName (pth "k") [JVar vj])); (an_R, mkUpdate (pth "s") [JVar vi] (ffn "h" [msg_of_cell [JVar vi]; JName (pth "k") [JVar vi]]))] ->
     In a (d_actions answerer) /\ In u (x_updates a) /\ proper_update all_ascii (names answerer) (operators answerer) (macros answerer) an_systems (str "right") a u) /\
  (exists so p s', an_read = DOk so /\ penv_of (so_env so) = an_env /\ parse_parts so (d_funs (so_env so)) false 20 (mkPst [] [] []) = Done p s' /\ p_qs s' = [] /\
    an_cell_parsed p) /\
  exists mval, let qsem := fun _ _ _ => 0 in unfolds (M:=an_M) an_env qsem mval /\ extensional an_M qsem /\ respects qsem [] /\
    agree all_ascii (Dump_Model.csort all_ascii sorts answerer) (names answerer) (operators answerer) (macros answerer)
      (induced all_ascii (Dump_Model.csort all_ascii sorts answerer) (names answerer) (operators answerer) (reading an_env qsem mval an_code) (fun _ => [])) (reading an_env qsem mval an_code).
Proof.
  destruct C106_example as (E1 & E2 & E3 & E4 & _ & E6 & _ & _ & _ & _ & E7).
  split; [exact E1|]. split; [exact E2|]. split; [exact E3|]. split; [exact E4|]. split; [exact an_counted_updates|]. split; [exact E6|]. split; [|split; [|exact E7]].
  - intros a u [H|[H|[]]]; injection H as <- <-; (split; [cbn; tauto|]); (split; [left; reflexivity|]); apply an_update; try (vm_compute; reflexivity); cbn; repeat constructor; intros [].
  - destruct (read_parts an_read false 20 (fun so p s => p_qs s = [] /\ an_cell_parsed p))
      as (so & p & s' & H1 & H2 & H3 & H4); [vm_compute; repeat split; reflexivity|]. exists so, p, s'. unfold an_env, an_denv. rewrite H1. auto 6.
Qed.
Print Assumptions C107_example.

(** Files that are converted and whose declarations are accepted, but that are rejected: a variable that occurs twice in the arguments of an update is
    universal twice; the input variable of a global macro is unbound in updates, though not in conditions and messages. *)
Definition updating (u : list jupdate) (output : jterm) : dump :=
  mkDump (ffn "true" []) [] []
    [mkJAction (mkAction (pth "init") [] [] 0) [] (ffn "true" []) [] (ffn "empty" []) [];
     mkJAction (mkAction (pth "R") [mkItem (0, [vi]) (0, [])] [vi] 1) [] (ffn "true" []) u output [pth "g"]]
    []
    [(pth "pair", mkOperator false [TPlain 0; TPlain 0] (TPlain 0) (Abstract AOther [])); (pth "fst", fn 0 0); (pth "snd", fn 0 0)]
    [(pth "s", DState (TPlain 0) [vi; vj] (ffn "empty" [])); (pth "input", DStructured); (pth "g", DGlobal [vin] [vi] vt (ffn "pair" [JVar vin; JVar vin]))] [].
Definition input_of_R : jterm := JMacro (pth "input") [] (JAction (pth "R") [JVar vi]).
Theorem C107_refuted :
  let converted d := exists x, convert_dump all_ascii sorts (@in_order) 10 d = OOk x /\ aget x 0 = Some (alternative 0 d) in
  let parsed d := exists so p s', using_read d = DOk so /\ parse_parts so (d_funs (so_env so)) false 20 (mkPst [] [] []) = Done p s' in
  let rejected d := exists so, using_read d = DOk so /\ parse_parts so (d_funs (so_env so)) false 20 (mkPst [] [] []) = Parser_Model.Error in
  (let d j := updating [mkUpdate (pth "s") [JVar j; JVar vj] (ffn "empty" [])] (ffn "empty" []) in
   (converted (d vj) /\ rejected (d vj)) /\ (converted (d vi) /\ parsed (d vi))) /\
  (let d t := updating [mkUpdate (pth "s") [JVar vi; JVar vi] t] (JVar vin) in
   (converted (d (JVar vin)) /\ rejected (d (JVar vin))) /\ (converted (d input_of_R) /\ parsed (d input_of_R))).
Proof.
  assert (R : forall r : dres Source_Model.source, match r with DOk so => match parse_parts so (d_funs (so_env so)) false 20 (mkPst [] [] []) with Parser_Model.Error => True | _ => False end | _ => False end ->
    exists so, r = DOk so /\ parse_parts so (d_funs (so_env so)) false 20 (mkPst [] [] []) = Parser_Model.Error).
  { intros [| |so]; try contradiction. destruct (parse_parts _ _ _ _ _) eqn:E; try contradiction. eauto. }
  assert (P : forall r : dres Source_Model.source, match r with DOk so => match parse_parts so (d_funs (so_env so)) false 20 (mkPst [] [] []) with Done _ _ => True | _ => False end | _ => False end ->
    exists so p s', r = DOk so /\ parse_parts so (d_funs (so_env so)) false 20 (mkPst [] [] []) = Done p s').
  { intros [| |so]; try contradiction. destruct (parse_parts _ _ _ _ _) eqn:E; try contradiction. eauto. }
  intros converted parsed rejected. split; intros d; split; (split; [apply has_alternative; vm_compute; reflexivity|first [apply P|apply R]; vm_compute; exact I]).
Qed.
Print Assumptions C107_refuted.
