(** C38-C40: the SMT output. *)
From Coq Require Import List Arith Bool String Ascii Lia.
From Verif Require Import Syntax_Model Semantics_Spec Semantics_Proofs Search_Model Problem_Model Problem_Spec Problem_Proofs Problem_Props Propagate_Model Smt_Model Smt_Spec Smt_Proofs.
Import ListNotations.

(** ** C38 *)

(** A formula whose connectives have their number of arguments is translated, to a formula with the same value everywhere. *)
Theorem C38_translation : forall (kind : nat -> skind) (f : formula), arities f ->
  exists s, smt_of kind f = Some s /\ forall (M : structure) (rho : env M), seval s rho = eval f rho.
Proof. exact translate. Qed.
Print Assumptions C38_translation.

(** Not vacuous, with all kinds of functions. *)
Definition x1 : var := mkVar 1 SMessage.
Definition x2 : var := mkVar 2 (SIndex 0).
Definition c38 : formula :=
  FQ QForall [x1; x2]
    (FFun (Fb CImplies) [FFun (Fb CAnd) [FFun (Fuser 0) [FVar x1]; FFun (Fb CNot) [FFun (Fb CEq) [FVar x1; FFun (Fname 0) [FVar x2]]]; FFun (Fb COr) []];
                         FFun (Fsubterm 0) [FFun Fite [FFun (Fb CTrue) []; FVar x1; FFun (Feval SMessage) [FVar x1]]; FVar x1]]).
Example C38_example : arities c38 /\
  smt_of (fun _ => KVampire 0) c38 =
    Some (SmForall [x1; x2]
      (SmImplies (SmAnd [SmFun (Fuser 0) [SmVar x1]; SmNot (SmEq [SmVar x1; SmFun (Fname 0) [SmVar x2]]); SmOr []])
                 (SmSubterm (Fsubterm 0) (SmIte SmTrue (SmVar x1) (SmFun (Feval SMessage) [SmVar x1])) (SmVar x1)))).
Proof. split; [|reflexivity]. repeat (constructor || (cbn; reflexivity)). Qed.

(** The hypothesis is needed: of a negation of two formulas only the last is kept, and an implication of three stops the program. *)
Theorem C38_arity_refuted : forall kind : nat -> skind, exists a b c : formula,
  smt_of kind (FFun (Fb CNot) [a; b]) = smt_of kind (FFun (Fb CNot) [b]) /\ smt_of kind (FFun (Fb CNot) [b]) <> None /\
  smt_of kind (FFun (Fb CImplies) [a; b; c]) = None.
Proof. intros kind. exists (FVar x1), (FVar x2), (FVar x1). repeat split. discriminate. Qed.
Print Assumptions C38_arity_refuted.

(** ** C39 *)

(** What is printed for a closed formula with legal names is one s-expression, and reading it gives the formula back, up to the names of
    bound variables and the abbreviations of the printer. *)
Theorem C39_read_back : forall (fname : fsym -> text) (sname : sort -> text) (fn : text -> option fsym) (so : text -> option sort)
  (sort_of : nat -> sort) (evaluated : bool) (s : smt),
  legal fname sname fn so sort_of evaluated [] s ->
  exists t s', print fname sname evaluated s = Some t /\ levels [] (norm evaluated s) = Some s' /\ read fn so t = Some s'.
Proof. exact print_read. Qed.
Print Assumptions C39_read_back.

(** Hence formulas that print the same are the same, up to the same. *)
Theorem C39_injective : forall (fname : fsym -> text) (sname : sort -> text) (fn : text -> option fsym) (so : text -> option sort)
  (sort_of : nat -> sort) (evaluated : bool) (s1 s2 : smt),
  legal fname sname fn so sort_of evaluated [] s1 -> legal fname sname fn so sort_of evaluated [] s2 ->
  print fname sname evaluated s1 = print fname sname evaluated s2 ->
  levels [] (norm evaluated s1) = levels [] (norm evaluated s2).
Proof.
  intros fname sname fn so sort_of ev s1 s2 L1 L2 E.
  destruct (print_read fname sname fn so sort_of ev s1 L1) as (t1 & r1 & A1 & B1 & C1).
  destruct (print_read fname sname fn so sort_of ev s2 L2) as (t2 & r2 & A2 & B2 & C2). congruence.
Qed.
Print Assumptions C39_injective.

(** And what is read means what was printed. *)
Theorem C39_meaning : forall (fname : fsym -> text) (sname : sort -> text) (fn : text -> option fsym) (so : text -> option sort)
  (sort_of : nat -> sort) (evaluated : bool) (s : smt) (M : structure),
  legal fname sname fn so sort_of evaluated [] s -> harmless M evaluated s ->
  exists t s', print fname sname evaluated s = Some t /\ read fn so t = Some s' /\ forall rho rho' : env M, seval s' rho' = seval s rho.
Proof.
  intros fname sname fn so sort_of ev s M L H. destruct (print_read fname sname fn so sort_of ev s L) as (t & s' & E1 & E2 & E3).
  exists t, s'. split; [assumption|]. split; [assumption|]. intros rho rho'. rewrite <- (norm_meaning M ev s H rho).
  apply (levels_meaning M _ [] _ _ _ E2). intros v n Hn. discriminate.
Qed.
Print Assumptions C39_meaning.

(** Names for the examples. *)
Definition ex_fname (f : fsym) : text :=
  match f with Fuser 0 => str "f" | Fuser _ => str "c" | Fname _ => str "n" | Fsubterm _ => str "sub$1" | Feval _ => str "eval$msg" | _ => str "other" end.
Definition ex_sname (s : sort) : text := match s with SMessage => str "Message" | SIndex _ => str "Session" | SStep => str "Time" | _ => str "Bool" end.
Definition ex_fn (w : text) : option fsym :=
  if text_eqb w (str "f") then Some (Fuser 0) else if text_eqb w (str "c") then Some (Fuser 1) else if text_eqb w (str "n") then Some (Fname 0)
  else if text_eqb w (str "sub$1") then Some (Fsubterm 0) else if text_eqb w (str "eval$msg") then Some (Feval SMessage) else None.
Definition ex_so (w : text) : option sort :=
  if text_eqb w (str "Message") then Some SMessage else if text_eqb w (str "Session") then Some (SIndex 0) else None.
Definition ex_sort (i : nat) : sort := if i =? 1 then SMessage else SIndex 0.
Definition c39 : smt :=
  SmForall [x1; x2]
    (SmImplies (SmAnd [SmFun (Fuser 0) [SmVar x1; SmFun (Fuser 1) []]; SmNot (SmEq [SmVar x1; SmFun (Fname 0) [SmVar x2]]); SmOr []; SmEq [SmVar x1]])
               (SmSubterm (Fsubterm 0) (SmIte SmTrue (SmVar x1) (SmFun (Feval SMessage) [SmVar x1])) (SmExists [x1] (SmVar x1)))).

Lemma ex_var_text v w : var_text ex_sname v = Some w -> match w with _ :: c :: _ => c = "X"%char | _ => False end.
Proof. unfold var_text. destruct v as [i [] ]; cbn; intros [= <-]; reflexivity. Qed.
Ltac ex_legal_fun := split; [cbn; repeat split|split; [reflexivity|intros ? ?%ex_var_text; cbn in *; try contradiction; discriminate]].
Example C39_example :
  print ex_fname ex_sname false c39 = Some (str
    "(forall ((MX1 Message) (SX2 Session) ) (=> (and (f MX1 c  ) (not (= MX1 (n SX2 ) )) false true ) (subterm sub$1 (ite true MX1 (eval$msg MX1 )) (exists ((MX1 Message) ) MX1))))") /\
  legal ex_fname ex_sname ex_fn ex_so ex_sort false [] c39 /\
  read ex_fn ex_so (str
    "(forall ((MX1 Message) (SX2 Session) ) (=> (and (f MX1 c  ) (not (= MX1 (n SX2 ) )) false true ) (subterm sub$1 (ite true MX1 (eval$msg MX1 )) (exists ((MX1 Message) ) MX1))))") =
    Some (SmForall [mkVar 0 SMessage; mkVar 1 (SIndex 0)]
      (SmImplies (SmAnd [SmFun (Fuser 0) [SmVar (mkVar 0 SMessage); SmFun (Fuser 1) []];
                         SmNot (SmEq [SmVar (mkVar 0 SMessage); SmFun (Fname 0) [SmVar (mkVar 1 (SIndex 0))]]); SmFalse; SmTrue])
                 (SmSubterm (Fsubterm 0) (SmIte SmTrue (SmVar (mkVar 0 SMessage)) (SmFun (Feval SMessage) [SmVar (mkVar 0 SMessage)]))
                    (SmExists [mkVar 2 SMessage] (SmVar (mkVar 2 SMessage)))))).
Proof.
  split; [vm_compute; reflexivity|]. split; [|vm_compute; reflexivity].
  assert (V1 : legal_var ex_sname ex_so ex_sort x1) by (cbn; repeat split).
  assert (V2 : legal_var ex_sname ex_so ex_sort x2) by (cbn; repeat split).
  assert (F0 : legal_fun ex_fname ex_sname ex_fn (Fuser 0)) by ex_legal_fun.
  assert (F1 : legal_fun ex_fname ex_sname ex_fn (Fuser 1)) by ex_legal_fun.
  assert (F2 : legal_fun ex_fname ex_sname ex_fn (Fname 0)) by ex_legal_fun.
  assert (F3 : legal_fun ex_fname ex_sname ex_fn (Fsubterm 0)) by ex_legal_fun.
  assert (F4 : legal_fun ex_fname ex_sname ex_fn (Feval SMessage)) by ex_legal_fun.
  unfold c39. repeat first [assumption | apply Forall_nil | apply Forall_cons | apply le_fun | apply le_var | apply le_forall | apply le_exists
    | apply le_implies | apply le_and | apply le_or | apply le_eq | apply le_not | apply le_subterm | apply le_ite | apply le_true | reflexivity | (cbn; tauto)].
Qed.

(** In the evaluated realm evaluations are not printed. *)
Example C39_evaluated_example : print ex_fname ex_sname true c39 = Some (str
    "(forall ((MX1 Message) (SX2 Session) ) (=> (and (f MX1 c  ) (not (= MX1 (n SX2 ) )) false true ) (subterm sub$1 (ite true MX1 MX1) (exists ((MX1 Message) ) MX1))))").
Proof. vm_compute; reflexivity. Qed.

(** A user may name a constant like a variable: nothing forbids [MX1]. What is printed is then read as another formula, with another
    meaning. *)
Definition cap_fname (f : fsym) : text := match f with Fuser 0 => str "MX1" | _ => str "p" end.
Definition cap_fn (w : text) : option fsym := if text_eqb w (str "MX1") then Some (Fuser 0) else if text_eqb w (str "p") then Some Fpred else None.
Theorem C39_capture_refuted :
  let s := SmForall [x1] (SmFun Fpred [SmFun (Fuser 0) []]) in
  ~ In "MX1"%string USED_KEYWORDS /\ symbol (str "MX1") /\ cap_fn (cap_fname (Fuser 0)) = Some (Fuser 0) /\ cap_fn (cap_fname Fpred) = Some Fpred /\
  exists t s', print cap_fname ex_sname false s = Some t /\ read cap_fn ex_so t = Some s' /\
    s' = SmForall [mkVar 0 SMessage] (SmFun Fpred [SmVar (mkVar 0 SMessage)]) /\
    exists (M : structure) (rho : env M), sholds s rho /\ ~ sholds s' rho.
Proof.
  split; [cbn; intuition discriminate|]. split; [cbn; auto|]. split; [reflexivity|]. split; [reflexivity|].
  exists (str "(forall ((MX1 Message) ) (p MX1  ))"), (SmForall [mkVar 0 SMessage] (SmFun Fpred [SmVar (mkVar 0 SMessage)])).
  split; [vm_compute; reflexivity|]. split; [vm_compute; reflexivity|]. split; [reflexivity|].
  exists (finM 1 (fun f ds => match f, ds with Fpred, [d] => d | _, _ => 1 end)), (fun _ => 0). split; [vm_compute; reflexivity|].
  vm_compute. discriminate.
Qed.
Print Assumptions C39_capture_refuted.

(** Nor [distinct] or [let]: the first is read as the connective, the second not at all. *)
Definition kw_fname (f : fsym) : text := match f with Fuser 0 => str "distinct" | Fuser 1 => str "let" | Fuser 2 => str "k'" | _ => str "c" end.
Definition kw_fn (w : text) : option fsym :=
  if text_eqb w (str "distinct") then Some (Fuser 0) else if text_eqb w (str "let") then Some (Fuser 1)
  else if text_eqb w (str "k'") then Some (Fuser 2) else if text_eqb w (str "c") then Some (Fuser 3) else None.
Theorem C39_keyword_refuted :
  let c := SmFun (Fuser 3) [] in
  ~ In "distinct"%string USED_KEYWORDS /\ ~ In "let"%string USED_KEYWORDS /\
  (forall i, i < 4 -> kw_fn (kw_fname (Fuser i)) = Some (Fuser i)) /\
  (exists t, print kw_fname ex_sname false (SmFun (Fuser 0) [c; c]) = Some t /\ read kw_fn ex_so t = Some (SmNeq [c; c])) /\
  (exists t, print kw_fname ex_sname false (SmFun (Fuser 1) [c; c]) = Some t /\ read kw_fn ex_so t = None) /\
  (* A name may have a prime (grammar.pest 14), a symbol may not. *)
  (exists t, print kw_fname ex_sname false (SmFun (Fuser 2) []) = Some t /\ read kw_fn ex_so t = None).
Proof.
  split; [cbn; intuition discriminate|]. split; [cbn; intuition discriminate|].
  split; [intros i Hi; do 4 (destruct i as [|i]; [reflexivity|]); lia|].
  repeat split; eexists; (split; [vm_compute; reflexivity|vm_compute; reflexivity]).
Qed.
Print Assumptions C39_keyword_refuted.

(** ** C40 *)

(** The file of a problem has no model in a class of structures exactly when, in that class, the query follows from the rest; all modes
    but [assert-ground]. *)
Theorem C40_unsat_iff : forall (kind : nat -> skind) (o : smt_options) (pre : formula -> formula) (generated : list axm) (assertions : list formula)
  (query : formula) (K : structure -> Prop),
  use_assert_ground o = false -> flat_map query_of generated = [] ->
  Forall axiom_arities (problem_axioms pre generated assertions query) ->
  exists file, file_of kind o (problem_axioms pre generated assertions query) = Some file /\
    ((forall M, K M -> forall rho, ~ Forall (satisfies M (fun _ _ _ => True) rho) file) <->
     (forall M, K M -> forall rho, Forall (axiom_true M rho) generated -> (forall a, In a assertions -> holds (pre a) rho) -> holds (pre query) rho)).
Proof.
  intros kind o pre generated assertions query K Hg Hq Ha. destruct (file_meaning kind o _ Ha) as (cs & E & H). eexists. split; [exact E|].
  assert (HA : forall M rho, Forall (axiom_true M rho) (problem_axioms pre generated assertions query) <->
               Forall (axiom_true M rho) generated /\ forall a, In a assertions -> holds (pre a) rho).
  { intros M rho. unfold problem_axioms. rewrite !Forall_app. split.
    - intros (H1 & _ & H2 & _). split; [assumption|]. intros a Hin. rewrite Forall_forall in H2. apply (H2 (XBase (pre a))).
      apply (in_map (fun a => XBase (pre a))). assumption.
    - intros [H1 H2]. split; [assumption|]. split; [repeat constructor|]. split; [|repeat constructor]. rewrite Forall_forall. intros x Hx.
      apply in_map_iff in Hx. destruct Hx as (a & <- & Hin). apply H2. assumption. }
  rewrite (problem_queries pre generated assertions query Hq) in H. split.
  - intros Hun M HM rho H1 H2. destruct (H M (fun _ _ _ => True) rho) as [G _]. destruct (dtest M (eval (pre query) rho)) eqn:Eq; [exact Eq|].
    exfalso. apply (Hun M HM rho). apply G; [congruence|apply HA; auto|]. intros q [<-|[]]. unfold holds. congruence.
  - intros Hf M HM rho Hs. destruct (H M (fun _ _ _ => True) rho) as [_ G]. destruct (G Hs) as [G1 G2]. apply (G1 (pre query)); [left; reflexivity|].
    specialize (G2 Hg). apply HA in G2. destruct G2 as [G2 G3]. apply (Hf M HM rho); assumption.
Qed.
Print Assumptions C40_unsat_iff.

(** With [assert-ground], meaning anything that the formula implies, a file without a model still proves the query. *)
Theorem C40_ground_partial : forall (kind : nat -> skind) (o : smt_options) (pre : formula -> formula) (generated : list axm) (assertions : list formula)
  (query : formula) (K : structure -> Prop) (ground : forall M, sort -> smt -> env M -> Prop),
  (forall M g s rho, sholds s rho -> ground M g s rho) -> flat_map query_of generated = [] ->
  Forall axiom_arities (problem_axioms pre generated assertions query) ->
  exists file, file_of kind o (problem_axioms pre generated assertions query) = Some file /\
    ((forall M, K M -> forall rho, ~ Forall (satisfies M (ground M) rho) file) ->
     (forall M, K M -> forall rho, Forall (axiom_true M rho) generated -> (forall a, In a assertions -> holds (pre a) rho) -> holds (pre query) rho)).
Proof.
  intros kind o pre generated assertions query K ground Hg Hq Ha. destruct (file_meaning kind o _ Ha) as (cs & E & H). eexists. split; [exact E|].
  rewrite (problem_queries pre generated assertions query Hq) in H. intros Hun M HM rho H1 H2. destruct (H M (ground M) rho) as [G _].
  destruct (dtest M (eval (pre query) rho)) eqn:Eq; [exact Eq|]. exfalso. apply (Hun M HM rho). apply G; [intros; apply Hg; assumption| |].
  - unfold problem_axioms. rewrite !Forall_app. split; [assumption|]. split; [repeat constructor|]. split; [|repeat constructor]. rewrite Forall_forall.
    intros x Hx. apply in_map_iff in Hx. destruct Hx as (a & <- & Hin). apply H2. assumption.
  - intros q [<-|[]]. unfold holds. congruence.
Qed.
Print Assumptions C40_ground_partial.

(** The query is negated once, at the end, just before the check. *)
Theorem C40_query_once : forall (kind : nat -> skind) (o : smt_options) (pre : formula -> formula) (generated : list axm) (assertions : list formula)
  (query : formula), flat_map query_of generated = [] ->
  Forall axiom_arities (problem_axioms pre generated assertions query) ->
  exists cs s, smt_of kind (pre query) = Some s /\
    file_of kind o (problem_axioms pre generated assertions query) = Some (cs ++ [if use_assert_not o then KAssertNot s else KAssert (SmNot s); KCheckSat]) /\
    forall c, In c cs -> match c with KAssertNot _ | KCheckSat => False | _ => True end.
Proof.
  intros kind o pre generated assertions query Hq Ha. destruct (file_commands kind o _ Ha) as (all & E & Ef). rewrite Ef.
  apply omap_some in E. unfold problem_axioms in E. rewrite !app_assoc in E. change [XComment; XQuery (pre query)] with ([XComment] ++ [XQuery (pre query)])%list in E.
  rewrite app_assoc in E. apply Forall2_app_inv_l in E. destruct E as (cs & l2 & E1 & E2 & ->). inversion E2 as [|? c ? ? Ec Er]; subst. inversion Er; subst.
  cbn in Ec. destruct (smt_of kind (pre query)) as [s|]; [|discriminate]. injection Ec as <-. exists cs, s. split; [reflexivity|]. split.
  - rewrite <- app_assoc. reflexivity.
  - assert (HN : forall a, In a ((generated ++ [XComment]) ++ map (fun a => XBase (pre a)) assertions ++ [XComment]) -> query_of a = []).
    { intros a Hin. rewrite !in_app_iff in Hin. destruct Hin as [[Hin|[<-|[]]]|[Hin|[<-|[]]]]; try reflexivity.
      - destruct (query_of a) as [|q l] eqn:Eq; [reflexivity|]. assert (X : In q (flat_map query_of generated)) by (apply in_flat_map; exists a; rewrite Eq; cbn; auto).
        rewrite Hq in X. destruct X.
      - apply in_map_iff in Hin. destruct Hin as (x & <- & _). reflexivity. }
    rewrite <- app_assoc in E1. rewrite app_assoc in E1. clear -E1 HN. rewrite <- !app_assoc in *. induction E1 as [|a c l cs Ea _ IH]; intros x Hx; [destruct Hx|].
    destruct Hx as [<-|Hx]; [|apply IH; [intros b Hb; apply HN; right; assumption|assumption]]. specialize (HN a (or_introl eq_refl)).
    destruct a as [|f|g f|f|f|fn vs l0 r0]; cbn in Ea, HN; try discriminate.
    + injection Ea as <-. exact I.
    + destruct (smt_of kind f); [|discriminate]. injection Ea as <-. exact I.
    + destruct (smt_of kind f); [|discriminate]. injection Ea as <-. destruct (use_assert_ground o); exact I.
    + destruct (smt_of kind f); [|discriminate]. injection Ea as <-. destruct (use_assert_theory o); exact I.
    + destruct (smt_of kind l0); [|discriminate]. destruct (smt_of kind r0); [|discriminate]. injection Ea as <-. destruct (no_rewrite o); exact I.
Qed.
Print Assumptions C40_query_once.

(** Not vacuous: from a rewrite rule and an assertion. *)
Definition c40_gen : list axm := [XComment; XTheory (FFun (Fb COr) [FFun (Fuser 0) []; FFun (Fuser 1) []]);
  XRewrite None [x1] (FFun (Fuser 2) [FVar x1]) (FFun (Fuser 1) [])].
Example C40_example : Forall axiom_arities (problem_axioms (fun f => f) c40_gen [FFun (Fb CNot) [FFun (Fuser 0) []]] (FFun (Fuser 2) [FFun (Fuser 3) []])) /\
  flat_map query_of c40_gen = [] /\
  file_of (fun _ => KVampire 0) (mkOptions true true false false) (problem_axioms (fun f => f) c40_gen [FFun (Fb CNot) [FFun (Fuser 0) []]] (FFun (Fuser 2) [FFun (Fuser 3) []])) =
    Some [KComment; KAssertTh (SmOr [SmFun (Fuser 0) []; SmFun (Fuser 1) []]); KRewrite None [x1] (SmFun (Fuser 2) [SmVar x1]) (SmFun (Fuser 1) []);
          KComment; KAssert (SmNot (SmFun (Fuser 0) [])); KComment; KAssertNot (SmFun (Fuser 2) [SmFun (Fuser 3) []]); KCheckSat] /\
  file_of (fun _ => KVampire 0) (mkOptions false false true false) (problem_axioms (fun f => f) c40_gen [FFun (Fb CNot) [FFun (Fuser 0) []]] (FFun (Fuser 2) [FFun (Fuser 3) []])) =
    Some [KComment; KAssert (SmOr [SmFun (Fuser 0) []; SmFun (Fuser 1) []]); KAssert (SmForall [x1] (SmEq [SmFun (Fuser 2) [SmVar x1]; SmFun (Fuser 1) []]));
          KComment; KAssert (SmNot (SmFun (Fuser 0) [])); KComment; KAssert (SmNot (SmFun (Fuser 2) [SmFun (Fuser 3) []])); KCheckSat].
Proof. split; [|repeat split]. repeat (constructor || (cbn; reflexivity)). Qed.

(** With lemmas, the [k]-th file has no model exactly when the [k]-th lemma (after the last one: the query) follows from the assertions and the
    earlier lemmas. *)
Theorem C40_lemmas : forall (kind : nat -> skind) (o : smt_options) (pre : formula -> formula) (generated : list axm) (p pk : problem) (k : nat)
  (K : structure -> Prop),
  use_assert_ground o = false -> flat_map query_of generated = [] -> pre TRUE = TRUE ->
  yielded k (pbl_new p true) = Some pk -> Forall axiom_arities (problem_axioms pre generated (pb_assertions pk) (pb_query pk)) ->
  exists file goal, nth_error (pb_lemmas p ++ [pb_query p]) k = Some goal /\
    file_of kind o (problem_axioms pre generated (pb_assertions pk) (pb_query pk)) = Some file /\
    ((forall M, K M -> forall rho, ~ Forall (satisfies M (fun _ _ _ => True) rho) file) <->
     (forall M, K M -> forall rho, Forall (axiom_true M rho) generated -> (forall a, In a (pb_assertions p) -> holds (pre a) rho) ->
        (forall i l, i < k -> nth_error (pb_lemmas p) i = Some l -> holds (pre l) rho) -> holds (pre goal) rho)).
Proof.
  intros kind o pre generated p pk k K Hg Hq Ht Hy Ha. destruct (C40_unsat_iff kind o pre generated (pb_assertions pk) (pb_query pk) K Hg Hq Ha) as (file & E & H).
  assert (G : nth_error (pb_lemmas p ++ [pb_query p]) k = Some (pb_query pk) /\ pb_assertions pk = pb_assertions p ++ TRUE :: firstn k (pb_lemmas p)).
  { destruct (C41_problems p k) as (H1 & H2 & H3 & _). destruct (lt_eq_lt_dec k (List.length (pb_lemmas p))) as [[L|L]|L].
    - destruct (H1 L) as (q & Eq & E1 & E2). rewrite Hy in Eq. injection Eq as <-. split; [|exact E2]. rewrite nth_error_app1 by exact L. exact E1.
    - destruct (H2 L) as (q & Eq & E1 & E2). rewrite Hy in Eq. injection Eq as <-. subst k. rewrite firstn_all. split; [|exact E2]. rewrite nth_error_app2, Nat.sub_diag by lia. rewrite E1. reflexivity.
    - rewrite (H3 L) in Hy. discriminate. }
  destruct G as [G1 G2]. exists file, (pb_query pk). split; [exact G1|]. split; [exact E|]. rewrite H, G2.
  assert (F : forall (l : formula), In l (firstn k (pb_lemmas p)) <-> exists i, i < k /\ nth_error (pb_lemmas p) i = Some l).
  { intros l. split.
    - intros I. apply In_nth_error in I as (i & I). assert (i < k).
      { apply Nat.lt_le_trans with (List.length (firstn k (pb_lemmas p))); [apply nth_error_Some; congruence|apply firstn_le_length]. }
      exists i. split; [assumption|]. rewrite <- I. symmetry. rewrite <- (firstn_skipn k (pb_lemmas p)) at 2. symmetry. apply nth_error_app1. apply nth_error_Some. congruence.
    - intros (i & L & I). rewrite <- (firstn_skipn k (pb_lemmas p)) in I. rewrite nth_error_app1 in I; [eapply nth_error_In; exact I|].
      rewrite firstn_length. assert (i < List.length (pb_lemmas p)); [|lia]. rewrite <- (firstn_skipn k (pb_lemmas p)). apply nth_error_Some. congruence. }
  split; intros X M HM rho A B.
  - intros C. apply (X M HM rho A). intros a I. rewrite in_app_iff in I. cbn in I. destruct I as [I|[<-|I]]; [exact (B a I)|rewrite Ht; unfold holds, TRUE; cbn; apply dtest_inj|].
    apply F in I as (i & L & I). exact (C i a L I).
  - apply (X M HM rho A); [intros a I; apply B; apply in_app_iff; left; exact I|].
    intros i l L I. apply B. rewrite in_app_iff. right. right. apply F. exists i. split; assumption.
Qed.
Print Assumptions C40_lemmas.

(** Not vacuous: a lemma, then the query; the preprocessing (C76) keeps [true]. *)
Example C40_lemmas_example : let a := FFun (Fuser 0) [] in let b := FFun (Fuser 1) [] in let c := FFun (Fuser 2) [] in let p := mkProblem [a] [b] c in
  forall k, k < 2 -> exists pk, yielded k (pbl_new p true) = Some pk /\ Forall axiom_arities (problem_axioms (fun f => f) c40_gen (pb_assertions pk) (pb_query pk)) /\
    (forall osort evs table, propagate_evaluate osort evs table 2 TRUE = Some TRUE) /\
    pb_assertions pk = a :: TRUE :: (if k =? 0 then [] else [b]) /\ pb_query pk = if k =? 0 then b else c.
Proof.
  intros a b c p k L. destruct k as [|[|k]]; [| |lia]; (eexists; split; [reflexivity|]; split; [repeat (constructor || (cbn; reflexivity))|repeat split]).
Qed.

(** Refuted when lemmas are not asked for: they are not in the file, which has a model although the query is one of the lemmas. *)
Theorem C40_lemmas_refuted : exists (p pk : problem) file (M : structure) (rho : env M),
  In (pb_query p) (pb_lemmas p) /\ yielded 0 (pbl_new p false) = Some pk /\ yielded 1 (pbl_new p false) = None /\
  file_of (fun _ => KVampire 0) (mkOptions false false false false) (problem_axioms (fun f => f) [] (pb_assertions pk) (pb_query pk)) = Some file /\
  Forall (satisfies M (fun _ _ _ => True) rho) file.
Proof.
  exists (mkProblem [] [FFun (Fuser 0) []] (FFun (Fuser 0) [])), (mkProblem [] [FFun (Fuser 0) []] (FFun (Fuser 0) [])).
  exists [KComment; KComment; KAssert (SmNot (SmFun (Fuser 0) [])); KCheckSat], (finM 1 (fun _ _ => 0)), (fun _ => 0).
  split; [left; reflexivity|]. split; [reflexivity|]. split; [reflexivity|]. split; [reflexivity|]. repeat constructor.
Qed.
Print Assumptions C40_lemmas_refuted.
