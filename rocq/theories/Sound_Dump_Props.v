From Coq Require Import List Arith Bool Lia String Ascii Permutation Sorted.
From Verif Require Import Syntax_Model Traversal_Spec Semantics_Spec Sort_Model Order_Model Macro_Model Evaluate_Model Parser_Model Parser_Spec Parser_Props Source_Model Source_Spec Source_Problem_Spec Source_Proofs Source_Props Source_Closed_Props Semantics_Proofs
  Source_Problem_Props Smt_Model Squirrel_Model Squirrel_Spec Squirrel_Proofs Utils_Model Utils_Spec Convert_Model Convert_Spec Meaning_Spec Meaning_Props
  Dump_Model Dump_Spec Dump_Proofs Dump_Props Dump_Source_Model Dump_Source_Spec Dump_Source_Proofs Dump_Symbols_Proofs Dump_Source_Props
  Dump_Meaning_Spec Dump_Meaning_Proofs Dump_Step_Proofs Dump_Meaning_Props.
From Verif Require Propagate_Spec File_Props Smt_Proofs Smt_Spec.
From Verif Require Import Exists_Proofs Sound_Proofs Order_Spec Syntax_Proofs Arity_Spec Arity_Props Problem_Model Problem_Spec File_Model File_Spec Assumption_Model Expander_Props Source_Closed_Spec Arity_Source_Spec Arity_Source_Props Sound_Spec Sound_Source_Spec Sound_Source_Proofs Assumption_Props Sound_Props Sound_Dump_Spec Sound_Dump_Proofs.
Import ListNotations.
Local Open Scope list_scope.

(** What the prover proves about a Squirrel file is true: when all the files that are written for it are unsatisfiable, its goal is true, on the side
    of the file, in every execution where the actions follow the control flow of Squirrel, the projections give the components of pairs, and the axioms of the
    cryptographic assumptions hold. Partial: see C101, C106 and C109. *)
Theorem C110_squirrel_partial : forall wide table shuffle fuel d x i l code bs bf kw so es il pfuel p s' sig w systems s,
  (forall A (l : list A), Permutation (shuffle A l) l) -> convert_dump wide table shuffle fuel d = OOk x -> aget x i = Some l ->
  coded code bs bf kw -> read_from bs bf kw (map (to_item code) l) so es il pfuel p s' sig w -> direct_parts (p_qs s') p ->
  StronglySorted lex systems -> nth_error systems i = Some s -> (forall a, is_action d a -> proper a) ->
  exists csort names operators macros,
    (forall n t, csort n = Some t <-> sort_name wide d (table n) t) /\
    (forall q f, names q = Some f <-> last_entry (d_names d) q f) /\
    (forall q f, operators q = Some f <-> exists o, last_entry (d_operators d) q o /\
       f = mkJFun (op_poly o) (op_args o) (op_out o) (match op_def o with Concrete _ _ => true | Abstract _ _ => false end)) /\
    (forall q m, macros q = Some m <-> exists a, last_entry (d_macros d) q a /\
       m = match a with DProtocol => MProtocol | DStructured => MStructured | DState _ _ _ => MState | DGlobal ins _ _ _ => MGlobal ins end) /\
    forall r b K ground crypto skolem, weaker ground -> (forall k, invariant (skolems_of sig (table_of (p_qs s')) w (skolem k)) K) ->
    all_proved sig (table_of (p_qs s')) r K ground w p b crypto skolem ->
    forall (M : structure) qsem mval (S : Meaning_Spec.source (D M * D M)), let env := penv_of (so_env so) in
    K M -> execution sig (table_of (p_qs s')) r w M -> (forall k, Sound_Spec.assumed (skolems_of sig (table_of (p_qs s')) w (skolem k)) M (crypto k)) ->
    unfolds env qsem mval -> extensional M qsem -> respects qsem (p_qs s') -> agree wide csort names operators macros S (reading env qsem mval code) ->
    follows_flow d S -> projects (reading env qsem mval code) ->
    systems_of systems (goal d) -> no_diff_tuple names operators (goal d) -> proper_term wide names operators macros (side s (goal d)) ->
    dtest M (snd (jvalue (global_inputs macros) S (fun y => constant env code (sanitize wide KVariable y)) (side s (goal d)))) = true.
Proof. intros. eapply dump_sound; eassumption. Qed.
Print Assumptions C110_squirrel_partial.

(** ** Example *)
(** Two actions [A(i)] and [B(i)], one after the other; the first answers with a pair of its input and of a global macro. The goal: when [B(i)] happens, [A(i)] comes before. *)
Definition chain : dump := mkDump
  (ffn "<=" [JAction (pth "A") [JVar vi]; JAction (pth "B") [JVar vi]])
  [ffn "happens" [JAction (pth "B") [JVar vi]]] [vi]
  [mkJAction (mkAction (pth "init") [] [] 0) [] (ffn "true" []) [] (ffn "empty" []) [];
   mkJAction (mkAction (pth "A") [mkItem (0, [vi]) (0, [])] [vi] 1) [] (ffn "true" []) []
     (ffn "pair" [JVar vin; JMacro (pth "g") [JVar vi] (JAction (pth "A") [JVar vi])]) [pth "g"];
   mkJAction (mkAction (pth "B") [mkItem (0, [vi]) (0, []); mkItem (0, []) (0, [])] [vi] 2) [] (ffn "true" []) [] (ffn "empty" []) []]
  []
  [(pth "pair", mkOperator false [TPlain 0; TPlain 0] (TPlain 0) (Abstract AOther []));
   (pth "fst", mkOperator false [TPlain 0] (TPlain 0) (Abstract AOther [])); (pth "snd", mkOperator false [TPlain 0] (TPlain 0) (Abstract AOther []))]
  [(pth "input", DStructured); (pth "g", DGlobal [vin; mkJVar (str "$dummy") 0] [vi] vt (ffn "pair" [JVar vin; JVar vin]))] [].
Definition ch_code : text -> name := cv_code ["index"; "fst"; "snd"; "pair"; "x"; "y"; "var_i"; "step_A"; "step_B"; "leq"; "fun_g"; "var_in1"; "var_t"]%string.
Definition ch_functions : list (name * fcache) := cv_functions ch_code ++ [(ch_code (str "leq"), fc_builtin Fleq (SgFixed [SStep; SStep] SBool))].
Definition ch_file : list Source_Model.item := map (to_item ch_code) (alternative 0 chain).
Definition ch_read : dres Source_Model.source := declare_all (cv_sorts ch_code) ch_functions (cv_keywords ch_code) false ch_file.
Lemma ch_read_eq : declare_all (cv_sorts ch_code) ch_functions (cv_keywords ch_code) false ch_file = ch_read.
Proof. vm_compute. reflexivity. Qed.
Definition ch_denv : denv := match ch_read with DOk so => so_env so | _ => new_env [] [] [] false end.
Definition ch_env : penv := penv_of ch_denv.
Definition ch_funs : list fsym := BUILT_IN_FUNCTIONS ++ [Fuser 7; Fuser 8; Fuser 9; Fstep 10; Fstep 11; Fstep 12].
Definition ch_sig (f : fsym) : option (list sort * sort) :=
  match f with
  | Fuser 0 => Some ([], SMessage)
  | Fuser 7 => Some ([SMessage; SMessage], SMessage)
  | Fuser 8 | Fuser 9 => Some ([SMessage], SMessage)
  | Fstep 10 => Some ([], SStep)
  | Fstep 11 | Fstep 12 => Some ([SIndex 6], SStep)
  | Fuser _ | Fname _ | Fcell _ | Fstep _ | Fsubterm _ => None
  | _ => w_sig f
  end.
(** The nonces are left out: no message is a guess of a nonce only when there are many messages. *)
Definition ch_assumptions : list assumption := [ACell; AUnfolding false false].
Definition ch_whole (p : Source_Model.parts) : whole_problem :=
  mkWhole (mkGen (BUILT_IN_SORTS ++ [SIndex 6]) ch_funs [SMessage; SCondition] (pa_steps p) (pa_orders p) (pa_asserts p) (pa_query p)) (pa_cells p) ch_assumptions (pa_lemmas p) [].
(** Time points 0 to 3: the initial step, [A], [B], and no step; one index and one message. *)
Definition ch_raw (s : fsym) (ds : list nat) : nat :=
  match s, ds with
  | Fstep 11, [_] => 1
  | Fstep 12, [_] => 2
  | Fhappens, [d] => b2n (d <? 3)
  | Fleq, [a; b] => b2n ((a <=? b) && (b <? 3))
  | Flt, [a; b] => b2n ((a <? b) && (b <? 3))
  | Fgt, [a; b] => b2n ((b <? a) && (a <? 3))
  | Fpred, [d] => if d =? 1 then 0 else if d =? 2 then 1 else 3
  | Feval SCondition, [d] => b2n (n2b d)
  | Feval _, [d] => d
  | Fmacro MCondition, [d] | Fmacro MExec, [d] => b2n (d <? 3)
  | Fta TTrue, [] => 1
  | Fta TNot, [a] => b2n (negb (n2b a))
  | Fta TAnd, [a; b] => b2n (n2b a && n2b b)
  | Fta TOr, [a; b] => b2n (n2b a || n2b b)
  | Fta TImplies, [a; b] => b2n (implb (n2b a) (n2b b))
  | Fta TIff, [a; b] => b2n (Bool.eqb (n2b a) (n2b b))
  | Fta TEq, [a; b] => b2n (a =? b)
  | Fta TIte, [c; a; b] => if n2b c then a else b
  | _, _ => 0
  end.
Definition ch_size (s : sort) : nat := match s with SBool => 1 | SCondition => 1 | SStep => 3 | _ => 0 end.
Definition ch_fint (s : fsym) (ds : list nat) : nat := Nat.min (match osort ch_sig s with Some o => ch_size o | None => 3 end) (ch_raw s ds).
Definition ch_M : structure :=
  mkStructure nat (fun s d => d <= ch_size s) b2n n2b n2b_b2n Nat.eqb Nat.eqb_eq (fun s p => fin_all (ch_size s) p) (fun s p => fin_all_spec (ch_size s) p) ch_fint.

Definition ch_literal : list Source_Model.item := Eval vm_compute in ch_file.
Lemma ch_literal_eq : ch_file = ch_literal.
Proof. vm_compute. reflexivity. Qed.
Lemma ch_coded : coded ch_code (cv_sorts ch_code) ch_functions (cv_keywords ch_code).
Proof.
  pose proof (cv_coded ["index"; "fst"; "snd"; "pair"; "x"; "y"; "var_i"; "step_A"; "step_B"; "leq"; "fun_g"; "var_in1"; "var_t"]%string) as C. fold ch_code in C. destruct C as [C1 C2 C3 [_ C4] C5].
  split; try assumption. split; [vm_compute; repeat (apply NoDup_cons; [cbn; intuition lia|]); apply NoDup_nil|].
  intros x I. unfold ch_functions in I. rewrite map_app in I. apply in_app_iff in I as [I|[<-|[]]]; [exact (C4 x I)|]. exists "leq"%string. split; [reflexivity|cbn; tauto].
Qed.
Lemma ch_gentle : Forall (gentle_item ch_env) ch_file.
Proof.
  rewrite ch_literal_eq. unfold ch_literal. repeat (apply Forall_cons; [first [gitem|idtac]|]); try apply Forall_nil.
  split; [cbn [od_t1 od_args]; repeat node|]. split; [cbn [od_t2 od_args]; repeat node|]. discriminate.
Qed.
Lemma ch_counted : Forall (counted_terms ch_env) ch_file.
Proof.
  rewrite ch_literal_eq. unfold ch_literal. repeat (apply Forall_cons; [cbn [counted_terms]; match goal with |- True => exact I | |- NoDup _ /\ _ => idtac | |- _ => count end|]); try apply Forall_nil.
  split; [repeat constructor; intros []|]. cbn [od_t1 od_t2 od_guard]. split; [count|]. split; [count|]. discriminate.
Qed.
Lemma ch_tame : tame_file (cv_sorts ch_code) ch_functions ch_file.
Proof.
  assert (Bs : cv_sorts ch_code = [(9, SBool); (10, SCondition); (11, SMessage); (12, SBitstring); (13, SStep); (14, SName)]) by (vm_compute; reflexivity).
  assert (Bf : map fst ch_functions = [15; 16; 7; 8; 17; 20; 123]) by (vm_compute; reflexivity).
  rewrite ch_literal_eq, Bs. unfold ch_literal. split.
  - intros x fc H. unfold ch_functions, cv_functions in H. apply in_app_iff in H as [H|H]; cbn [map] in H; repeat (destruct H as [H|H]; [injection H as _ <-|]); try destruct H.
    all: split; [reflexivity|]; split; [reflexivity|]; right; cbn; repeat split; auto; intros [].
  - intros i x Hi Hx H. assert (x = 12) as -> by (cbn in H; repeat destruct H as [H|H]; try discriminate H; try contradiction; injection H as <-; reflexivity). clear H.
    cbn in Hi. repeat (destruct Hi as [<-|Hi]; [cbn in Hx; repeat destruct Hx as [Hx|Hx]; try discriminate Hx; try contradiction|]); destruct Hi.
  - intros x a Hi Hx H. assert (x = 9) as -> by (cbn in H; repeat destruct H as [H|H]; try discriminate H; try contradiction; injection H as <-; reflexivity). clear H.
    cbn in Hi. repeat (destruct Hi as [Hi|Hi]; [try discriminate Hi; injection Hi as <-; cbn in Hx; repeat destruct Hx as [Hx|Hx]; try discriminate Hx; try contradiction|]); destruct Hi.
  - intros x n args out Hi. exfalso. cbn in Hi. repeat (destruct Hi as [Hi|Hi]; [discriminate Hi|]); destruct Hi.
  - intros n args out Hi H. cbn in Hi. repeat (destruct Hi as [Hi|Hi]; [try discriminate Hi; injection Hi as _ _ <-; cbn in H; repeat destruct H as [H|H]; try discriminate H; contradiction|]); destruct Hi.
  - intros i t Hi Ht.
    assert (NB : forall f fc, In (f, fc) ch_functions -> fc_kind fc <> SgIte).
    { intros f fc H. unfold ch_functions, cv_functions in H. apply in_app_iff in H as [H|H]; cbn [map] in H; repeat (destruct H as [H|H]; [injection H as _ <-; discriminate|]); try destruct H. }
    match goal with |- context [tame_call _ _ ?l] => assert (NN : forall f ss out, In (IFun f ss out) l -> ~ In (out, SName) [(9, SBool); (10, SCondition); (11, SMessage); (12, SBitstring); (13, SStep); (14, SName)]) end.
    { intros f ss out H1 H2. cbn in H1. repeat (destruct H1 as [H1|H1]; [try discriminate H1; injection H1 as _ _ <-; cbn in H2; repeat destruct H2 as [H2|H2]; try discriminate H2; contradiction|]); destruct H1. }
    revert Ht. remember ch_functions as bf eqn:Eb. clear Eb Bf.
    intros Ht. cbn in Hi. repeat (destruct Hi as [<-|Hi]; [cbn in Ht; repeat destruct Ht as [<-|Ht]; try contradiction; cbn [everywhere tame_call]|]); [..|destruct Hi].
    all: repeat match goal with |- _ /\ _ => split | |- True => exact I end; try (intros; eapply NB; eassumption); try (intros; exfalso; eapply NN; eassumption).
  - intros a t Hi Ht.
    assert (NB : forall f fc, In (f, fc) ch_functions -> fc_kind fc <> SgIte).
    { intros f fc H. unfold ch_functions, cv_functions in H. apply in_app_iff in H as [H|H]; cbn [map] in H; repeat (destruct H as [H|H]; [injection H as _ <-; discriminate|]); try destruct H. }
    match goal with |- context [tame_call _ _ ?l] => assert (NN : forall f ss out, In (IFun f ss out) l -> ~ In (out, SName) [(9, SBool); (10, SCondition); (11, SMessage); (12, SBitstring); (13, SStep); (14, SName)]) end.
    { intros f ss out H1 H2. cbn in H1. repeat (destruct H1 as [H1|H1]; [try discriminate H1; injection H1 as _ _ <-; cbn in H2; repeat destruct H2 as [H2|H2]; try discriminate H2; contradiction|]); destruct H1. }
    revert Ht. remember ch_functions as bf eqn:Eb. clear Eb. rename Bf into Bf'.
    intros Ht. cbn in Hi. repeat (destruct Hi as [Hi|Hi]; [try discriminate Hi; injection Hi as <-; destruct Ht as [-> | ->]; cbn [sa_cond sa_msg]|]); [..|destruct Hi].
    all: repeat (apply la_let; [cbn; tauto|cbn; repeat split; discriminate| |split; cbn; intuition discriminate|]); try apply la_body; cbn [everywhere tame_call].
    all: repeat match goal with |- _ /\ _ => split | |- True => exact I end; try (intros; eapply NB; eassumption); try (intros; exfalso; eapply NN; eassumption).
    intros params body j x u Hl Hx Hu. assert (params = [(120, 114); (125, 11); (126, 13)]) as -> by (cbn in Hl; repeat (destruct Hl as [Hl|Hl]; [try discriminate Hl; injection Hl as <- _; reflexivity|]); destruct Hl).
    destruct j as [|[|[|j]]]; cbn in Hx, Hu; try (destruct j; discriminate Hx); injection Hx as <-; injection Hu as <-.
    + split; [intros S; exfalso; unfold symbolic_type in S; cbn in S; intuition discriminate|intros _; cbn; tauto].
    + split; [intros _|intros _; cbn; tauto]. split; [intros fc k H; exfalso; apply (in_map fst) in H; rewrite Bf' in H; cbn in H; intuition discriminate|].
      intros ss out H. exfalso. cbn in H. repeat (destruct H as [H|H]; [discriminate H|]); destruct H.
    + split; [intros S; exfalso; unfold symbolic_type in S; cbn in S; intuition discriminate|intros _; cbn; tauto].
Qed.
Lemma ch_K : K109 ch_M.
Proof.
  split; [|split].
  - intros d Hd. cbn in Hd. destruct d as [|[|d]]; [exists false; reflexivity|exists true; reflexivity|lia].
  - intros ds. exact (Nat.le_min_l 1 (ch_raw Fgt ds)).
  - intros j ds. unfold ch_M, ch_fint. cbn [dom fint ch_size]. etransitivity; [apply Nat.le_min_l|]. do 13 (destruct j as [|j]; [cbn; lia|]). cbn. lia.
Qed.
Lemma ch_trace : is_trace ch_M 0 [0; 1; 2] 3.
Proof.
  assert (P : forall d, is_time ch_M d -> d = 0 \/ d = 1 \/ d = 2 \/ d = 3) by (unfold is_time; cbn; lia).
  assert (N : forall i d, nth_error [0; 1; 2] i = Some d <-> i = d /\ d < 3).
  { intros i d. split; [destruct i as [|[|[|i]]]; cbn; [intros [= <-]; lia..|destruct i; discriminate]|]. intros [<- H]. destruct i as [|[|[|i]]]; [reflexivity..|lia]. }
  split.
  - intros d. unfold is_time. cbn. lia.
  - cbn. lia.
  - repeat constructor; cbn; lia.
  - reflexivity.
  - intros d Hd. apply P in Hd as [->|[->|[->| ->]]]; unfold tholds; cbn; intuition (try discriminate; try lia).
  - intros a b Ha Hb. setoid_rewrite N. transitivity (a <= b /\ b < 3); [|split; [intros [H1 H2]; exists a, b; lia|intros (i & j & H1 & H2 & H3); lia]].
    apply P in Ha as [->|[->|[->| ->]]]; apply P in Hb as [->|[->|[->| ->]]]; unfold tholds; cbn; intuition (try discriminate; try lia).
  - intros a b Ha Hb. setoid_rewrite N. transitivity (a < b /\ b < 3); [|split; [intros [H1 H2]; exists a, b; lia|intros (i & j & H1 & H2 & H3); lia]].
    apply P in Ha as [->|[->|[->| ->]]]; apply P in Hb as [->|[->|[->| ->]]]; unfold tholds; cbn; intuition (try discriminate; try lia).
  - intros a b Ha Hb. apply P in Ha as [->|[->|[->| ->]]]; apply P in Hb as [->|[->|[->| ->]]]; cbn; solve [exists true; reflexivity|exists false; reflexivity].
  - intros i a b Ha Hb. apply N in Ha as [-> Ha]. apply N in Hb as [Hb Hb']. destruct a as [|[|a]]; [assert (b = 1) as -> by lia|assert (b = 2) as -> by lia|lia]; reflexivity.
  - reflexivity.
  - reflexivity.
Qed.
Definition ch_steps (p : Source_Model.parts) : Prop := map (fun s => (ps_fun s, map vsort (ps_vars s))) (pa_steps p) = [(10, []); (11, [SIndex 6]); (12, [SIndex 6])].
Lemma ch_args (ss : list sort) ds : args_of ch_M ss ds -> Forall2 (fun s d => d <= ch_size s) ss ds.
Proof. intros H. exact H. Qed.
Ltac cargs := repeat match goal with
  | H : args_of ch_M _ _ |- _ => apply ch_args in H
  | H : Forall2 _ [] _ |- _ => inversion H; clear H; subst
  | H : Forall2 _ (_ :: _) _ |- _ => inversion H; clear H; subst
  | H : ?d <= ch_size _ |- _ => cbn in H; first [destruct d as [|d]; [|exfalso; lia]|destruct d as [|[|d]]; [| |exfalso; lia]|destruct d as [|[|[|[|d]]]]; [| | | |exfalso; lia]]; clear H
  end.
Lemma ch_execution p table : ch_steps p -> execution ch_sig table RSymbolic (ch_whole p) ch_M.
Proof.
  intros S. split.
  - intros init l E. cbn in E. unfold ch_steps in S. rewrite E in S. exists [0; 1; 2], 3. injection S as -> _ _. exact ch_trace.
  - cbn [wp_gen gp_steps ch_whole]. rewrite S. intros f ss g ss' ds ds' H1 H2 A A' _ E. cbn in H1, H2.
    destruct H1 as [[= <- <-]|[[= <- <-]|[[= <- <-]|[]]]]; destruct H2 as [[= <- <-]|[[= <- <-]|[[= <- <-]|[]]]]; cargs; auto; discriminate E.
  - cbn [wp_gen gp_steps ch_whole]. rewrite S. intros d Hd Hh A. unfold is_time in Hd. cbn in Hd. destruct d as [|[|[|[|d]]]]; [| | | |lia].
    + apply (A 10 [] []); [left; reflexivity|constructor|reflexivity].
    + apply (A 11 [SIndex 6] [0]); [right; left; reflexivity|repeat constructor|reflexivity].
    + apply (A 12 [SIndex 6] [0]); [right; right; left; reflexivity|repeat constructor|reflexivity].
    + discriminate Hh.
  - exists (fun _ _ => []). apply Forall_forall. intros f Hf. apply in_map_iff in Hf as (g & <- & Hg). cbn [wp_gen gp_funs gp_evs ch_whole] in *. unfold ch_funs in Hg.
    apply in_app_iff in Hg as [Hg|Hg]; cbn in Hg; repeat destruct Hg as [<-|Hg]; try destruct Hg; try exact I; cbn [classify ch_sig w_sig Evaluate_Spec.means]; intros; cbn [Evaluate_Model.conn_args] in *; cargs; try reflexivity.
    all: split; unfold Evaluate_Spec.truth; cbn; intros; congruence || reflexivity || (exfalso; auto).
  - intros d Hd. cbn in Hd. destruct d as [|[|d]]; [reflexivity..|lia].
  - discriminate.
  - intros h s ds Hh. unfold ch_M, ch_fint. cbn [dom fint]. rewrite Hh. apply Nat.le_min_l.
  - intros []; cbn; lia.
  - exists (fun _ => 0). intros s. cbn. lia.
Qed.

Definition ch_out (p : Source_Model.parts) (pk : problem) :=
  generate_assumptions ch_sig (table_of []) RSymbolic false true true (ex_anc101 (pa_cells p)) w_scmp 50 300 (asking (ch_whole p) pk) ch_assumptions 0 100.
Definition ch_query : formula :=
  let i := mkVar 0 (SIndex 6) in let st j := FFun (Fstep j) [FVar i] in
  FQ QForall [i] (FFun (Fb CImplies) [FFun (Fb CAnd) [FFun (Fb CTrue) []; FFun Fhappens [st 12]]; FFun Fleq [st 11; st 12]]).
Definition ch_order : formula :=
  let i := mkVar 0 (SIndex 6) in let st j := FFun (Fstep j) [FVar i] in order_axiom (mkOrdering QForall [i] (KLT (st 11) (st 12)) TRUE).
Definition ch_problem (p : Source_Model.parts) : problem := mkProblem (pa_asserts p) [] ch_query.
Definition ch_crypto (p : Source_Model.parts) : list formula := match ch_out p (ch_problem p) with Some out => o_axioms out | None => [] end.
Definition ch_asks (p : Source_Model.parts) : bool :=
  match whole_file ch_sig (table_of []) RSymbolic false true true (ex_anc101 (pa_cells p)) w_scmp 50 300 (asking (ch_whole p) (ch_problem p)) false false 0 0 100 File_Props.ex_le, ch_out p (ch_problem p) with
  | Some (_, axs), Some _ => match rev axs with a :: m => holdsb ch_query a && existsb (holdsb ch_order) m | [] => false end
  | _, _ => false
  end.
(** What is needed of the file. *)
Record ch_facts (so : Source_Model.source) (p : Source_Model.parts) (s' : pst) : Prop := mkChFacts {
  cf_steps : ch_steps p;
  cf_qs : p_qs s' = [];
  cf_signatures : signaturesb ch_functions (so_env so) [] ch_sig ch_funs = true;
  cf_below : belowb (so_env so) 20 = true;
  cf_direct : forallb directb (map order_axiom (pa_orders p) ++ pa_query p :: pa_asserts p ++ pa_lemmas p ++ ch_crypto p) = true;
  cf_settled : forallb (fun f => match Propagate_Spec.matrix f with FFun (Feval _) _ => false | _ => true end) (pa_query p :: pa_asserts p ++ pa_lemmas p) = true;
  cf_query : pa_query p = ch_query;
  cf_lemmas : pa_lemmas p = [];
  cf_crypto : pa_crypto p = [PNonce; PCell; PUnfolding false false];
  cf_asks : ch_asks p = true;
  cf_many : ch_crypto p <> [];
  cf_true : forall rho : Semantics_Spec.env ch_M, forallb (fun f => dtest ch_M (eval f rho)) (ch_crypto p) = true
}.
Lemma ch_holds : exists so p s', ch_read = DOk so /\ parse_parts so (d_funs (so_env so)) false 20 (mkPst [] [] []) = Parser_Model.Done p s' /\ ch_facts so p s'.
Proof.
  apply read_parts. vm_compute. split; try reflexivity.
  vm_compute. discriminate.
Qed.

Lemma ch_proved p : ch_asks p = true -> counts_whole ch_sig (table_of []) (asking (ch_whole p) (ch_problem p)) ->
  proved ch_sig (table_of []) RSymbolic K109 (fun M _ s rho => Smt_Spec.sholds s rho) (asking (ch_whole p) (ch_problem p)) (ch_crypto p) 0.
Proof.
  intros H C. unfold ch_asks in H. unfold ch_crypto. destruct (whole_file _ _ _ _ _ _ _ _ _ _ _ _ _ _ _ _ _) as [[ds axs]|] eqn:F; [|discriminate].
  destruct (ch_out p (ch_problem p)) as [out|] eqn:G; [|discriminate].
  destruct (rev axs) as [|a m] eqn:Er; [discriminate|]. apply andb_true_iff in H as [Ha Hm]. destruct a as [g|]; [|discriminate]. apply formula_eqb_eq in Ha. subst g.
  apply (f_equal (@rev eaxiom)) in Er. rewrite rev_involutive in Er. cbn [rev] in Er. subst axs.
  destruct (lines109_ok None ch_query (rev m)) as [L1 L2]. set (xs := lines109 None (rev m ++ [ABase ch_query])) in *.
  assert (Hans : answers_cells (ex_anc101 (pa_cells p)) (wp_cells (asking (ch_whole p) (ch_problem p)))) by (intros x a ce [= <-] Hc; exact Hc).
  assert (Hfr : forall i, 100 <= i -> ~ In (Fuser i) (gp_funs (wp_gen (asking (ch_whole p) (ch_problem p))))) by (intros i Hi Hin; cbn in Hin; repeat destruct Hin as [Hin|Hin]; try discriminate Hin; try contradiction; injection Hin as <-; lia).
  assert (HA : Forall Smt_Spec.axiom_arities xs) by (eapply lines_arities; [exact L1|]; apply Forall_forall; intros a Hin; eapply C108_arities; [exact F|exact C|exact Hans|exact Hfr|exact Hin]).
  destruct (Smt_Proofs.file_meaning kinds109 options109 xs HA) as (cs & E & HFM).
  exists false, true, true, (ex_anc101 (pa_cells p)), w_scmp, 50, 300, false, 0, 100, File_Props.ex_le, ds, (rev m ++ [ABase ch_query]), out, xs, kinds109, options109, (cs ++ [Smt_Model.KCheckSat]).
  split; [exact F|]. split; [exact G|]. split; [reflexivity|]. split; [exact Hans|]. split; [exact Hfr|]. split; [exact L1|]. split; [exact E|].
  intros X KX rho S. destruct (HFM X (fun _ s rho => Smt_Spec.sholds s rho) rho) as [_ G2]. destruct (G2 S) as [Q2 A2]. specialize (A2 eq_refl). clear HFM G2 S.
  apply (Q2 ch_query).
  - apply in_flat_map. exists (Smt_Model.XQuery ch_query). split; [|left; reflexivity]. unfold xs. clear. induction (rev m) as [|a l IH]; [left; reflexivity|]. change ((a :: l) ++ [ABase ch_query]) with (a :: (l ++ [ABase ch_query])).
    destruct a; cbn [lines109]; [|right; exact IH]. destruct (l ++ [ABase ch_query]) as [|b m'] eqn:E; [destruct l; discriminate|]. right. exact IH.
  - assert (Ho : holds ch_order rho).
    { apply existsb_exists in Hm as (a & Ha & Hm). destruct a as [g|]; [|discriminate]. apply formula_eqb_eq in Hm. subst g.
      rewrite Forall_forall in A2. apply (A2 (Smt_Model.XBase ch_order)). apply L2. apply -> in_rev. exact Ha. }
    clear - Ho. unfold holds in *. unfold ch_query, ch_order in *. cbn in *.
    rewrite dtest_inj in *. rewrite all_spec in *. intros d Hd. specialize (Ho d Hd). cbv beta in *. rewrite !dtest_inj in *. cbn [implb andb] in *. rewrite andb_true_r. exact Ho.
Qed.

Lemma ch_proper a : is_action chain a -> proper a.
Proof.
  intros (x & -> & L). apply last_in in L. cbn in L. destruct L as [L|[L|[L|[]]]]; injection L as _ <-; (split; [reflexivity|]); cbn; repeat constructor; intros [].
Qed.
Lemma ch_not_tuple p : ~ one_tuple (operators chain p).
Proof. intros (g & ts & E & F). apply operators_spec in E as (o & L & ->). apply last_in in L. cbn in L. destruct L as [L|[L|[L|[]]]]; injection L as <- <-; discriminate F. Qed.
Lemma ch_not_tuple' p : ~ one_tuple (names chain p).
Proof. intros (g & ts & E & F). apply names_spec in E. apply last_in in E. destruct E. Qed.
Section Values.
  Let qsem : qkind -> list sort -> (list (D ch_M) -> list (D ch_M)) -> D ch_M := fun _ _ _ => 0.
  Context (mval : callee -> realm -> list (D ch_M) -> list (D ch_M) -> D ch_M).
  Let T := reading ch_env qsem mval ch_code.
  Definition ch_source : Meaning_Spec.source (D ch_M * D ch_M) := induced all_ascii (Dump_Model.csort all_ascii sorts chain) (names chain) (operators chain) T (fun _ => []).
  Lemma ch_agree : agree all_ascii (Dump_Model.csort all_ascii sorts chain) (names chain) (operators chain) (macros chain) ch_source T.
  Proof.
    apply induced_agree.
    - intros p ds H. destruct (ch_not_tuple _ H).
    - intros p ds H. destruct (ch_not_tuple' _ H).
    - intros p g E F. apply operators_spec in E as (o & L & ->). apply last_in in L. cbn in L. destruct L as [L|[L|[L|[]]]]; injection L as <- <-; discriminate F.
    - intros ss p q s t d E E'. split; [reflexivity|]. split; cbn [t_all t_some reading T]; f_equal; f_equal; apply over_ext; intros ds _; rewrite E; reflexivity.
  Qed.
  Lemma ch_step (a : string) k ds : In (a, k) [("init", 0); ("A", 1); ("B", 2)]%string -> List.length ds = match k with 0 => 0 | _ => 1 end -> snd (s_action ch_source (pth a) ds) = k.
  Proof.
    intros H L. cbn in H. destruct H as [H|[H|[H|[]]]]; injection H as <- <-; cbn in L; (destruct ds as [|v [|]]; try discriminate L); vm_compute; reflexivity.
  Qed.
  Lemma ch_action a ds : is_action chain a -> List.length ds = List.length (a_indices a) ->
    exists k, snd (s_action ch_source (a_name a) ds) = k /\ k < 3 /\ List.length (run_action (a_action a) ds) = k /\ Forall (fun i => i_sum i = (0, [])) (run_action (a_action a) ds).
  Proof.
    intros (x & -> & L). apply last_in in L. cbn in L. destruct L as [L|[L|[L|[]]]]; injection L as _ <-; cbn [x_action a_indices a_name]; intros Ld.
    - exists 0. split; [apply (ch_step "init"); [cbn; auto|exact Ld]|]. repeat constructor.
    - exists 1. split; [apply (ch_step "A"); [cbn; auto|exact Ld]|]. split; [lia|]. split; [reflexivity|]. destruct ds as [|v [|]]; try discriminate Ld. repeat constructor.
    - exists 2. split; [apply (ch_step "B"); [cbn; auto|exact Ld]|]. split; [lia|]. split; [reflexivity|]. destruct ds as [|v [|]]; try discriminate Ld. repeat constructor.
  Qed.
  Lemma ch_flow : follows_flow chain ch_source.
  Proof.
    split.
    - intros a b va vb Ha Hb _ _ La Lb (i & r & E) _. destruct (ch_action a va Ha La) as (j & Ej & Hj & Rj & _). destruct (ch_action b vb Hb Lb) as (k & Ek & Hk & Rk & _).
      unfold not_after. rewrite Ej, Ek. apply (f_equal (@List.length _)) in E. rewrite app_length, Rj, Rk in E. cbn in E.
      destruct j as [|[|[|j]]]; [| | |lia]; (destruct k as [|[|[|k]]]; [| | |lia]); try lia; reflexivity.
    - intros a b va vb Ha Hb _ _ La Lb (pp & i & j & r & t & E1 & E2 & _ & N) _. destruct (ch_action a va Ha La) as (_ & _ & _ & _ & Fa). destruct (ch_action b vb Hb Lb) as (_ & _ & _ & _ & Fb).
      rewrite E1 in Fa. rewrite E2 in Fb. apply Forall_app in Fa as [_ Fa]. apply Forall_app in Fb as [_ Fb]. inversion Fa; inversion Fb; congruence.
  Qed.
  Lemma ch_projects : projects T.
  Proof.
    intros x y Hx Hy. cbn in Hx, Hy. assert (x = 0) as -> by lia. assert (y = 0) as -> by lia. split; vm_compute; reflexivity.
  Qed.
End Values.
Lemma ch_goal : systems_of [str "left"] (goal chain) /\ no_diff_tuple (names chain) (operators chain) (goal chain) /\ proper_term all_ascii (names chain) (operators chain) (macros chain) (side (str "left") (goal chain)).
Proof.
  split; [|split].
  - intros l Hl. assert (D : deep 20 (goal chain) = true) by (vm_compute; reflexivity). apply (subs_all _ _ _ D) in Hl. vm_compute in Hl. repeat (destruct Hl as [Hl|Hl]; [discriminate Hl|]). destruct Hl.
  - split; intros p l args _ H; [destruct (ch_not_tuple _ H)|destruct (ch_not_tuple' _ H)].
  - set (t := side (str "left") (goal chain)). assert (D : deep 20 t = true) by (vm_compute; reflexivity). constructor.
    + intros p args _ H. destruct (ch_not_tuple _ H).
    + intros p args _ H. destruct (ch_not_tuple' _ H).
    + intros i b H. apply (subs_all _ _ _ D) in H. vm_compute in H. repeat (destruct H as [H|H]; [discriminate H|]). destruct H.
    + intros p args ts H _. apply (subs_all _ _ _ D) in H. vm_compute in H. repeat (destruct H as [H|H]; [discriminate H|]). destruct H.
    + assert (V : forall x, variable_of (macros chain) t x -> x = str "i").
      { intros x [(v & H & ->)|(p & a & ts & l & H & E & I)].
        - apply (subs_all _ _ _ D) in H. vm_compute in H. repeat (destruct H as [H|H]; [try discriminate H; injection H as <-; reflexivity|]). destruct H.
        - apply (subs_all _ _ _ D) in H. vm_compute in H. repeat (destruct H as [H|H]; [discriminate H|]). destruct H. }
      intros x y Hx Hy _. rewrite (V x Hx), (V y Hy). reflexivity.
Qed.
Definition ch_macros : list (name * _) := Eval vm_compute in Source_Model.d_macros ch_denv.
Definition ch_declared : list (name * entry) := Eval vm_compute in d_funs ch_denv.
Lemma ch_layered : layered ch_env an_rank.
Proof.
  assert (Em : Source_Model.d_macros ch_denv = ch_macros) by (vm_compute; reflexivity). assert (Ef : d_funs ch_denv = ch_declared) by (vm_compute; reflexivity).
  split.
  - intros m mc H. unfold ch_env in H. rewrite penv_macros, Em in H. apply lookup_in in H. unfold ch_macros in H. repeat (destruct H as [H|H]; [injection H as <- <-; cbn; tauto|]); destruct H.
  - intros b f fc st H. unfold ch_env in H. rewrite penv_functions, Ef in H. destruct (lookup f ch_declared) as [e|] eqn:E; [|discriminate H]. injection H as <-. apply lookup_in in E.
    assert (A : Forall (fun e => forall st, fc_step (entry_cache (snd e)) = Some st -> forall b : bool, calls_only (fun c' => an_rank c' < 1) (if b then st_msg st else st_cond st)) ch_declared).
    { unfold ch_declared. repeat (apply Forall_cons; [cbn [snd entry_cache fc_step]; intros st' [= <-]; intros [|]; cbn; repeat split; lia|]). apply Forall_nil. }
    rewrite Forall_forall in A. intros Hs. exact (A _ E _ Hs b).
Qed.
Example C110_example :
  (exists x, convert_dump all_ascii sorts (@in_order) 10 chain = OOk x /\ aget x 0 = Some (alternative 0 chain)) /\
  coded ch_code (cv_sorts ch_code) ch_functions (cv_keywords ch_code) /\ StronglySorted lex [str "left"] /\ (forall a, is_action chain a -> proper a) /\
  systems_of [str "left"] (goal chain) /\ no_diff_tuple (names chain) (operators chain) (goal chain) /\ proper_term all_ascii (names chain) (operators chain) (macros chain) (side (str "left") (goal chain)) /\
  exists so p s' mval, let w := ch_whole p in let env := penv_of (so_env so) in let qsem := fun _ _ _ => 0 in let S := ch_source mval in
    read_from (cv_sorts ch_code) ch_functions (cv_keywords ch_code) (map (to_item ch_code) (alternative 0 chain)) so (d_funs (so_env so)) false 20 p s' ch_sig w /\ direct_parts (p_qs s') p /\
    weaker (fun M _ s rho => Smt_Spec.sholds s rho) /\ (forall k, invariant (skolems_of ch_sig (table_of (p_qs s')) w k) K109) /\
    all_proved ch_sig (table_of (p_qs s')) RSymbolic K109 (fun M _ s rho => Smt_Spec.sholds s rho) w p false (fun _ => ch_crypto p) (fun _ => 0) /\ ch_crypto p <> [] /\
    K109 ch_M /\ execution ch_sig (table_of (p_qs s')) RSymbolic w ch_M /\ (forall k, Sound_Spec.assumed (skolems_of ch_sig (table_of (p_qs s')) w k) ch_M (ch_crypto p)) /\
    unfolds (M := ch_M) env qsem mval /\ extensional ch_M qsem /\ respects qsem (p_qs s') /\
    agree all_ascii (Dump_Model.csort all_ascii sorts chain) (names chain) (operators chain) (macros chain) S (reading env qsem mval ch_code) /\
    follows_flow chain S /\ projects (reading env qsem mval ch_code).
Proof.
  split; [apply has_alternative; vm_compute; reflexivity|]. split; [exact ch_coded|]. split; [repeat constructor|]. split; [exact ch_proper|]. destruct ch_goal as (G1 & G2 & G3).
  split; [exact G1|]. split; [exact G2|]. split; [exact G3|].
  destruct ch_holds as (so & p & s' & D & H & F). pose proof (cf_qs _ _ _ F) as Qs.
  assert (Ee : penv_of (so_env so) = ch_env) by (unfold ch_env, ch_denv; rewrite D; reflexivity).
  assert (Di : forall f, In f (map order_axiom (pa_orders p) ++ pa_query p :: pa_asserts p ++ pa_lemmas p ++ ch_crypto p) -> direct f).
  { intros f Hf. apply directb_spec. pose proof (cf_direct _ _ _ F) as X. rewrite forallb_forall in X. exact (X f Hf). }
  destruct (C14_calls_have_a_meaning ch_env an_rank) with (M := ch_M) (qsem := fun (_ : qkind) (_ : list sort) (_ : list nat -> list nat) => 0) as (mval & Hm & _).
  { exact ch_layered. }
  { intros k ss F0 G0 _. reflexivity. }
  assert (R : read_from (cv_sorts ch_code) ch_functions (cv_keywords ch_code) ch_file so (d_funs (so_env so)) false 20 p s' ch_sig (ch_whole p)).
  { split.
    - eapply coded_builtins. exact ch_coded.
    - exact (eq_trans ch_read_eq D).
    - exact ch_tame.
    - rewrite Ee. exact ch_gentle.
    - rewrite Ee. exact ch_counted.
    - apply Permutation_refl.
    - exact H.
    - split; [apply belowb_spec, (cf_below _ _ _ F)|lia].
    - split; cbn; auto; [apply incl_tl, incl_appl, incl_refl|apply incl_tl, incl_refl].
    - rewrite (cf_crypto _ _ _ F). intros a [<-|[<-|[]]]; eexists; (split; [|constructor]); cbn; auto.
    - rewrite Qs. apply signaturesb_spec. exact (cf_signatures _ _ _ F).
    - split.
      + apply Forall_forall. intros f Hf. apply in_map_iff in Hf as (g & <- & Hg). cbn [wp_gen gp_funs ch_whole] in Hg. unfold ch_funs in Hg.
        apply in_app_iff in Hg as [Hg|Hg]; cbn in Hg; repeat destruct Hg as [<-|Hg]; try destruct Hg; try exact I; try reflexivity; split; reflexivity.
      + reflexivity.
      + intros ins out [= _ <-]. reflexivity.
    - intros f Hf. left. pose proof (cf_settled _ _ _ F) as X. rewrite forallb_forall in X. specialize (X f Hf). intros E. unfold Propagate_Spec.is_evaluation in E. destruct (Propagate_Spec.matrix f) as [|[] ?|]; try contradiction. discriminate X. }
  exists so, p, s', mval. cbv zeta. rewrite Ee. split; [exact R|]. split; [|split; [|split; [|split; [|split; [|split; [|split; [|split; [|split; [|split; [|split; [|split; [|split]]]]]]]]]]]].
  - rewrite Qs. split.
    + intros [|k] q f E; discriminate E.
    + intros o Ho. apply Di. apply in_app_iff. left. apply in_map. exact Ho.
    + intros f Hf. apply Di. apply in_app_iff. right. destruct Hf as [Hf|Hf]; [left; exact Hf|right]. rewrite in_app_iff in *. rewrite in_app_iff. tauto.
  - intros M g s rho Hs. exact Hs.
  - intros k. apply K109_invariant.
  - rewrite Qs. intros k pk Hy. pose proof (asking_assembled _ _ _ _ _ (rf_assembled _ _ _ _ _ _ _ _ _ _ _ _ R) Hy) as Asm.
    rewrite (cf_query _ _ _ F), (cf_lemmas _ _ _ F) in Hy. destruct k as [|k]; [|destruct k; discriminate Hy].
    apply (f_equal (fun o => match o with Some x => x | None => pk end)) in Hy. change (ch_problem p = pk) in Hy. subst pk. apply ch_proved; [exact (cf_asks _ _ _ F)|].
    destruct R as [B D' T G C P H' [Bl Fu] A Ca Sg U Se]. rewrite <- Qs. eapply C108_source; eauto.
  - exact (cf_many _ _ _ F).
  - exact ch_K.
  - apply ch_execution. exact (cf_steps _ _ _ F).
  - intros k fi V rho f Hf. apply holds_agrees; [exact (va_agrees _ _ _ V)|apply Di; rewrite !in_app_iff; cbn; rewrite !in_app_iff; tauto|].
    pose proof (cf_true _ _ _ F rho) as X. rewrite forallb_forall in X. exact (X f Hf).
  - exact Hm.
  - intros k ss F0 G0 _. reflexivity.
  - rewrite Qs. intros [|i] t E; discriminate.
  - apply ch_agree.
  - apply ch_flow.
  - apply ch_projects.
Qed.
