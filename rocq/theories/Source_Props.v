(** Properties of the declarations, steps and cryptographic assumptions of a file (C97-C100). *)
From Coq Require Import List Arith Bool Lia Permutation.
From Verif Require Import Syntax_Model Sort_Model Order_Model Macro_Model Parser_Model Parser_Spec Parser_Proofs Parser_More_Proofs Source_Model Source_Spec Source_Proofs Source_More_Proofs.
Import ListNotations.

(** C97: a file gets past the declarations exactly when its names are declared once, the types of parameters and
    function results exist, [init] has no parameters and there is one query. *)
Theorem C97_accepted :
  forall bs bf kw sh l, builtins bs bf kw ->
    (exists so, declare_all bs bf kw sh l = DOk so) <-> well_declared bs bf kw l.
Proof.
  intros bs bf kw sh l B. split.
  - intros (so & H). apply (accepted_only bs bf kw sh l B so H).
  - intros W. destruct (accepted_all bs bf kw sh l B W) as (q & _ & H). eauto.
Qed.
Print Assumptions C97_accepted.

(** Every name then denotes what its declaration says, whatever the order of the declarations. *)
Theorem C97_declared :
  forall bs bf kw sh l so, builtins bs bf kw -> declare_all bs bf kw sh l = DOk so -> declared bs bf l so.
Proof.
  intros bs bf kw sh l so B H. destruct (accepted_only bs bf kw sh l B so H) as (W & E & Hq). rewrite E. apply declared_full; assumption.
Qed.
Print Assumptions C97_declared.

Lemma flat_permutation {A B} (g : A -> list B) l l' : Permutation l l' -> Permutation (flat_map g l) (flat_map g l').
Proof. intros P. induction P as [|a l l' P IH|a b l|l1 l2 l3 P IH P' IH']; cbn; [constructor|apply Permutation_app_head; exact IH|rewrite !app_assoc; apply Permutation_app_tail, Permutation_app_comm|eapply Permutation_trans; eauto]. Qed.

(** The items of a file may come in any order. *)
Theorem C97_order :
  forall bs bf kw sh l l' so, builtins bs bf kw -> Permutation l l' -> declare_all bs bf kw sh l = DOk so ->
    exists so', declare_all bs bf kw sh l' = DOk so' /\ so_query so' = so_query so.
Proof.
  intros bs bf kw sh l l' so B P H. destruct (accepted_only bs bf kw sh l B so H) as ([[Nt Ft] [N Hn] Nm Hu Hr Hi _] & _ & Hq).
  assert (Pin : forall i, In i l <-> In i l') by (intros i; split; apply Permutation_in; [exact P|apply Permutation_sym; exact P]).
  assert (Pt : Permutation (types_of l) (types_of l')) by (apply flat_permutation; exact P).
  assert (Pn : Permutation (names_of l) (names_of l')) by (apply flat_permutation; exact P).
  assert (Pm : Permutation (macros_of l) (macros_of l')) by (apply flat_permutation; exact P).
  assert (Pq : Permutation (queries_of l) (queries_of l')) by (apply flat_permutation; exact P).
  rewrite Hq in Pq. apply Permutation_length_1_inv in Pq.
  assert (W : well_declared bs bf kw l').
  { split.
    - split; [eapply Permutation_NoDup; eauto|]. intros x Hx. apply Ft. eapply Permutation_in; [apply Permutation_sym; exact Pt|exact Hx].
    - split; [eapply Permutation_NoDup; eauto|]. intros x Hx. apply Hn. eapply Permutation_in; [apply Permutation_sym; exact Pn|exact Hx].
    - eapply Permutation_NoDup; eauto.
    - intros i x Hi' Hx. apply Pin in Hi'. destruct (Hu i x Hi' Hx) as [?|H1]; [auto|]. right. eapply Permutation_in; eauto.
    - intros n args out H1. apply Pin in H1. eapply Hr; eauto.
    - intros H6. destruct Hi as (a & Ha & E1 & E2); [eapply Permutation_in; [apply Permutation_sym; exact Pn|exact H6]|]. exists a. split; [apply Pin; exact Ha|auto].
    - eauto. }
  destruct (accepted_all bs bf kw sh l' B W) as (q & Hq' & H'). exists (full_source bs bf kw sh l' q). split; [exact H'|]. rewrite Pq in Hq'. injection Hq' as ->. reflexivity.
Qed.
Print Assumptions C97_order.

(** A file with a type, a name, functions, a cell, a macro and two steps. *)
Definition ex_sorts : list (name * sort) := [(20, SBool); (21, SCondition); (22, SMessage); (23, SBitstring); (24, SStep); (25, SName)].
Definition ex_builtins : list (name * fcache) := [(7, fc_builtin (Fuser 0) (SgFixed [] SMessage)); (8, TRUE_TA_CACHE)].
Definition ex_keywords : list name := [30; 31].
Definition ex_file : list item :=
  [ IFun 40 [22; 50] 22; IType 50; IFun 41 [50] 25; IFun 42 [20] 20; ICell 43 [50] 22; ILet 40 [(60, 50)] (TApp 40 [TVar 7; TVar 60]);
    IStep (mkStepAst 44 [(61, 50)] (TVar 8) (TApp 40 [TVar 5; TVar 61])
             [mkAsgAst (Some []) 43 [TVar 61] (TApp 40 [TVar 5; TVar 61]); mkAsgAst (Some [(62, 50)]) 43 [TVar 62] (TApp 40 [TVar 7; TVar 61])]); IAssert (TVar 8); IQuery (TVar 8) ].
Lemma ex_builtins_fine : builtins ex_sorts ex_builtins ex_keywords.
Proof.
  split.
  - cbn; repeat (apply NoDup_cons; [cbn; intuition lia|]); apply NoDup_nil.
  - intros x s H. cbn in H |- *. repeat destruct H as [[= <- <-]|H]; auto 8.
  - cbn; repeat (apply NoDup_cons; [cbn; intuition lia|]); apply NoDup_nil.
  - cbn. intuition lia.
Qed.
Lemma read_so (r : dres source) (P : source -> Prop) : match r with DOk so => P so | _ => False end -> exists so, r = DOk so /\ P so.
Proof. destruct r; try contradiction. eauto. Qed.
Example C97_example :
  exists so, declare_all ex_sorts ex_builtins ex_keywords false ex_file = DOk so /\
    (e_sorts (penv_of (so_env so)) 50 = Some (SIndex 6) /\
    e_functions (penv_of (so_env so)) 40 = Some (mkFc (Fuser 2) (SgFixed [SMessage; SIndex 6] SMessage) None None) /\
    e_functions (penv_of (so_env so)) 42 = Some (mkFc (Fuser 4) (SgFixed [SCondition] SCondition) None None) /\
    e_functions (penv_of (so_env so)) 6 <> None).
Proof. apply read_so. vm_compute. split; [reflexivity|]. split; [reflexivity|]. split; [reflexivity|]. discriminate. Qed.
Example C97_example_rejected :
  declare_all ex_sorts ex_builtins ex_keywords false (IFun 44 [] 22 :: ex_file) = DErr /\ declare_all ex_sorts ex_builtins ex_keywords false (IQuery (TVar 8) :: ex_file) = DErr.
Proof. split; vm_compute; reflexivity. Qed.

(** C98: a file that is not well declared is rejected with an error, unless it declares a function into an index type or
    into bitstrings: *)
Theorem C98_rejected_partial :
  forall bs bf kw sh l, builtins bs bf kw -> ~ well_declared bs bf kw l ->
    (forall n args out, In (IFun n args out) l -> ~ In (out, SBitstring) bs /\ ~ In out (types_of l)) ->
    declare_all bs bf kw sh l = DErr.
Proof.
  intros bs bf kw sh l B W H. destruct (declare_all bs bf kw sh l) as [| |so] eqn:E; [reflexivity| |].
  - destruct (declare_panic bs bf kw sh l B E) as (n & args & out & Hin & Ho). apply H in Hin. tauto.
  - elim W. apply (accepted_only bs bf kw sh l B so E).
Qed.
Print Assumptions C98_rejected_partial.
Example C98_example : ~ well_declared ex_sorts ex_builtins ex_keywords (IFun 44 [] 22 :: ex_file) /\
  forall n args out, In (IFun n args out) (IFun 44 [] 22 :: ex_file) -> ~ In (out, SBitstring) ex_sorts /\ ~ In out (types_of (IFun 44 [] 22 :: ex_file)).
Proof.
  split.
  - intros [_ [N _] _ _ _ _ _]. cbn in N. inversion N as [|? ? N1 _]; subst. apply N1. cbn. auto 8.
  - intros n args out H. cbn in H. repeat destruct H as [[= <- <- <-]|H]; try discriminate; try contradiction; cbn; intuition congruence.
Qed.

(** such a function makes the reader panic, *)
Theorem C98_panic_refuted :
  exists l, builtins ex_sorts ex_builtins ex_keywords /\ In (IFun 45 [] 50) l /\ declare_all ex_sorts ex_builtins ex_keywords false l = DPanic.
Proof. exists (IFun 45 [] 50 :: ex_file). split; [apply ex_builtins_fine|]. split; [left; reflexivity|]. vm_compute. reflexivity. Qed.
Print Assumptions C98_panic_refuted.

(** and the type of the contents of a cell need not exist. *)
Theorem C98_cell_type_refuted :
  exists l, In (ICell 46 [] 99) l /\ exists so, declare_all ex_sorts ex_builtins ex_keywords false l = DOk so /\ e_sorts (penv_of (so_env so)) 99 = None.
Proof. exists (ICell 46 [] 99 :: ex_file). split; [left; reflexivity|]. apply read_so. vm_compute. reflexivity. Qed.
Print Assumptions C98_cell_type_refuted.

(** C99: a step without lets, except around its condition and message, whose macro calls do not capture, means what it says: its parameters are its variables, [in] is its input, and each
    assignment goes to the cell it names, with its own fresh variables. *)
Theorem C99_step_partial :
  forall d fuel j st asgs s p l s', let n := length (st_args st) in
    let_body (penv_of d) (S n) (st_msg st) -> let_body (penv_of d) (S n) (st_cond st) -> Forall (gentle_asg (penv_of d) n) asgs ->
    parse_step_decl d fuel j st asgs s = Done (p, l) s' ->
    step_read (penv_of d) (p_qs s') j st p /\
    Forall2 (fun a x => fst x = aa_cell a /\ exists fc n sorts, lookup (fst x) (d_funs d) = Some (EnCell fc n sorts) /\ asg_read (penv_of d) (p_qs s') j st p sorts a (snd x)) asgs l.
Proof. intros d fuel j st asgs s p l s' n Hm Hc Ha H. apply (step_decl_good d fuel j st asgs s p l s' Hm Hc Ha H). Qed.
Print Assumptions C99_step_partial.

(** The environment and the step of the file above. *)
Definition read_env (l : list item) : denv :=
  match declare_all ex_sorts ex_builtins ex_keywords false l with DOk so => so_env so | _ => new_env [] [] [] false end.
Definition ex_step : step_cache := mkStep [(61, SIndex 6)] (TApp 40 [TVar 5; TVar 61]) (TVar 8).
Definition ex_asgs : list assign_ast := [mkAsgAst (Some []) 43 [TVar 61] (TApp 40 [TVar 5; TVar 61]); mkAsgAst (Some [(62, 50)]) 43 [TVar 62] (TApp 40 [TVar 7; TVar 61])].
Lemma ex_gentle env n t : plain t -> gentle env true n t.
Proof. intros H. apply (gentle_true _ false), plain_gentle. exact H. Qed.
Example C99_example :
  (forall t, plain t -> gentle (penv_of (read_env ex_file)) true 2 t) /\ plain (st_msg ex_step) /\ plain (st_cond ex_step) /\ Forall (gentle_asg (penv_of (read_env ex_file)) 1) ex_asgs /\ NoDup (map fst (st_args ex_step) ++ [5]) /\
  match lookup 44 (d_funs (read_env ex_file)) with Some (EnStep _ st a) => st = ex_step /\ sa_asgs a = ex_asgs | _ => False end /\
  match parse_step_decl (read_env ex_file) 5 6 ex_step ex_asgs (mkPst [] [] []) with
  | Done (p, l) _ =>
      let x := mkVar 0 (SIndex 6) in let y := mkVar 2 (SIndex 6) in
      ps_msg p = FFun (Fuser 2) [FFun (Fmacro MInput) [FFun (Fstep 6) [FVar x]]; FVar x] /\
      map (fun a => (as_args (snd a), as_content (snd a), as_fresh (snd a))) l =
        [([FVar x], FFun (Fuser 2) [FFun (Fmacro MInput) [FFun (Fstep 6) [FVar x]]; FVar x], []); ([FVar y], FFun (Fuser 2) [FFun (Fuser 0) []; FVar x], [y])]
  | _ => False
  end.
Proof.
  split; [intros t; apply ex_gentle|]. split; [cbn; tauto|]. split; [cbn; tauto|].
  split; [repeat (apply Forall_cons || apply Forall_nil); (split; [intros t [<-|[]]|]); apply ex_gentle; cbn; tauto|].
  split; [cbn; repeat (apply NoDup_cons; [cbn; intuition lia|]); apply NoDup_nil|]. split; vm_compute; split; reflexivity.
Qed.

(** [let x = f(in, i) in f(x, i)]. *)
Definition ex_step1 : step_cache := mkStep [(61, SIndex 6)] (TLet 66 22 (TApp 40 [TVar 5; TVar 61]) (TApp 40 [TVar 66; TVar 61])) (TVar 8).
Example C99_let_example :
  let_body (penv_of (read_env ex_file)) 2 (st_msg ex_step1) /\
  match parse_step_decl (read_env ex_file) 5 6 ex_step1 [] (mkPst [] [] []) with
  | Done (p, l) _ => let x := mkVar 0 (SIndex 6) in
      ps_msg p = FFun (Fuser 2) [FFun (Fuser 2) [FFun (Fmacro MInput) [FFun (Fstep 6) [FVar x]]; FVar x]; FVar x]
  | _ => False
  end.
Proof.
  split; [|vm_compute; reflexivity].
  apply lb_let; [apply apl_app; intros a [<-|[<-|[]]]; apply apl_var|repeat split; discriminate|vm_compute; auto|apply lb_gentle, ex_gentle; cbn; tauto].
Qed.

(** The same with a macro, of which the step has more variables than it has parameters, and the condition of another step. *)
Definition ex_step2 : step_cache := mkStep [(61, SIndex 6)] (TMac 40 [TVar 61]) (TStepMac false 44 (Some [TVar 61])).
Example C99_calls_example :
  gentle (penv_of (read_env ex_file)) true 2 (st_msg ex_step2) /\ gentle (penv_of (read_env ex_file)) true 2 (st_cond ex_step2) /\ counted (penv_of (read_env ex_file)) (st_msg ex_step2) /\
  match parse_step_decl (read_env ex_file) 9 6 ex_step2 [] (mkPst [] [] []) with
  | Done (p, _) _ => ps_msg p = FFun (Fuser 2) [FFun (Fuser 0) []; FVar (mkVar 0 (SIndex 6))] /\ ps_cond p = FFun (Fta TTrue) []
  | _ => False
  end.
Proof.
  split.
  { apply ge_mac; [reflexivity|intros a [<-|[]]; apply ge_var|]. intros mc H. assert (E : e_macros (penv_of (read_env ex_file)) 40 = Some (mkMac [(60, SIndex 6)] (TApp 40 [TVar 7; TVar 60]))) by (vm_compute; reflexivity).
    rewrite E in H. injection H as <-. split; [repeat constructor; intros []|]. split; [repeat split; intros [] fc n H; vm_compute in H; injection H as <-; intros [= <-]; cbn; lia|].
    split; [apply ex_gentle; cbn; tauto|]. right. apply fl_app. intros a [<-|[<-|[]]]; apply fl_var. }
  split.
  { apply ge_step; [reflexivity|intros a [<-|[]]; apply ge_var|]. intros fc st H Hs. vm_compute in H. injection H as <-. injection Hs as <-.
    split; [|split; [repeat split|split; [apply ge_var|left; cbn; lia]]].
    split; [eexists; reflexivity|]. split; [reflexivity|]. split; [intros []; vm_compute; reflexivity|]. cbn. unfold n_in. repeat (apply NoDup_cons; [cbn; intuition lia|]). apply NoDup_nil. }
  split; [|vm_compute; split; reflexivity]. repeat split.
Qed.

(** The arguments of a cell are not counted: one too many is dropped, one too few is left out. *)
Theorem C99_cell_arguments_refuted :
  forall extra, exists a b p l s',
    lookup 43 (d_funs (read_env ex_file)) = Some (EnCell (mkFc (Fcell 5) (SgFixed [SIndex 6; SStep] SMessage) None None) 5 [SIndex 6]) /\
    parse_step_decl (read_env ex_file) 5 6 ex_step [mkAsgAst (Some []) 43 (TVar 61 :: extra) (TVar 7); mkAsgAst (Some []) 43 [] (TVar 7)] (mkPst [] [] []) = Done (p, l) s' /\
    map snd l = [a; b] /\ length (as_args a) = 1 /\ as_args b = [].
Proof. intros [|x extra]; do 5 eexists; (split; [vm_compute; reflexivity|]); (split; [vm_compute; reflexivity|]); (split; [vm_compute; reflexivity|]); split; reflexivity. Qed.
Print Assumptions C99_cell_arguments_refuted.

(** Two parameters may have the same name: the second one cannot be referred to. *)
Theorem C99_parameters_refuted :
  exists p s', parse_step_decl (read_env ex_file) 5 6 (mkStep [(61, SIndex 6); (61, SIndex 6)] (TApp 40 [TVar 5; TVar 61]) (TVar 8)) [] (mkPst [] [] []) = Done (p, []) s' /\
    ps_vars p = [mkVar 0 (SIndex 6); mkVar 1 (SIndex 6)] /\ declare_step (read_env ex_file) (mkStepAst 47 [(61, 50); (61, 50)] (TVar 8) (TApp 40 [TVar 5; TVar 61]) []) <> DErr /\
    forall i, In i (map vid (ps_vars p)) -> i = 0 \/ ~ exists q, nth_error (match ps_msg p with FFun _ [_; a] => [a] | _ => [] end) q = Some (FVar (mkVar i (SIndex 6))).
Proof.
  vm_compute. do 2 eexists. split; [reflexivity|]. split; [reflexivity|]. split; [discriminate|]. intros i [<-|[<-|[]]]; [auto|]. right. intros ([|[|q]] & H); discriminate.
Qed.
Print Assumptions C99_parameters_refuted.

(** C100: a cryptographic assumption is accepted exactly when its functions have the right signatures, and it is then the
    one asked for. *)
Theorem C100_accepted_partial :
  forall d fuel c, arities_below d fuel -> 4 <= fuel ->
    (exists a, parse_assert_crypto d fuel c = Done a (mkPst [] [] []) /\ asks d c a) \/
    parse_assert_crypto d fuel c = Error /\ forall a, ~ asks d c a.
Proof. intros d fuel c Ha Hf. destruct (crypto_decided d fuel Ha Hf c) as [H|[H Hn]]; [left; exact H|right; split; [exact H|exact Hn]]. Qed.
Print Assumptions C100_accepted_partial.
Theorem C100_unique : forall d c a a', asks d c a -> asks d c a' -> a = a'.
Proof. exact asks_unique. Qed.
Print Assumptions C100_unique.

Definition ex_crypto : list item := [IFun 70 [22; 22] 22; IFun 71 [22; 22; 22] 20; IFun 72 [22] 22; IFun 73 [22; 22; 22] 22; IFun 74 [] 22; IQuery (TVar 8)].
Example C100_example :
  arities_below (read_env ex_crypto) 4 /\
  parse_assert_crypto (read_env ex_crypto) 4 (mkCryptoAst 102 [70; 71] [110]) = Done (PUf (Fuser 2) (Fuser 3) true) (mkPst [] [] []) /\
  parse_assert_crypto (read_env ex_crypto) 4 (mkCryptoAst 103 [70; 71; 72] []) = Done (PEuf (Fuser 2) (Fuser 3) (Fuser 4)) (mkPst [] [] []) /\
  parse_assert_crypto (read_env ex_crypto) 4 (mkCryptoAst 106 [73; 70; 74] []) = Done (PCtxt (Fuser 5) (Fuser 2) (Fuser 6)) (mkPst [] [] []) /\
  parse_assert_crypto (read_env ex_crypto) 4 (mkCryptoAst 104 [71; 70] []) = Error.
Proof.
  split; [|vm_compute; auto]. intros x fc ss o H Hk. assert (Hin : In (x, EnFun fc) (d_funs (read_env ex_crypto))) by (apply lookup_in; exact H).
  clear H. vm_compute in Hin. repeat destruct Hin as [[= <- <-]|Hin]; try (cbn in Hk; injection Hk as <- <-; cbn; lia); try discriminate. destruct Hin.
Qed.

(** The option [recursive] of [unfolding] has no effect, *)
Theorem C100_recursive_refuted :
  forall d fuel, parse_assert_crypto d fuel (mkCryptoAst 108 [] [113]) = Done (PUnfolding false false) (mkPst [] [] []).
Proof. intros. reflexivity. Qed.
Print Assumptions C100_recursive_refuted.

(** and a fourth function given to [int-ctxt] need not exist. *)
Theorem C100_fourth_refuted :
  exists x, lookup x (d_funs (read_env ex_crypto)) = None /\
    parse_assert_crypto (read_env ex_crypto) 4 (mkCryptoAst 106 [73; 70; 74; x] []) = Done (PCtxt (Fuser 5) (Fuser 2) (Fuser 6)) (mkPst [] [] []).
Proof. exists 99. vm_compute. split; reflexivity. Qed.
Print Assumptions C100_fourth_refuted.
