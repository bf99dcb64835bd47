(** C102: the problem read from a file is what the file says. *)
From Coq Require Import List Arith Bool Lia Permutation.
From Verif Require Import Syntax_Model Traversal_Spec Semantics_Spec Semantics_Proofs Sort_Model Order_Model Macro_Model Parser_Model Parser_Spec Parser_Proofs Parser_More_Proofs Source_Model Source_Spec Source_Problem_Spec
  Source_Proofs Source_More_Proofs Source_Problem_Proofs Source_Props Source_Closed_Props.
Import ListNotations.

(** In an accepted file without lets in its terms, except around the conditions and messages of steps, whose macro calls do not capture, whatever the order in which the table of functions is read, every step, cell, assignment,
    assertion, order and assumption of the file is in the problem, with its meaning, and nothing else is; [init] comes first. *)
Theorem C102_problem_partial :
  forall bs bf kw sh l so es il fuel p s', builtins bs bf kw -> declare_all bs bf kw sh l = DOk so -> Forall (gentle_item (penv_of (so_env so))) l ->
    Permutation es (d_funs (so_env so)) -> parse_parts so es il fuel (mkPst [] [] []) = Done p s' ->
    problem_read l (so_env so) (p_qs s') il p /\
    (arities_below (so_env so) fuel -> 4 <= fuel -> Forall2 (asks (so_env so)) (cryptos_of l) (pa_crypto p)).
Proof.
  intros bs bf kw sh l so es il fuel p s' B D P HP H. destruct (accepted_only bs bf kw sh l B so D) as (W & E & Q). rewrite E in *. cbn [so_query so_env full_source] in *.
  eapply parts_read; eauto.
Qed.
Print Assumptions C102_problem_partial.

(** A file with two cells, two steps, a let, two assignments to the same cell, an order, a macro, lemmas calling it and the condition of a step, and an assumption. *)
Definition ex_file102 : list item :=
  [ IQuery (TQuant QForall [(64, 50)] (TInfix OImplies [TApp 80 [TApp 44 [TVar 64]]; TQuant QExists [(67, 50)] (TInfix OEq [TApp 41 [TVar 64]; TApp 41 [TVar 67]])]));
    ICell 43 [50] 22; ICell 48 [] 22;
    IStep (mkStepAst 44 [(61, 50)] (TQuant QExists [(63, 50)] (TInfix OEq [TVar 5; TApp 41 [TVar 63]]))
             (TFind [(63, 50)] (TInfix OEq [TApp 41 [TVar 63]; TVar 5]) (TApp 40 [TApp 41 [TVar 61]; TApp 41 [TVar 63]]) (TVar 7))
             [mkAsgAst (Some [(62, 50)]) 43 [TVar 62] (TApp 40 [TVar 5; TApp 41 [TVar 62]]); mkAsgAst None 48 [] (TVar 5)]);
    IStep (mkStepAst 45 [] (TVar 8) (TLet 71 22 (TApp 40 [TVar 5; TVar 5]) (TApp 40 [TVar 71; TVar 5])) [mkAsgAst None 48 [] (TApp 40 [TVar 5; TVar 5])]);
    IType 50; IFun 40 [22; 22] 22; IFun 41 [50] 25;
    IAssert (TQuant QForall [(65, 50)] (TInfix OEq [TApp 41 [TVar 65]; TVar 7]));
    IOrder (mkOrder QForall [(66, 50)] None OpLt (TApp 44 [TVar 66]) (TVar 45));
    ILet 70 [(60, 50); (69, 22)] (TInfix OEq [TApp 40 [TVar 69; TApp 41 [TVar 60]]; TVar 69]);
    ILemma (TQuant QForall [(64, 50)] (TInfix OImplies [TStepMac false 44 (Some [TVar 64]); TMac 70 [TVar 64; TApp 41 [TVar 64]]]));
    ILemma (TApp 80 [TVar 45]); ICrypto (mkCryptoAst n_nonce [] []) ].
Definition low (n : nat) (e : name * entry) : bool :=
  match snd e with EnFun fc => match fc_kind fc with SgFixed ss _ => length ss <? n | _ => true end | _ => true end.
Lemma low_below d n : forallb (low n) (d_funs d) = true -> arities_below d n.
Proof. intros H x fc ss o L K. apply lookup_in in L. rewrite forallb_forall in H. apply H in L. unfold low in L. cbn in L. rewrite K in L. apply Nat.ltb_lt in L. exact L. Qed.
Definition ex_env102 : penv := penv_of (match declare_all ex_sorts ex_builtins101 ex_keywords false ex_file102 with DOk so => so_env so | _ => new_env [] [] [] false end).
Lemma ex_item102 i : match i with
  | IStep a => let_body ex_env102 (S (length (sa_params a))) (sa_cond a) /\ let_body ex_env102 (S (length (sa_params a))) (sa_msg a) /\ Forall (fun x => Forall plain (aa_args x) /\ plain (aa_term x)) (sa_asgs a)
  | IAssert t | ILemma t | IQuery t => plain t
  | IOrder o => plain (od_t1 o) /\ plain (od_t2 o) /\ forall g, od_guard o = Some g -> plain g
  | _ => True
  end -> gentle_item ex_env102 i.
Proof.
  destruct i; cbn; intros H; auto using ex_gentle.
  - destruct H as (H1 & H2 & H3). split; [|split]; auto. refine (Forall_impl _ _ H3). intros x [Ha Ht]. split; [|apply ex_gentle; exact Ht]. intros t Hin. rewrite Forall_forall in Ha. apply ex_gentle. auto.
  - destruct H as (H1 & H2 & H3). split; [|split]; auto using ex_gentle.
Qed.
Lemma ex_lemma102 : gentle ex_env102 true 0 (TQuant QForall [(64, 50)] (TInfix OImplies [TStepMac false 44 (Some [TVar 64]); TMac 70 [TVar 64; TApp 41 [TVar 64]]])).
Proof.
  apply ge_quant. apply ge_infix. intros a [<-|[<-|[]]].
  - apply ge_step; [reflexivity|intros a [<-|[]]; apply ge_var|]. intros fc st H Hs. vm_compute in H. injection H as <-. injection Hs as <-. cbn [st_cond st_args length].
    split; [|split; [|split; [apply ex_gentle; cbn; tauto|left; lia]]].
    + split; [eexists; reflexivity|]. split; [reflexivity|]. split; [intros []; vm_compute; reflexivity|]. cbn. unfold n_in. repeat (apply NoDup_cons; [cbn; intuition lia|]). apply NoDup_nil.
    + repeat split. intros [] fc n H; vm_compute in H; injection H as <-; intros [= <-]; cbn; lia.
  - apply ge_mac; [reflexivity|intros a [<-|[<-|[]]]; apply ex_gentle; cbn; tauto|]. intros mc H.
    assert (E : e_macros ex_env102 70 = Some (mkMac [(60, SIndex 6); (69, SMessage)] (TInfix OEq [TApp 40 [TVar 69; TApp 41 [TVar 60]]; TVar 69]))) by (vm_compute; reflexivity).
    rewrite E in H. injection H as <-. cbn [mc_args mc_body length]. split; [repeat (apply NoDup_cons; [cbn; intuition lia|]); apply NoDup_nil|].
    split; [repeat split; intros [] fc n H; vm_compute in H; injection H as <-; intros [= <-]; cbn; lia|]. split; [apply ex_gentle; cbn; tauto|left; lia].
Qed.
Ltac ex_let := apply lb_let; [apply apl_app; intros ? [<-|[<-|[]]]; apply apl_var|repeat split; discriminate|vm_compute; auto|apply lb_gentle, ex_gentle; cbn; tauto].
Example C102_example :
  builtins ex_sorts ex_builtins101 ex_keywords /\ Forall (gentle_item ex_env102) ex_file102 /\
  exists so p s', declare_all ex_sorts ex_builtins101 ex_keywords false ex_file102 = DOk so /\ penv_of (so_env so) = ex_env102 /\
    parse_parts so (d_funs (so_env so)) false 20 (mkPst [] [] []) = Done p s' /\
    (length (p_qs s') = 2 /\ map (fun c => length (ce_asgs c)) (pa_cells p) = [1; 2] /\ length (pa_steps p) = 3 /\ length (pa_orders p) = 1 /\ length (pa_lemmas p) = 2 /\ length (pa_crypto p) = 1 /\
     arities_below (so_env so) 20).
Proof.
  split; [exact ex_builtins101_fine|]. split.
  - repeat (apply Forall_cons; [exact ex_lemma102 || (apply ex_item102; cbn; repeat split; try (apply lb_gentle, ex_gentle; cbn; tauto); try ex_let; repeat constructor; try discriminate)|]). apply Forall_nil.
  - destruct (read_parts (declare_all ex_sorts ex_builtins101 ex_keywords false ex_file102) false 20 (fun so p s => length (p_qs s) = 2 /\ map (fun c => length (ce_asgs c)) (pa_cells p) = [1; 2] /\
      length (pa_steps p) = 3 /\ length (pa_orders p) = 1 /\ length (pa_lemmas p) = 2 /\ length (pa_crypto p) = 1 /\ forallb (low 20) (d_funs (so_env so)) = true)) as (so & p & s' & H1 & H2 & H3);
      [vm_compute; repeat split; reflexivity|]. exists so, p, s'. split; [exact H1|]. split; [unfold ex_env102; rewrite H1; reflexivity|]. split; [exact H2|]. intuition. apply low_below. assumption.
Qed.

(** [f(let x = empty in x, x) == empty] is accepted as an assertion and has a free variable in the problem. *)
Definition leaking_file : list item :=
  [ IQuery (TVar 8); IFun 40 [22; 22] 22; IAssert (TInfix OEq [TApp 40 [TLet 71 22 (TVar 7) (TVar 71); TVar 71]; TVar 7]) ].
Theorem C102_refuted : builtins ex_sorts ex_builtins101 ex_keywords /\
  exists so p s', declare_all ex_sorts ex_builtins101 ex_keywords false leaking_file = DOk so /\
    parse_parts so (d_funs (so_env so)) false 20 (mkPst [] [] []) = Done p s' /\ ~ problem_read leaking_file (so_env so) (p_qs s') false p.
Proof.
  split; [exact ex_builtins101_fine|].
  destruct (read_parts (declare_all ex_sorts ex_builtins101 ex_keywords false leaking_file) false 20 (fun so p s =>
     pa_asserts p = [FFun (Fb CEq) [FFun (Feval SMessage) [FFun (Fuser 5) [FFun (Fuser 0) []; FVar (mkVar 0 SMessage)]]; FFun (Feval SMessage) [FFun (Fuser 0) []]]]))
    as (so & p & s' & H1 & H2 & H3); [vm_compute; reflexivity|].
  exists so, p, s'. split; [exact H1|]. split; [exact H2|]. intros R. pose proof (pr_asserts _ _ _ _ _ R) as A. rewrite H3 in A. cbn in A.
  inversion A as [|? f ? l' [[W _] _] A' E1 E2]; subst. apply (Nat.nlt_0_r 0), W.
  eapply occurs_free_fun; [left; reflexivity|]. eapply occurs_free_fun; [left; reflexivity|]. eapply occurs_free_fun; [right; left; reflexivity|].
  apply (occurs_free_var (mkVar 0 SMessage)).
Qed.
Print Assumptions C102_refuted.
