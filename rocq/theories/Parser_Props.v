(** C10 to C17, C71. *)
From Coq Require Import List Arith Bool Lia.
From Verif Require Import Syntax_Model Traversal_Model Traversal_Spec Semantics_Spec Semantics_Proofs Subst_Model
  Sort_Model Parser_Model Parser_Spec Parser_Proofs Parser_More_Proofs.
Import ListNotations.

(** An environment for the examples: [f] of two messages, a predicate [p], a constant [c], a step [s(i)], a macro
    [m(x) = exists y: bool, p(x) && y] and a macro [m'(x) = f(x, x)]; the types are [idx], [msg], [bool]. *)
Definition n_f := 10. Definition n_p := 11. Definition n_c := 12. Definition n_s := 13. Definition n_q := 14.
Definition t_idx := 20. Definition t_msg := 21. Definition t_bool := 22.
Definition n_x := 30. Definition n_y := 31. Definition n_m := 40. Definition n_m' := 41. Definition n_loop := 42.
Definition xstep : step_cache := mkStep [(n_x, SIndex 0)] (TApp n_f [TVar n_in; TVar n_c]) (TVar n_true).
Definition xenv (shadowing : bool) : penv :=
  mkEnv (fun x => match x with
                  | 10 => Some (mkFc (Fuser 0) (SgFixed [SMessage; SMessage] SMessage) None None)
                  | 11 => Some (mkFc (Fuser_eval 1) (SgFixed [SBool; SBool] SBool) None None)
                  | 12 => Some (mkFc (Fuser 2) (SgFixed [] SMessage) None None)
                  | 13 => Some (mkFc (Fstep 0) (SgFixed [SIndex 0] SStep) None (Some xstep))
                  | 14 => Some (mkFc (Fuser_eval 3) (SgFixed [SIndex 0; SBool] SBool) None None)
                  | _ => None
                  end)
        (fun x => match x with 20 => Some (SIndex 0) | 21 => Some SMessage | 22 => Some SBool | _ => None end)
        (fun x => match x with
                  | 40 => Some (mkMac [(n_x, SBool)] (TQuant QExists [(n_y, t_bool)] (TApp n_p [TVar n_x; TVar n_y])))
                  | 41 => Some (mkMac [(n_x, SMessage)] (TApp n_f [TVar n_x; TVar n_x]))
                  | 42 => Some (mkMac [] (TMac n_loop []))
                  | _ => None
                  end)
        shadowing.
Definition s0 : pst := mkPst [] [] [].
(** What its calls mean. *)
Definition xval (b : bool) (M : structure) (qsem : qkind -> list sort -> (list (D M) -> list (D M)) -> D M) : callee -> realm -> list (D M) -> list (D M) -> D M :=
  call_value (xenv b) qsem (fun _ _ _ _ => dinj M false).
Lemma xval_unfolds b M qsem : unfolds (xenv b) qsem (xval b M qsem).
Proof.
  intros [m|w f] r vs ve.
  - do 43 (destruct m as [|m]; [reflexivity|]). reflexivity.
  - do 15 (destruct f as [|f]; [destruct w; reflexivity|]). reflexivity.
Qed.

(** ** C10 *)
(** An accepted term means what its lexical reading says: every identifier stands for its innermost binder, and calls of
    macros and steps for the bodies. Missing: lets (C15), calls that capture (C14), shadowing (refuted below), wrong numbers of
    arguments (C11, C12). *)
Theorem C10_elaboration_meaning_partial : forall env fuel t r es s f s',
  gentle env true (length (p_bv s)) t -> numbered (p_bv s) -> parse env fuel t r es s = Done f s' -> means env (p_bv s) (p_qs s') t r f.
Proof. exact plain_means. Qed.
Print Assumptions C10_elaboration_meaning_partial.

(** A whole assertion: no binder in scope, evaluated realm. *)
Theorem C10_assertion_meaning_partial : forall env fuel t s f s',
  gentle env true 0 t -> counted env t -> e_shadowing env = false -> parse_assert env fuel t s = Done f s' ->
  forall (M : structure) qsem mval, unfolds env qsem mval -> extensional M qsem -> respects qsem (p_qs s') ->
  forall rho : Semantics_Spec.env M, eval f rho = value env qsem mval t REvaluated (fun _ => None).
Proof. exact assert_means. Qed.
Print Assumptions C10_assertion_meaning_partial.

(** Without the shadowing option, an accepted quantifier binds new, distinct names of known types. *)
Theorem C10_no_shadowing : forall env fuel q vs b r es s f s',
  e_shadowing env = false -> parse env fuel (TQuant q vs b) r es s = Done f s' ->
  NoDup (map fst vs) /\
  (forall x ty, In (x, ty) vs -> e_functions env x = None /\ ~ In x (map fst (p_bv s)) /\ e_sorts env ty <> None).
Proof. exact quant_fresh. Qed.
Print Assumptions C10_no_shadowing.

(** [forall x, exists x, x] is read with the outer [x] when shadowing is allowed. *)
Theorem C10_shadowing_refuted : exists t f s',
  plain t /\ counted (xenv true) t /\ (forall fuel, 5 <= fuel -> parse_assert (xenv true) fuel t s0 = Done f s') /\
  p_qs s' = [] /\
  exists (M : structure) qsem mval, unfolds (xenv true) qsem mval /\ extensional M qsem /\
    forall rho : Semantics_Spec.env M, eval f rho <> value (xenv true) qsem mval t REvaluated (fun _ => None).
Proof.
  exists (TQuant QForall [(n_x, t_bool)] (TQuant QExists [(n_x, t_bool)] (TVar n_x))).
  exists (FQ QForall [mkVar 0 SBool] (FQ QExists [mkVar 1 SBool] (FVar (mkVar 0 SBool)))), s0.
  split; [cbn; auto|]. split; [cbn; auto|]. split; [|split; [reflexivity|]].
  - intros fuel H. do 5 (destruct fuel as [|fuel]; [lia|]). reflexivity.
  - exists (finM 1 (fun _ _ => 0)), (fun _ _ _ => 0), (xval true (finM 1 (fun _ _ => 0)) (fun _ _ _ => 0)). split; [apply xval_unfolds|]. split; [intros k ss F G _; reflexivity|]. intros rho. vm_compute. discriminate.
Qed.
Print Assumptions C10_shadowing_refuted.

(** [forall x y: idx, (exists z: bool, q(x, z)) => x = y] *)
Definition t_ex : term :=
  TQuant QForall [(n_x, t_idx); (n_y, t_idx)]
    (TInfix OImplies [TQuant QExists [(32, t_bool)] (TApp n_q [TVar n_x; TVar 32]); TInfix OEq [TVar n_x; TVar n_y]]).
Example C10_example : exists f s', gentle (xenv false) true 0 t_ex /\ counted (xenv false) t_ex /\ parse_assert (xenv false) 9 t_ex s0 = Done f s' /\
  f = FQ QForall [mkVar 0 (SIndex 0); mkVar 1 (SIndex 0)]
        (fimp (FQ QExists [mkVar 2 SBool] (FFun (Fuser_eval 3) [FVar (mkVar 0 (SIndex 0)); FVar (mkVar 2 SBool)]))
              (meq (FVar (mkVar 0 (SIndex 0))) (FVar (mkVar 1 (SIndex 0))))).
Proof.
  eexists _, _. split; [apply (gentle_true _ false), plain_gentle; repeat split|]. split; [|split; vm_compute; reflexivity].
  repeat split; try (intros [] fc n; cbn; intros [= <-] [= <-]; cbn; lia).
Qed.

(** ** C11 *)
(** Too few arguments are rejected. Missing: too many arguments, refuted below. *)
Theorem C11_too_few_rejected_partial : forall env fuel f args r es s g s' fc n,
  denotes env f r = Some fc -> arity (fc_kind fc) = Some n ->
  parse env fuel (TApp f args) r es s = Done g s' -> n <= length args.
Proof. exact app_enough_args. Qed.
Print Assumptions C11_too_few_rejected_partial.

(** Too many arguments are never rejected: the extra ones are ignored, whatever they are. *)
Theorem C11_extra_arguments_refuted : forall env fuel f args extra r es s fc,
  denotes env f r = Some fc -> arity (fc_kind fc) = Some (length args) ->
  parse env fuel (TApp f (args ++ extra)) r es s = parse env fuel (TApp f args) r es s.
Proof. exact app_extra_args. Qed.
Print Assumptions C11_extra_arguments_refuted.
(** The extra argument of an accepted term may not even be a term of the program: unknown name. *)
Example C11_example :
  (exists f s', parse_assert (xenv false) 9 (TApp n_p [TVar n_true; TVar n_false; TVar 999]) s0 = Done f s') /\
  parse_assert (xenv false) 9 (TVar 999) s0 = Error /\
  parse_assert (xenv false) 9 (TApp n_p [TVar n_true]) s0 = Error.
Proof. split; [eexists _, _|split]; vm_compute; reflexivity. Qed.

(** ** C12 *)
(** Chains of [&&], [||], [===] of any length, and the other operators with two operands, mean all their operands.
    Missing: longer chains of the other operators, refuted below. *)
Theorem C12_chain_meaning_partial : forall env fuel o ts r es s f s',
  Forall (gentle env true (length (p_bv s))) ts -> Forall (counted env) ts -> (o = OAnd \/ o = OOr \/ o = OHardEq \/ length ts = 2) ->
  numbered (p_bv s) -> NoDup (map fst (p_bv s)) -> e_shadowing env = false ->
  parse env fuel (TInfix o ts) r es s = Done f s' ->
  forall (M : structure) qsem mval, unfolds env qsem mval -> extensional M qsem -> respects qsem (p_qs s') -> forall rho : Semantics_Spec.env M,
  eval f rho = infix_value M o r (fun r' => map (fun t => value env qsem mval t r' (scope_of (p_bv s) rho)) ts).
Proof. exact chain_means. Qed.
Print Assumptions C12_chain_meaning_partial.

(** In [a => b => ...], [a == b == ...] and (evaluated) [a <=> b <=> ...] everything after [b] is ignored. *)
Theorem C12_long_chain_refuted : forall env fuel o a b rest r es s,
  o = OImplies \/ (o = OEq \/ o = OIff) /\ r = REvaluated ->
  parse env fuel (TInfix o (a :: b :: rest)) r es s = parse env fuel (TInfix o [a; b]) r es s.
Proof. exact chain_ignored. Qed.
Print Assumptions C12_long_chain_refuted.
Example C12_example : exists f s', parse_assert (xenv false) 9
    (TQuant QForall [(n_x, t_bool)] (TInfix OAnd [TVar n_x; TVar n_true; TInfix OImplies [TVar n_x; TVar n_x; TVar n_false]])) s0 = Done f s'
  /\ f = FQ QForall [mkVar 0 SBool] (FFun (Fb CAnd) [FVar (mkVar 0 SBool); TRUE; fimp (FVar (mkVar 0 SBool)) (FVar (mkVar 0 SBool))]).
Proof. eexists _, _. split; vm_compute; reflexivity. Qed.

(** ** C13 *)
(** Elaboration ends when macros and steps do not call each other in circles and no [<=>] is read in the symbolic
    realm. Missing: these two cases, refuted below. *)
Theorem C13_elaboration_terminates_partial : forall env rm rs n t r es s,
  ranked env rm rs -> calls_below env rm rs n r t ->
  exists k o, o <> Timeout /\ forall fuel, k <= fuel -> parse env fuel t r es s = o.
Proof. exact (fun env rm rs n t r es s H C => conv_all env rm rs H n t r es C s). Qed.
Print Assumptions C13_elaboration_terminates_partial.

(** [<=>] in the symbolic realm calls itself on the same operands forever. *)
Theorem C13_symbolic_iff_refuted : forall env fuel a b es s, parse env fuel (TInfix OIff [a; b]) RSymbolic es s = Timeout.
Proof. exact iff_loops. Qed.
Print Assumptions C13_symbolic_iff_refuted.
(** And so does a macro that calls itself. *)
Theorem C13_recursive_macro_refuted : forall env m fuel r es s,
  e_macros env m = Some (mkMac [] (TMac m [])) -> parse env fuel (TMac m []) r es s = Timeout.
Proof. exact macro_loops. Qed.
Print Assumptions C13_recursive_macro_refuted.
Example C13_example :
  let env := mkEnv (e_functions (xenv false)) (e_sorts (xenv false)) (fun x => if Nat.eqb x n_loop then None else e_macros (xenv false) x) false in
  ranked env (fun _ => 0) (fun _ => 0) /\
  calls_below env (fun _ => 0) (fun _ => 0) 1 REvaluated
    (TInfix OIff [TMac n_m [TVar n_true]; TInfix OEq [TStepMac true n_s (Some [TVar n_x]); TMac n_m' [TVar n_c]]]).
Proof.
  split; [|cbn; repeat split; try discriminate; lia].
  intros r. split.
  - intros m mc H. cbn in H.
    do 43 (destruct m as [|m]; [cbn in H; try discriminate H; injection H as <-; destruct r; cbn; auto|]). discriminate H.
  - intros f fc st H Hs. cbn in H.
    do 15 (destruct f as [|f]; [cbn in H; try discriminate H; injection H as <-; cbn in Hs; try discriminate Hs; injection Hs as <-; destruct r; cbn; auto|]).
    discriminate H.
Qed.

(** ** C14 *)
(** A call of a macro means its body with the parameters standing for the values of the arguments, provided nothing is bound in the body
    or at most as many binders are in scope as the macro has parameters; the same for the calls in the body and in the arguments.
    Missing: the other calls, where capture happens (refuted below). *)
Theorem C14_macro_meaning_partial : forall env fuel m mc args r es s g s',
  e_macros env m = Some mc -> gentle env true (length (mc_args mc)) (mc_body mc) -> counted env (mc_body mc) ->
  Forall (gentle env true (length (p_bv s))) args -> NoDup (map fst (mc_args mc)) ->
  numbered (p_bv s) -> parse env fuel (TMac m args) r es s = Done g s' ->
  length (p_bv s) <= length (mc_args mc) \/ flat env (mc_body mc) ->
  p_bv s' = p_bv s /\ length args = length (mc_args mc) /\
  (e_shadowing env = false -> Forall (counted env) args -> NoDup (map fst (p_bv s)) ->
   forall (M : structure) qsem mval, unfolds env qsem mval -> extensional M qsem -> respects qsem (p_qs s') -> forall rho : Semantics_Spec.env M,
     eval g rho = macro_value env qsem mval (mc_args mc) (mc_body mc) args r (scope_of (p_bv s) rho)).
Proof. exact macro_good. Qed.
Print Assumptions C14_macro_meaning_partial.

(** When macros and steps do not call each other in circles, calls have one and only one meaning. *)
Theorem C14_calls_have_a_meaning : forall env rank, layered env rank ->
  forall (M : structure) qsem, extensional M qsem ->
  exists mval, unfolds env qsem mval /\
    forall mval', unfolds env qsem mval' -> forall c r vs ve, mval' c r vs ve = mval c r vs ve.
Proof. exact calls_meaning. Qed.
Print Assumptions C14_calls_have_a_meaning.

(** Under two binders, the argument [y] of [m] is captured by the quantifier of its body. *)
Theorem C14_capture_refuted : exists mc args b g s',
  e_macros (xenv false) n_m = Some mc /\ plain (mc_body mc) /\ counted (xenv false) (mc_body mc) /\
  Forall plain args /\ Forall (counted (xenv false)) args /\ numbered b /\ NoDup (map fst b) /\
  (forall fuel, 5 <= fuel ->
     parse (xenv false) fuel (TMac n_m args) REvaluated (Some (PStatic SBool)) (mkPst [] b []) = Done g s') /\ p_qs s' = [] /\
  exists (M : structure) qsem mval (rho : Semantics_Spec.env M), unfolds (xenv false) qsem mval /\ extensional M qsem /\
    eval g rho <> macro_value (xenv false) qsem mval (mc_args mc) (mc_body mc) args REvaluated (scope_of b rho).
Proof.
  exists (mkMac [(n_x, SBool)] (TQuant QExists [(n_y, t_bool)] (TApp n_p [TVar n_x; TVar n_y]))), [TVar n_y],
    [(n_x, mkVar 0 SBool); (n_y, mkVar 1 SBool)],
    (FQ QExists [mkVar 1 SBool] (FFun (Fuser_eval 1) [FVar (mkVar 1 SBool); FVar (mkVar 1 SBool)])),
    (mkPst [] [(n_x, mkVar 0 SBool); (n_y, mkVar 1 SBool)] []).
  split; [reflexivity|]. split; [repeat split|]. split; [|split; [|split; [|split; [|split; [|split; [|split]]]]]].
  - repeat split; intros [] fc n; cbn; intros [= <-] [= <-]; cbn; lia.
  - repeat constructor.
  - repeat constructor.
  - intros [|[|i]] x v; cbn; try (intros [= <- <-]; reflexivity); destruct i; discriminate.
  - repeat constructor; cbn; intuition discriminate.
  - intros fuel H. do 5 (destruct fuel as [|fuel]; [lia|]). reflexivity.
  - reflexivity.
  - exists (finM 1 (fun f l => match l with [a; b] => if Nat.eqb a b then 0 else 1 | _ => 0 end)), (fun _ _ _ => 0), (xval false (finM 1 (fun f l => match l with [a; b] => if Nat.eqb a b then 0 else 1 | _ => 0 end)) (fun _ _ _ => 0)), (fun _ => 0).
    split; [apply xval_unfolds|]. split; [intros k ss F G _; reflexivity|]. vm_compute. discriminate.
Qed.
Print Assumptions C14_capture_refuted.
(** And a macro [a!(x, y)] with body [m!(x)] does not mean [m!(x)]: its second argument replaces the variable bound in the body of [m]. *)
Theorem C14_nested_refuted : exists env ma mc b g g',
  e_macros env n_m = Some mc /\ plain (mc_body mc) /\ e_macros env ma = Some (mkMac [(n_x, SBool); (n_y, SBool)] (TMac n_m [TVar n_x])) /\ numbered b /\ NoDup (map fst b) /\
  (forall fuel, 6 <= fuel ->
     parse env fuel (TMac ma [TVar n_x; TVar n_x]) REvaluated (Some (PStatic SBool)) (mkPst [] b []) = Done g (mkPst [] b []) /\
     parse env fuel (TMac n_m [TVar n_x]) REvaluated (Some (PStatic SBool)) (mkPst [] b []) = Done g' (mkPst [] b [])) /\
  exists (M : structure) (rho : Semantics_Spec.env M), eval g rho <> eval g' rho.
Proof.
  exists (mkEnv (e_functions (xenv false)) (e_sorts (xenv false)) (fun x => if Nat.eqb x 43 then Some (mkMac [(n_x, SBool); (n_y, SBool)] (TMac n_m [TVar n_x])) else e_macros (xenv false) x) false), 43,
    (mkMac [(n_x, SBool)] (TQuant QExists [(n_y, t_bool)] (TApp n_p [TVar n_x; TVar n_y]))), [(n_x, mkVar 0 SBool)],
    (FQ QExists [mkVar 1 SBool] (FFun (Fuser_eval 1) [FVar (mkVar 0 SBool); FVar (mkVar 0 SBool)])),
    (FQ QExists [mkVar 1 SBool] (FFun (Fuser_eval 1) [FVar (mkVar 0 SBool); FVar (mkVar 1 SBool)])).
  split; [reflexivity|]. split; [repeat split|]. split; [reflexivity|]. split; [|split; [|split]].
  - intros [|i] x v; cbn; [intros [= <- <-]; reflexivity|destruct i; discriminate].
  - repeat constructor; cbn; intuition discriminate.
  - intros fuel H. do 6 (destruct fuel as [|fuel]; [lia|]). split; reflexivity.
  - exists (finM 1 (fun f l => match l with [a; b] => if Nat.eqb a b then 0 else 1 | _ => 0 end)), (fun _ => 0). vm_compute. discriminate.
Qed.
Print Assumptions C14_nested_refuted.
(** [forall x: bool, k!(x)] where [k!(x)] is [m!(x) && m'!(m'!(c)) == c]. *)
Definition yenv : penv :=
  mkEnv (e_functions (xenv false)) (e_sorts (xenv false))
        (fun x => if Nat.eqb x 43 then Some (mkMac [(n_x, SBool)] (TInfix OAnd [TMac n_m [TVar n_x]; TInfix OEq [TMac n_m' [TMac n_m' [TVar n_c]]; TVar n_c]]))
                  else if Nat.eqb x n_loop then None else e_macros (xenv false) x) false.
Definition t_calls : term := TQuant QForall [(n_x, t_bool)] (TMac 43 [TVar n_x]).
Lemma t_calls_gentle : gentle yenv true 0 t_calls.
Proof.
  assert (Hm : forall a, gentle yenv true 1 a -> gentle yenv true 1 (TMac n_m [a])).
  { intros a Ha. apply ge_mac; [reflexivity|intros b [<-|[]]; exact Ha|]. intros mc [= <-].
    split; [repeat constructor; intros []|]. split; [repeat split; intros [] fc n; cbn; intros [= <-] [= <-]; cbn; lia|].
    split; [apply (gentle_true _ false), plain_gentle; repeat split|left; cbn; lia]. }
  assert (Hm' : forall a, gentle yenv true 1 a -> gentle yenv true 1 (TMac n_m' [a])).
  { intros a Ha. apply ge_mac; [reflexivity|intros b [<-|[]]; exact Ha|]. intros mc [= <-].
    split; [repeat constructor; intros []|]. split; [repeat split; intros [] fc n; cbn; intros [= <-] [= <-]; cbn; lia|].
    split; [apply (gentle_true _ false), plain_gentle; repeat split|left; cbn; lia]. }
  apply ge_quant. apply ge_mac; [reflexivity|intros b [<-|[]]; apply ge_var|]. intros mc [= <-].
  split; [repeat constructor; intros []|]. split; [repeat split|]. split; [|left; cbn; lia].
  apply ge_infix. intros a [<-|[<-|[]]]; [apply Hm, ge_var|]. apply ge_infix. intros a [<-|[<-|[]]]; [apply Hm', Hm', ge_var|apply ge_var].
Qed.
Example C14_example : exists g s', gentle yenv true 0 t_calls /\ counted yenv t_calls /\ layered yenv (fun c => match c with CMac 43 => 1 | _ => 0 end) /\
  parse_assert yenv 9 t_calls s0 = Done g s' /\
  g = FQ QForall [mkVar 0 SBool]
        (FFun (Fb CAnd) [FQ QExists [mkVar 1 SBool] (FFun (Fuser_eval 1) [FVar (mkVar 0 SBool); FVar (mkVar 1 SBool)]);
                         meq (FFun (Feval SMessage) [FFun (Fuser 0) [FFun (Fuser 0) [FFun (Fuser 2) []; FFun (Fuser 2) []]; FFun (Fuser 0) [FFun (Fuser 2) []; FFun (Fuser 2) []]]])
                             (FFun (Feval SMessage) [FFun (Fuser 2) []])]).
Proof.
  eexists _, _. split; [exact t_calls_gentle|]. split; [repeat split|]. split; [|split; vm_compute; reflexivity]. split.
  - intros m mc H. do 43 (destruct m as [|m]; [cbn in H; try discriminate H; injection H as <-; repeat split|]).
    destruct m as [|m]; [|discriminate H]. cbn in H. injection H as <-. repeat split; cbn; lia.
  - intros b f fc st H Hs. do 15 (destruct f as [|f]; [cbn in H; try discriminate H; injection H as <-; cbn in Hs; try discriminate Hs; injection Hs as <-; destruct b; repeat split|]).
    discriminate H.
Qed.

(** ** C15 *)
(** A chain of lets means its body with the names standing for the values of the defined terms. Missing: lets inside
    other terms, which leak (refuted below), defined terms using the defined name, and definitions of a message used
    in the evaluated realm (refuted below). *)
Theorem C15_let_meaning_partial : forall env fuel t r es s f s',
  let_chain env r (length (p_bv s)) t -> numbered (p_bv s) -> parse env fuel t r es s = Done f s' -> means env (p_bv s) (p_qs s') t r f.
Proof. exact let_means. Qed.
Print Assumptions C15_let_meaning_partial.

(** [f(let x = c in x, x) == c] is accepted and has a free variable: [x] is visible after the let. *)
Theorem C15_leak_refuted : exists f s',
  (forall fuel, 6 <= fuel -> parse_assert (xenv false) fuel
     (TInfix OEq [TApp n_f [TLet n_x t_msg (TVar n_c) (TVar n_x); TVar n_x]; TVar n_c]) s0 = Done f s') /\
  occurs_free 0 f /\ p_bv s' <> [] /\
  parse_assert (xenv false) 9 (TInfix OEq [TApp n_f [TVar n_c; TVar n_x]; TVar n_c]) s0 = Error.
Proof.
  eexists _, _. split; [intros fuel H; do 6 (destruct fuel as [|fuel]; [lia|]); vm_compute; reflexivity|]. split; [|split; [discriminate|vm_compute; reflexivity]].
  apply occurs_free_fun with (a := FFun (Feval SMessage) [FFun (Fuser 0) [FFun (Fuser 2) []; FVar (mkVar 0 SMessage)]]); [cbn; auto|].
  apply occurs_free_fun with (a := FFun (Fuser 0) [FFun (Fuser 2) []; FVar (mkVar 0 SMessage)]); [cbn; auto|].
  apply occurs_free_fun with (a := FVar (mkVar 0 SMessage)); [cbn; auto|]. apply (occurs_free_var (mkVar 0 SMessage)).
Qed.
Print Assumptions C15_leak_refuted.

(** [let x: msg = c in x], in the evaluated realm, is the evaluation of the evaluation of [c]; and a defined term may
    use the defined name, which is then free. *)
Theorem C15_double_evaluation_refuted :
  (exists s', forall fuel, 5 <= fuel -> parse (xenv false) fuel (TLet n_x t_msg (TVar n_c) (TVar n_x)) REvaluated None s0 =
     Done (FFun (Feval SMessage) [FFun (Feval SMessage) [FFun (Fuser 2) []]]) s') /\
  (exists s', forall fuel, 5 <= fuel -> parse_assert (xenv false) fuel (TLet n_x t_bool (TVar n_x) (TVar n_x)) s0 =
     Done (FVar (mkVar 0 SBool)) s').
Proof.
  split; eexists; intros fuel H; do 5 (destruct fuel as [|fuel]; [lia|]); vm_compute; reflexivity.
Qed.
Print Assumptions C15_double_evaluation_refuted.
Example C15_example : exists f s',
  let_chain (xenv false) REvaluated 0 (TLet n_x t_bool (TVar n_true) (TLet n_y t_bool (TQuant QExists [(32, t_bool)] (TApp n_p [TVar 32; TVar n_x])) (TApp n_p [TVar n_x; TVar n_y]))) /\
  parse_assert (xenv false) 9 (TLet n_x t_bool (TVar n_true) (TLet n_y t_bool (TQuant QExists [(32, t_bool)] (TApp n_p [TVar 32; TVar n_x])) (TApp n_p [TVar n_x; TVar n_y]))) s0 = Done f s' /\
  f = FFun (Fuser_eval 1) [TRUE; FQ QExists [mkVar 2 SBool] (FFun (Fuser_eval 1) [FVar (mkVar 2 SBool); TRUE])].
Proof.
  eexists _, _. split; [|split; vm_compute; reflexivity].
  apply lc_let; [apply (gentle_true _ false), plain_gentle; repeat split|repeat split; discriminate|cbn; auto|].
  apply lc_let; [apply (gentle_true _ false), plain_gentle; repeat split|repeat split; discriminate|cbn; auto|].
  apply lc_gentle. apply (gentle_true _ false), plain_gentle; repeat split.
Qed.

(** ** C16 *)
(** For terms without lets whose calls capture nothing: the free ids are those of the binders in scope, the bound ids are not, the
    stack of binders is restored, the symbolic binders created are closed (above the binders in scope if there are no calls).
    Missing: lets (refuted below), calls that capture (C14). *)
Theorem C16_well_scoped_partial : forall env fuel calls t r es s f s',
  gentle env calls (length (p_bv s)) t -> numbered (p_bv s) -> parse env fuel t r es s = Done f s' ->
  well_scoped (length (p_bv s)) f /\ p_bv s' = p_bv s /\
  exists l, p_qs s' = p_qs s ++ l /\ Forall (fun q => exists m, (calls = false -> length (p_bv s) <= m) /\ closed_quant m q) l.
Proof. exact plain_scoped. Qed.
Print Assumptions C16_well_scoped_partial.

(** A let inside an application leaves its variable on the stack and produces an assertion with a free variable. *)
Theorem C16_let_refuted : exists t f s', parse_assert (xenv false) 9 t s0 = Done f s' /\ ~ well_scoped 0 f /\ p_bv s' <> p_bv s0.
Proof.
  eexists (TInfix OEq [TApp n_f [TLet n_x t_msg (TVar n_c) (TVar n_x); TVar n_x]; TVar n_c]), _, _.
  split; [vm_compute; reflexivity|]. split; [|discriminate].
  intros [H _]. assert (X : 0 < 0); [apply H|lia].
  apply occurs_free_fun with (a := FFun (Feval SMessage) [FFun (Fuser 0) [FFun (Fuser 2) []; FVar (mkVar 0 SMessage)]]); [cbn; auto|].
  apply occurs_free_fun with (a := FFun (Fuser 0) [FFun (Fuser 2) []; FVar (mkVar 0 SMessage)]); [cbn; auto|].
  apply occurs_free_fun with (a := FVar (mkVar 0 SMessage)); [cbn; auto|]. apply (occurs_free_var (mkVar 0 SMessage)).
Qed.
Print Assumptions C16_let_refuted.
Example C16_example : exists f s', gentle (xenv false) false 0 (TFind [(n_x, t_idx)] (TInfix OAnd [TVar n_true; TInfix OEq [TVar n_c; TVar n_c]]) (TVar n_c) (TVar n_c)) /\
  parse (xenv false) 9 (TFind [(n_x, t_idx)] (TInfix OAnd [TVar n_true; TInfix OEq [TVar n_c; TVar n_c]]) (TVar n_c) (TVar n_c)) RSymbolic None s0 = Done f s' /\
  length (p_qs s') = 1.
Proof. eexists _, _. split; [apply plain_gentle; repeat split|split; vm_compute; reflexivity]. Qed.

(** ** C17 *)
(** The axiom of an order declaration, for all terms: its variables are the arguments, numbered in order; [f1], [f2] and [g] are what
    the terms and the guard are read as under these, and nothing else is in scope. When the guard holds, [t1 < t2] says that if [t2]
    happens then [t1] is before it, [t1 > t2] the same with the two exchanged, and [t1 <> t2] that not both happen. *)
Theorem C17_axiom : forall env fuel o s r s', parse_order env fuel o s = Done r s' ->
  exists l f1 f2 g, map fst l = map fst (od_args o) /\ numbered l /\ map (fun x => Some (vsort (snd x))) l = map (fun x => e_sorts env (snd x)) (od_args o) /\
    (forall t f, In (t, f) [(od_t1 o, f1); (od_t2 o, f2)] -> exists sa sb, p_bv sa = l /\ parse env fuel t REvaluated (Some (PStatic SStep)) sa = Done f sb) /\
    (forall t, od_guard o = Some t -> exists sa sb, p_bv sa = l /\ parse env fuel t REvaluated (Some (PStatic SBool)) sa = Done g sb) /\
    forall (M : structure) (rho : Semantics_Spec.env M), dtest M (eval (order_axiom r) rho) =
      quantify (od_q o) (map snd l) rho (fun rho' =>
        let happens f := dtest M (Semantics_Spec.app Fhappens [eval f rho']) in
        let before a b := implb (happens b) (dtest M (Semantics_Spec.app Fleq [eval a rho'; eval b rho'])) in
        implb (match od_guard o with Some _ => dtest M (eval g rho') | None => true end)
          (match od_kind o with OpLt => before f1 f2 | OpGt => before f2 f1 | OpIncompatible => negb (happens f1 && happens f2) end)).
Proof. exact order_axiom_good. Qed.
Print Assumptions C17_axiom.

(** The axiom is closed and says in terms of the values of the terms: when the guard holds, [t1 < t2] means that if [t2] happens
    then [t1] is before it, [t1 > t2] the same with the two exchanged, and [t1 <> t2] that not both happen.
    Terms without lets, whose calls capture nothing. *)
Theorem C17_order_meaning_partial : forall env fuel o s r s', parse_order env fuel o s = Done r s' ->
  gentle env true (length (od_args o)) (od_t1 o) -> gentle env true (length (od_args o)) (od_t2 o) ->
  (forall g, od_guard o = Some g -> gentle env true (length (od_args o)) g) ->
  well_scoped 0 (order_axiom r) /\
  (e_shadowing env = false -> NoDup (map fst (od_args o)) -> counted env (od_t1 o) -> counted env (od_t2 o) ->
   (forall g, od_guard o = Some g -> counted env g) ->
   forall (M : structure) qsem mval, unfolds env qsem mval -> extensional M qsem -> respects qsem (p_qs s') -> forall rho : Semantics_Spec.env M,
     dtest M (eval (order_axiom r) rho) = order_meaning env qsem mval o).
Proof. exact order_good. Qed.
Print Assumptions C17_order_meaning_partial.

(** [t1 > t2] and [t2 < t1], read one after the other, have the same truth value, and so have [t1 <> t2] and
    [t2 <> t1]. *)
Theorem C17_exchange_partial : forall env fuel fuel' q args g k k' a b s r s1 r' s2,
  (k = OpGt /\ k' = OpLt \/ k = OpIncompatible /\ k' = OpIncompatible) ->
  parse_order env fuel (mkOrder q args g k a b) s = Done r s1 ->
  parse_order env fuel' (mkOrder q args g k' b a) s1 = Done r' s2 ->
  gentle env true (length args) a -> gentle env true (length args) b -> (forall t, g = Some t -> gentle env true (length args) t) ->
  counted env a -> counted env b -> (forall t, g = Some t -> counted env t) -> e_shadowing env = false -> NoDup (map fst args) ->
  forall (M : structure) qsem mval, unfolds env qsem mval -> extensional M qsem -> respects qsem (p_qs s2) -> forall rho : Semantics_Spec.env M,
    dtest M (eval (order_axiom r) rho) = dtest M (eval (order_axiom r') rho).
Proof. exact order_exchange. Qed.
Print Assumptions C17_exchange_partial.
Example C17_example : exists r s', parse_order (xenv false) 9
    (mkOrder QForall [(n_x, t_idx); (n_y, t_idx)] (Some (TInfix OEq [TVar n_x; TVar n_y])) OpGt (TApp n_s [TVar n_x]) (TApp n_s [TVar n_y])) s0 = Done r s' /\
  order_axiom r = let x := FVar (mkVar 0 (SIndex 0)) in let y := FVar (mkVar 1 (SIndex 0)) in
    FQ QForall [mkVar 0 (SIndex 0); mkVar 1 (SIndex 0)]
       (fimp (meq x y) (fimp (FFun Fhappens [FFun (Fstep 0) [x]]) (FFun Fleq [FFun (Fstep 0) [y]; FFun (Fstep 0) [x]]))).
Proof. eexists _, _. split; vm_compute; reflexivity. Qed.

(** ** C71 *)
(** [message(s(args))] and [condition(s(args))] mean the step's message or condition with its parameters standing for
    the arguments and [in] for the input of [s(args)], under the same condition as for macros. Missing: calls under
    more binders than the step has parameters (plus one) when the body has a quantifier. *)
Theorem C71_step_meaning_partial : forall env fuel (is_msg : bool) f fc st args r es s h s',
  e_functions env f = Some fc -> fc_step fc = Some st -> callable env f fc st ->
  gentle env true (S (length (st_args st))) (if is_msg then st_msg st else st_cond st) -> counted env (if is_msg then st_msg st else st_cond st) ->
  Forall (gentle env true (length (p_bv s))) args -> (forall n, arity (fc_kind fc) = Some n -> length args <= n) ->
  numbered (p_bv s) -> parse env fuel (TStepMac is_msg f (Some args)) r es s = Done h s' ->
  length (p_bv s) <= S (length (st_args st)) \/ flat env (if is_msg then st_msg st else st_cond st) ->
  p_bv s' = p_bv s /\ length args = length (st_args st) /\
  (e_shadowing env = false -> Forall (counted env) args -> NoDup (map fst (p_bv s)) ->
   forall (M : structure) qsem mval, unfolds env qsem mval -> extensional M qsem -> respects qsem (p_qs s') -> forall rho : Semantics_Spec.env M,
     eval h rho = step_value env qsem mval (fc_sym fc) st (if is_msg then st_msg st else st_cond st) args r (scope_of (p_bv s) rho)).
Proof. exact step_good. Qed.
Print Assumptions C71_step_meaning_partial.
Example C71_example : exists f s', parse_assert (xenv false) 9
    (TQuant QForall [(n_x, t_idx)] (TInfix OEq [TStepMac true n_s (Some [TVar n_x]); TVar n_c])) s0 = Done f s' /\
  f = FQ QForall [mkVar 0 (SIndex 0)]
        (meq (FFun (Feval SMessage) [FFun (Fuser 0) [FFun (Fmacro MInput) [FFun (Fstep 0) [FVar (mkVar 0 (SIndex 0))]]; FFun (Fuser 2) []]])
             (FFun (Feval SMessage) [FFun (Fuser 2) []])).
Proof. eexists _, _. split; vm_compute; reflexivity. Qed.
(** The full claim fails: a step whose condition at [x] is that another index exists. Called under three binders on the third, its argument is captured
    by the quantifier of the condition. *)
Definition zstep : step_cache := mkStep [(n_x, SIndex 0)] (TVar n_in) (TQuant QExists [(n_y, t_idx)] (TInfix ONeq [TVar n_x; TVar n_y])).
Definition zenv : penv :=
  mkEnv (fun x => match x with 13 => Some (mkFc (Fstep 0) (SgFixed [SIndex 0] SStep) None (Some zstep)) | _ => None end)
        (fun x => match x with 20 => Some (SIndex 0) | _ => None end) (fun _ => None) false.
Definition zb := [(50, mkVar 0 (SIndex 0)); (51, mkVar 1 (SIndex 0)); (52, mkVar 2 (SIndex 0))].
Theorem C71_capture_refuted : exists fc st args b g s',
  e_functions zenv n_s = Some fc /\ fc_step fc = Some st /\ callable zenv n_s fc st /\ plain (st_cond st) /\ counted zenv (st_cond st) /\
  Forall plain args /\ Forall (counted zenv) args /\ numbered b /\ NoDup (map fst b) /\
  (forall fuel, 9 <= fuel -> parse zenv fuel (TStepMac false n_s (Some args)) REvaluated (Some (PStatic SBool)) (mkPst [] b []) = Done g s') /\ p_qs s' = [] /\
  exists (M : structure) qsem mval (rho : Semantics_Spec.env M), unfolds zenv qsem mval /\ extensional M qsem /\
    eval g rho <> step_value zenv qsem mval (fc_sym fc) st (st_cond st) args REvaluated (scope_of b rho).
Proof.
  exists (mkFc (Fstep 0) (SgFixed [SIndex 0] SStep) None (Some zstep)), zstep, [TVar 52], zb,
    (FQ QExists [mkVar 2 (SIndex 0)] (FFun (Fb CNot) [FFun (Fb CEq) [FVar (mkVar 2 (SIndex 0)); FVar (mkVar 2 (SIndex 0))]])), (mkPst [Some (SIndex 0); Some (SIndex 0)] zb []).
  split; [reflexivity|]. split; [reflexivity|]. split; [|split; [|split; [|split; [|split; [|split; [|split; [|split; [|split]]]]]]]].
  - split; [eexists; reflexivity|]. split; [reflexivity|]. split; [intros []; reflexivity|]. repeat constructor; cbn; intuition discriminate.
  - repeat split.
  - repeat split.
  - repeat constructor.
  - repeat constructor.
  - intros [|[|[|i]]] x v; cbn; try (intros [= <- <-]; reflexivity); destruct i; discriminate.
  - repeat constructor; cbn; intuition discriminate.
  - intros fuel H. do 9 (destruct fuel as [|fuel]; [lia|]). reflexivity.
  - reflexivity.
  - exists (finM 1 (fun f l => 0)), (fun _ _ _ => 0), (call_value (M := finM 1 (fun f l => 0)) zenv (fun _ _ _ => 0) (fun _ _ _ _ => 0)), (fun _ => 0).
    split; [|split; [intros k ss F G _; reflexivity|]].
    + intros [m|w f] r vs ve; [reflexivity|]. do 14 (destruct f as [|f]; [destruct w; reflexivity|]). reflexivity.
    + vm_compute. discriminate.
Qed.
Print Assumptions C71_capture_refuted.
