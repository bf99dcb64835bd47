(** C92 and C93: the symbols and the sorts that a file uses are declared, once. *)
From Coq Require Import List Arith Bool Lia.
From Verif Require Import Syntax_Model Sort_Model Order_Model Evaluate_Model Problem_Model Problem_Spec File_Model File_Spec File_Proofs.
From Verif Require Parser_Model.
Import ListNotations.

(** With the default treatment of bitstrings and in the symbolic realm, every symbol of every axiom, assertion and of the query is one of
    the solver or declared. *)
Theorem C92_symbolic_partial : forall sig table legacy fuel n le p ds axs,
  generate_file sig table RSymbolic false legacy fuel n le p = Some (ds, axs) -> closed_problem sig table p ->
  forall a f, In a axs -> axiom_uses f a -> logical f \/ declared ds f.
Proof.
  intros sig table legacy fuel n le p ds axs HG HC a f Ha Hf.
  pose proof (asserts_readable _ _ _ _ _ _ _ _ _ _ _ (fun _ => True) HG HC (fun _ _ => I) eq_refl eq_refl) as H. rewrite Forall_forall in H. exact (proj1 (H a Ha) f Hf).
Qed.
Print Assumptions C92_symbolic_partial.

(** With any options, a symbol without declaration is the evaluated function of a function of the problem. *)
Theorem C92_partial : forall sig table r no_bitstring legacy fuel n le p ds axs,
  generate_file sig table r no_bitstring legacy fuel n le p = Some (ds, axs) -> closed_problem sig table p ->
  forall a f, In a axs -> axiom_uses f a -> logical f \/ declared ds f \/ exists i, f = Fuser_eval i /\ In (Fuser i) (gp_funs p).
Proof.
  intros sig table r no_bitstring legacy fuel n le p ds axs HG HC a f Ha Hf.
  pose proof (asserts_nearly _ _ _ _ _ _ _ _ _ _ _ (fun _ => True) HG HC (fun _ _ => I)) as H. rewrite Forall_forall in H.
  destruct (proj1 (H a Ha) f Hf) as [[?|?]|?]; auto.
Qed.
Print Assumptions C92_partial.

(** The axioms of the order and of the evaluation only use declared symbols, with any options. *)
Theorem C92_theories : forall sig table r no_bitstring legacy fuel n le p ds axs,
  generate_file sig table r no_bitstring legacy fuel n le p = Some (ds, axs) -> closed_problem sig table p ->
  exists own, (forall a f, In a (firstn (length axs - S (length (gp_asserts p))) axs) -> axiom_uses f a -> logical f \/ declared ds f) /\
    length own = S (length (gp_asserts p)) /\ axs = firstn (length axs - S (length (gp_asserts p))) axs ++ own.
Proof.
  intros sig table r no_bitstring legacy fuel n le p ds axs HG HC.
  destruct (parts _ _ _ _ _ _ _ _ _ _ _ HG) as (d1 & d2 & a1 & a2 & a3 & H1 & H2 & E1 & E2 & E3 & HD & HX).
  assert (HL : length a3 = S (length (gp_asserts p))).
  { clear -E3. assert (HM : forall A B (f : A -> option B) l l', Subst_Model.mapM f l = Some l' -> length l' = length l).
    { induction l as [|x l IH]; intros l' H; cbn in H; [injection H as <-; reflexivity|]. destruct (f x); [|discriminate]. destruct (Subst_Model.mapM f l) eqn:E; [|discriminate]. injection H as <-. cbn. f_equal. apply IH. reflexivity. }
    apply HM in E3. rewrite E3, app_length. cbn. lia. }
  assert (HF : firstn (length axs - S (length (gp_asserts p))) axs = a1 ++ a2).
  { rewrite HX, app_assoc, app_length, map_length, HL. replace (length (a1 ++ a2) + S (length (gp_asserts p)) - S (length (gp_asserts p))) with (length (a1 ++ a2) + 0) by lia.
    rewrite firstn_app_2. cbn. apply app_nil_r. }
  exists (map ABase a3). rewrite HF. split; [|split; [rewrite map_length; exact HL|rewrite HX; apply app_assoc]].
  intros a f Ha Hf. pose proof (generated_readable _ _ _ _ _ _ _ _ _ _ _ (fun _ => True) HG HC (fun _ _ => I) _ _ E1 E2) as H. rewrite Forall_forall in H. exact (proj1 (H a Ha) f Hf).
Qed.
Print Assumptions C92_theories.

(** No symbol is declared twice. *)
Theorem C92_once : forall sig table r no_bitstring legacy fuel n le p ds axs,
  generate_file sig table r no_bitstring legacy fuel n le p = Some (ds, axs) -> listed_once sig p -> NoDup (flat_map declares ds).
Proof. intros. eapply functions_once; eassumption. Qed.
Print Assumptions C92_once.

(** Every sort of a bound variable, and every sort of a signature, is that of the solver or declared. *)
Theorem C93_partial : forall sig table r no_bitstring legacy fuel n le p ds axs,
  generate_file sig table r no_bitstring legacy fuel n le p = Some (ds, axs) -> closed_problem sig table p -> constructed sig p ->
  (forall a s, In a axs -> axiom_quantifies s a -> declared_sort ds s) /\
  (forall f args out s, In f (gp_funs p) -> sig f = Some (args, out) -> In s (out :: args) -> declared_sort ds s).
Proof.
  intros sig table r no_bitstring legacy fuel n le p ds axs HG HC HS. pose proof (sorts_declared _ _ _ _ _ _ _ _ _ _ _ HG HC HS) as HD. split.
  - intros a s Ha Hs. pose proof (asserts_nearly _ _ _ _ _ _ _ _ _ _ _ (declared_sort ds) HG HC HD) as H. rewrite Forall_forall in H. exact (proj2 (H a Ha) s Hs).
  - intros f args out s Hf Hsig Hs. apply HD. eapply cp_sigs; eassumption.
Qed.
Print Assumptions C93_partial.

(** No sort is declared twice. *)
Theorem C93_once : forall sig table r no_bitstring legacy fuel n le p ds axs,
  generate_file sig table r no_bitstring legacy fuel n le p = Some (ds, axs) -> listed_once sig p -> NoDup (flat_map declares_sort ds).
Proof. intros. eapply sorts_once; eassumption. Qed.
Print Assumptions C93_once.

(** ** A problem *)
Definition x0 : var := mkVar 0 (SIndex 0).
Definition x1 : var := mkVar 1 (SIndex 0).
Definition m0 : var := mkVar 0 SMessage.
Definition ex_sig (f : fsym) : option (list sort * sort) :=
  match f with
  | Fuser 0 => Some ([], SMessage)
  | Fuser 1 => Some ([SMessage], SMessage)
  | Fuser 2 => Some ([SIndex 0], SUserSym 0)
  | Fta TTrue | Fta TFalse => Some ([], SCondition)
  | Fta TNot => Some ([SCondition], SCondition)
  | Fta TIte => Some ([SCondition; SMessage; SMessage], SMessage)
  | Fta TEq => Some ([SMessage; SMessage], SCondition)
  | Fta _ => Some ([SCondition; SCondition], SCondition)
  | Fmacro MInput | Fmacro MMessage => Some ([SStep], SMessage)
  | Fmacro _ => Some ([SStep], SCondition)
  | Fcast _ => Some ([SName], SMessage)
  | Fname _ => Some ([SIndex 0], SName)
  | Fstep 0 => Some ([], SStep)
  | Fstep _ => Some ([SIndex 0], SStep)
  | Fpred => Some ([SStep], SStep)
  | Fquant 1 => Some ([], SMessage)
  | Fquant _ => Some ([SIndex 0], SCondition)
  | Feval s => Some ([s], evaluated_sort s)
  | _ => None
  end.
Definition ex_table (k : nat) : option quantifier :=
  match k with
  | 0 => Some (mkQuantifier [x1] [x0] (IExists (FFun (Fta TEq) [FFun (Fcast SMessage) [FFun (Fname 0) [FVar x0]]; FFun (Fcast SMessage) [FFun (Fname 0) [FVar x1]]])))
  | 1 => Some (mkQuantifier [x1] [] (IFind (FFun (Fta TTrue) []) (FFun (Fcast SMessage) [FFun (Fname 0) [FVar x1]]) (FFun (Fuser 0) [])))
  | _ => None
  end.
Definition ex_assert : formula := FQ QForall [m0] (FFun (Feval SCondition) [FFun (Fta TEq) [FFun (Fuser 1) [FVar m0]; FVar m0]]).
Definition ex_problem : gen_problem :=
  mkGen (BUILT_IN_SORTS ++ [SIndex 0; SUserSym 0]) (BUILT_IN_FUNCTIONS ++ [Fuser 1; Fuser 2; Fname 0; Fstep 0; Fstep 1; Fquant 0; Fquant 1]) [SMessage; SCondition; SUserSym 0]
    [mkPStep 0 [] (FFun (Fta TTrue) []) (FFun (Fuser 0) []); mkPStep 1 [x0] (FFun (Fta TTrue) []) (FFun (Fuser 0) [])]
    [Parser_Model.mkOrdering QForall [x0; x1] (Parser_Model.KLT (FFun (Fstep 1) [FVar x0]) (FFun (Fstep 1) [FVar x1])) TRUE]
    [ex_assert] (FQ QExists [x0] (FFun Fhappens [FFun (Fstep 1) [FVar x0]])).
Definition ex_le (a b : declaration gsym) : bool := rank a <=? rank b.

Ltac members := repeat match goal with
  | H : _ \/ _ |- _ => destruct H as [H|H]
  | H : In _ (_ :: _) |- _ => destruct H as [H|H]
  | H : In _ [] |- _ => destruct H
  | H : False |- _ => destruct H
  end.
Ltac unuse := repeat match goal with
  | H : uses _ (FVar _) |- _ => inversion H
  | H : uses _ (FFun _ _) |- _ => inversion H; clear H; subst
  | H : uses _ (FQ _ _ _) |- _ => inversion H; clear H; subst
  | H : quantifies _ (FVar _) |- _ => inversion H
  | H : quantifies _ (FFun _ _) |- _ => inversion H; clear H; subst
  | H : quantifies _ (FQ _ _ _) |- _ => inversion H; clear H; subst
  | H : In _ (_ :: _) |- _ => destruct H as [H|H]; [subst|]
  | H : In _ [] |- _ => destruct H
  | H : uses _ TRUE |- _ => unfold TRUE in H
  | H : quantifies _ TRUE |- _ => unfold TRUE in H
  | H : uses _ ex_assert |- _ => unfold ex_assert in H
  | H : quantifies _ ex_assert |- _ => unfold ex_assert in H
  end.
Ltac knows := first [left; constructor | right; left; cbn; tauto | right; right; eexists; split; [reflexivity|cbn; tauto]].
Ltac within := split; [intros f Hf; unuse; knows|intros s Hs; unuse; cbn; tauto].
Lemma ex_closed : closed_problem ex_sig ex_table ex_problem.
Proof.
  split.
  - intros f Hf. apply in_or_app. left. exact Hf.
  - intros f Hf. apply in_or_app. left. exact Hf.
  - intros s Hs. cbn in Hs. members; subst; cbn; tauto.
  - intros s Hs. cbn in Hs. members; subst; cbn; [split; [tauto|intros v []]|split; [tauto|]]. intros v [<-|[]]; cbn; tauto.
  - intros o Ho. cbn in Ho. members; subst. split; [intros v Hv; cbn in Hv; members; subst; cbn; tauto|]. intros g Hg. cbn in Hg. members; subst; within.
  - intros g Hg. cbn in Hg. members; subst; within.
  - intros k q Hk Hq. destruct k as [|[|k]]; [| |discriminate]; injection Hq as <-; (split; [intros v Hv; cbn in Hv; members; subst; cbn; tauto|]); intros g Hg; cbn in Hg; members; subst; within.
  - intros i Hi. cbn in Hi. members; try discriminate; injection Hi as <-; discriminate.
  - intros f args out s Hf Hsig Hs. cbn in Hf. members; subst; try discriminate Hsig; cbn in Hsig; injection Hsig as <- <-; members; subst; cbn; tauto.
Qed.
Lemma ex_constructed : constructed ex_sig ex_problem.
Proof.
  split; [exists 0, [SIndex 0]; split; [cbn; tauto|reflexivity]|reflexivity|reflexivity| |].
  - intros i Hi. cbn in Hi. members; try discriminate. injection Hi as <-. exists 2, [SIndex 0]. split; [cbn; tauto|reflexivity].
  - intros i Hi. cbn in Hi. members; discriminate.
Qed.
Lemma ex_once : listed_once ex_sig ex_problem.
Proof.
  split; cbn [gp_funs gp_evs gp_sorts ex_problem].
  - cbn. repeat (constructor; [cbn; intuition discriminate|]). constructor.
  - repeat (constructor; [cbn; intuition discriminate|]). constructor.
  - cbn. repeat (constructor; [cbn; intuition discriminate|]). constructor.
  - intros f Hf. cbn in Hf. members; subst; exact I.
  - intros f args s Hf Hsig. cbn in Hf. members; subst; try discriminate Hsig; cbn in Hsig; try injection Hsig as <- <-; eauto.
Qed.
(** The hypotheses are met, in every realm. *)
Example C92_example : exists ds axs ds' axs',
  generate_file ex_sig ex_table RSymbolic false false 10 0 ex_le ex_problem = Some (ds, axs) /\
  generate_file ex_sig ex_table REvaluated false false 10 0 ex_le ex_problem = Some (ds', axs') /\
  declared ds (Fuser_eval 1) /\ ~ declared ds' (Fuser_eval 1) /\ declared ds' (Fskolem 0) /\ declared_sort ds (SUserEval 0) /\
  In (ABase (FQ QForall [m0] (FFun (Fb CEq) [FFun (Fuser_eval 1) [FVar (mkVar 0 SBitstring)]; FVar (mkVar 0 SBitstring)]))) axs'.
Proof.
  do 4 eexists. split; [vm_compute; reflexivity|]. split; [vm_compute; reflexivity|]. repeat split.
  - rewrite declared_in. vm_compute. tauto.
  - rewrite declared_in. vm_compute. intuition discriminate.
  - rewrite declared_in. vm_compute. tauto.
  - right. rewrite <- in_flat_map. vm_compute. tauto.
  - vm_compute. tauto.
Qed.

(** In the evaluated realm, the default, an assertion can use a symbol that is not declared. *)
Theorem C92_evaluated_refuted : exists sig table fuel n le p ds axs a f,
  generate_file sig table REvaluated false false fuel n le p = Some (ds, axs) /\ closed_problem sig table p /\ constructed sig p /\ listed_once sig p /\
  In a axs /\ axiom_uses f a /\ ~ logical f /\ ~ declared ds f.
Proof.
  exists ex_sig, ex_table, 10, 0, ex_le, ex_problem. do 2 eexists. exists (ABase (FQ QForall [m0] (FFun (Fb CEq) [FFun (Fuser_eval 1) [FVar (mkVar 0 SBitstring)]; FVar (mkVar 0 SBitstring)]))), (Fuser_eval 1).
  split; [vm_compute; reflexivity|]. split; [exact ex_closed|]. split; [exact ex_constructed|]. split; [exact ex_once|]. repeat split.
  - vm_compute. tauto.
  - cbn. apply uses_body. eapply uses_arg; [left; reflexivity|]. apply uses_head.
  - intros H. inversion H.
  - rewrite declared_in. vm_compute. intuition discriminate.
Qed.
Print Assumptions C92_evaluated_refuted.

(** Nor without the functions on bitstrings in the symbolic realm. *)
Theorem C92_no_bitstring_refuted : exists sig table fuel n le p ds axs a f,
  generate_file sig table RSymbolic true false fuel n le p = Some (ds, axs) /\ closed_problem sig table p /\ constructed sig p /\ listed_once sig p /\
  In a axs /\ axiom_uses f a /\ ~ logical f /\ ~ declared ds f.
Proof.
  exists ex_sig, ex_table, 10, 0, ex_le, ex_problem. do 2 eexists. exists (ABase (FQ QForall [m0] (FFun (Fb CEq) [FFun (Fuser_eval 1) [FVar (mkVar 0 SBitstring)]; FVar (mkVar 0 SBitstring)]))), (Fuser_eval 1).
  split; [vm_compute; reflexivity|]. split; [exact ex_closed|]. split; [exact ex_constructed|]. split; [exact ex_once|]. repeat split.
  - vm_compute. tauto.
  - cbn. apply uses_body. eapply uses_arg; [left; reflexivity|]. apply uses_head.
  - intros H. inversion H.
  - rewrite declared_in. vm_compute. intuition discriminate.
Qed.
Print Assumptions C92_no_bitstring_refuted.

(** ** Without names *)
Definition bare_problem : gen_problem := mkGen BUILT_IN_SORTS (BUILT_IN_FUNCTIONS ++ [Fstep 0]) [SMessage; SCondition] [mkPStep 0 [] (FFun (Fta TTrue) []) (FFun (Fuser 0) [])] [] [] TRUE.
Lemma bare_closed : closed_problem ex_sig ex_table bare_problem.
Proof.
  split.
  - intros f Hf. apply in_or_app. left. exact Hf.
  - intros f Hf. exact Hf.
  - intros s Hs. cbn in Hs. members; subst; cbn; tauto.
  - intros s Hs. cbn in Hs. members; subst; cbn. split; [tauto|intros v []].
  - intros o [].
  - intros g Hg. cbn in Hg. members; subst; within.
  - intros k q Hk Hq. cbn in Hk. members; discriminate.
  - intros i Hi. cbn in Hi. members; try discriminate; injection Hi as <-; discriminate.
  - intros f args out s Hf Hsig Hs. cbn in Hf. members; subst; try discriminate Hsig; cbn in Hsig; injection Hsig as <- <-; members; subst; cbn; tauto.
Qed.
(** A problem that declares no name: the sort of names is an argument of a declared function but is not declared, in either realm. *)
Theorem C93_names_refuted : forall r, exists sig table fuel n le p ds axs f args out,
  generate_file sig table r false false fuel n le p = Some (ds, axs) /\ closed_problem sig table p /\
  declared ds f /\ sig f = Some (args, out) /\ In SName args /\ ~ declared_sort ds SName.
Proof.
  intros r. exists ex_sig, ex_table, 10, 0, ex_le, bare_problem.
  destruct r; do 2 eexists; exists (Fcast SMessage), [SName], SMessage; (split; [vm_compute; reflexivity|]); (split; [exact bare_closed|]);
    (split; [rewrite declared_in; vm_compute; tauto|]); (split; [reflexivity|]); (split; [left; reflexivity|]);
    intros [H|H]; [discriminate| |discriminate|]; rewrite <- in_flat_map in H; vm_compute in H; intuition discriminate.
Qed.
Print Assumptions C93_names_refuted.
