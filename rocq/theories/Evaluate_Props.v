(** C27: the evaluation axioms. *)
From Coq Require Import List Arith Bool Lia.
From Verif Require Import Syntax_Model Traversal_Spec Semantics_Spec Semantics_Proofs Subst_Model Order_Spec Binding_Proofs Macro_Props
  Expander_Spec Expander_Props Sort_Model Evaluate_Model Evaluate_Spec Evaluate_Proofs.
Import ListNotations.

(** In every structure where evaluation gives the functions their meaning, the axioms hold for a suitable choice of the new skolems.
    Missing: the option [use_legacy_evaluate], refuted below. *)
Theorem C27_axioms_partial : forall osort evs r nb n fs axs, generate osort evs r nb false n fs = Some axs -> Forall (declared osort) fs ->
  forall (M : structure) w, Forall (means evs M w) fs -> conditions_are_booleans evs M ->
  (r = REvaluated -> forall s d, In s evs -> dom M s d -> fint M (Feval s) [d] = d) ->
  exists sk, forall rho : env (with_skolems M sk), Forall (fun a => axiom_holds a rho) axs.
Proof. exact generate_true. Qed.
Print Assumptions C27_axioms_partial.

(** Conversely the axioms make evaluation commute with user functions, if-then-else, equality and the connectives other than the
    negation, and determine [find] up to the choice made by the skolems; for the negation and the quantifiers they give one direction. *)
Theorem C27_homomorphism_partial : forall osort evs (M : structure) n fs axs, generate osort evs RSymbolic false false n fs = Some axs ->
  Forall (declared osort) fs -> conditions_are_booleans evs M -> (forall rho : env M, Forall (fun a => axiom_holds a rho) axs) ->
  forall f, In f fs ->
  match f with PUser _ _ _ => means evs M (fun _ _ => []) f | _ => forced evs M f end.
Proof.
  intros osort evs M n fs axs H Hd Hb Hall f Hf. pose proof (forced_others _ _ _ _ _ _ _ _ _ _ H Hd Hb Hall Hf) as Ho.
  destruct f; try exact Ho. exact (forced_user _ _ _ _ _ _ _ _ _ _ H eq_refl Hd Hall Hf _).
Qed.
Print Assumptions C27_homomorphism_partial.

(** In the evaluated realm they say that evaluating changes nothing. *)
Theorem C27_identity : forall osort evs (M : structure) nb lg n fs axs, generate osort evs REvaluated nb lg n fs = Some axs ->
  (forall rho : env M, Forall (fun a => axiom_holds a rho) axs) -> forall s d, In s evs -> dom M s d -> fint M (Feval s) [d] = d.
Proof. exact forced_identity. Qed.
Print Assumptions C27_identity.

(** A function, if-then-else, equality, connectives, a universal and a [find] over indices. *)
Definition v_x : var := mkVar 0 SMessage.
Definition v_sort (f : fsym) : option sort :=
  match f with Fuser _ | Fta TIte | Fquant 0 => Some SMessage | Fta _ | Fquant _ => Some SCondition | _ => None end.
Definition v_u (v : var) : formula := FFun (Fuser 0) [FVar v].
Definition v_find : quantifier :=
  mkQuantifier [ix 1] [v_x] (IFind (FFun (Fta TEq) [v_u (ix 1); FVar v_x]) (v_u (ix 1)) (FVar v_x)).
Definition v_all : quantifier := mkQuantifier [ix 1] [v_x] (IForall (FFun (Fta TEq) [v_u (ix 1); FVar v_x])).
Definition v_funs : list pfun := [PUser 0 [SIndex 0] SMessage; PIte; PEq; PConn BAnd; PConn BIff; PConn BNot; PQuant 0 v_find; PQuant 1 v_all].
Definition v_evs : list sort := [SMessage; SCondition].
(** Indices 0 and 1, messages 0 to 2, [u(i)] is [i], evaluation is the identity. *)
Definition v_M : structure := sfinM (fun _ => 0) (fun s => match s with SMessage => 2 | _ => 1 end)
  (fun f ds => match f, ds with
     | Feval _, [d] => d | Fuser 0, [d] => d | Fuser_eval 0, [d] => d
     | Fta TIte, [c; a; b] => if n2b c then a else b
     | Fta TEq, [a; b] => b2n (a =? b) | Fta TAnd, [a; b] => b2n (n2b a && n2b b) | Fta TIff, [a; b] => b2n (Bool.eqb (n2b a) (n2b b))
     | Fta TNot, [a] => b2n (negb (n2b a))
     | Fquant 0, [x] => x
     | _, _ => 0 end).
Definition v_w (k : nat) (fs : list nat) : list nat := match fs with [1] => [1] | _ => [0] end.
Fixpoint skolem_free (f : formula) : bool :=
  match f with
  | FVar _ => true
  | FFun (Fskolem _) _ => false
  | FFun _ args => forallb skolem_free args
  | FQ _ _ b => skolem_free b
  end.
Lemma skolem_free_ok : forall p f i args, skolem_free f = true -> ~ at_path f p (FFun (Fskolem i) args).
Proof.
  induction p as [|k p IH]; intros f i args Hf H; inversion H; subst; [discriminate| |].
  - apply (IH a i args); [|assumption]. apply nth_error_In in H3.
    assert (Hall : forallb skolem_free args0 = true) by (destruct s; try exact Hf; discriminate).
    rewrite forallb_forall in Hall. apply Hall. exact H3.
  - apply (IH b i args); assumption.
Qed.
Example C27_example :
  (exists axs, generate v_sort v_evs RSymbolic false false 0 v_funs = Some axs /\ length axs = 9) /\
  Forall (declared v_sort) v_funs /\ Forall (means v_evs v_M v_w) v_funs /\ conditions_are_booleans v_evs v_M.
Proof.
  assert (Hn : forall f, skolem_free f = true -> no_skolem f) by (intros f Hf p i args; apply skolem_free_ok; exact Hf).
  split; [eexists; split; vm_compute; reflexivity|]. split; [|split].
  - apply Forall_forall. intros f Hf. repeat destruct Hf as [<-|Hf]; try reflexivity; [split; reflexivity| | |destruct Hf].
    + cbn. do 4 (refine (conj _ _); [first [reflexivity|apply ok_closed; reflexivity]|]). repeat (refine (conj _ _); [first [exact I|left; reflexivity|apply Hn; reflexivity|reflexivity]|]). reflexivity.
    + cbn. do 2 (refine (conj _ _); [first [reflexivity|apply ok_closed; reflexivity]|]). split; [apply Hn; reflexivity|reflexivity].
  - assert (Hix : forall ds, typed (M:=v_M) [ix 1] ds -> ds = [0] \/ ds = [1]).
    { intros ds H. inversion H as [|? d ? ds' Hd Hr]; subst. inversion Hr; subst. cbn in Hd. destruct d as [|[|d]]; auto; lia. }
    apply Forall_forall. intros f Hf. repeat destruct Hf as [<-|Hf]; [| | | | | | | |destruct Hf].
    + intros ds Hd. inversion Hd as [|? d ? ds' _ Hr]; subst. inversion Hr; subst. reflexivity.
    + intros c l r _. split; intros Ht; unfold truth in Ht; cbn in *; [rewrite Ht; reflexivity|]. destruct (n2b c); [congruence|reflexivity].
    + intros a b _. reflexivity.
    + intros ds Hd. inversion Hd as [|? d ? ds' _ Hr]; subst. inversion Hr as [|? d2 ? ds2 _ Hr2]; subst. inversion Hr2; subst. reflexivity.
    + intros ds Hd. inversion Hd as [|? d ? ds' _ Hr]; subst. inversion Hr as [|? d2 ? ds2 _ Hr2]; subst. inversion Hr2; subst. reflexivity.
    + intros ds Hd. inversion Hd as [|? d ? ds' _ Hr]; subst. inversion Hr; subst. reflexivity.
    + intros rho fs Hfs. cbn [qt_inner v_find]. inversion Hfs as [|? d ? ds' Hd Hr]; subst. inversion Hr; subst. cbn in Hd.
      assert (Hc : d = 0 \/ d = 1 \/ d = 2) by lia. destruct Hc as [->|[->| ->]].
      * split; [repeat constructor|]. left. split; reflexivity.
      * split; [repeat constructor|]. left. split; reflexivity.
      * split; [repeat constructor|]. right. split; [|reflexivity]. intros ds Hds Ht. destruct (Hix ds Hds) as [->| ->]; discriminate.
    + intros rho fs Hfs. cbn [qt_inner v_all]. inversion Hfs as [|? d ? ds' Hd Hr]; subst. inversion Hr; subst. split.
      * intros Ht. discriminate.
      * intros Ha. assert (H0 := Ha [0] ltac:(repeat constructor)). assert (H1 := Ha [1] ltac:(repeat constructor)).
        destruct d as [|[|d]]; discriminate.
  - intros d Hd. cbn in *. destruct d as [|[|d]]; [reflexivity|reflexivity|lia].
Qed.

(** With the option, the congruence of each user function is stated without its premises: it says that the function is constant. *)
Lemma legacy_false : exists fs axs, generate v_sort v_evs RSymbolic false true 0 fs = Some axs /\ incl fs v_funs /\
  forall sk (rho : env (with_skolems v_M sk)), ~ Forall (fun a => axiom_holds a rho) axs.
Proof.
  exists [PUser 0 [SIndex 0] SMessage]. eexists. split; [vm_compute; reflexivity|]. split; [intros f [<-|[]]; left; reflexivity|].
  intros sk rho H. apply Forall_inv_tail, Forall_inv in H. unfold axiom_holds, holds in H. vm_compute in H. discriminate.
Qed.
Theorem C27_legacy_refuted : exists fs axs, generate v_sort v_evs RSymbolic false true 0 fs = Some axs /\ incl fs v_funs /\
  forall sk (rho : env (with_skolems v_M sk)), ~ Forall (fun a => axiom_holds a rho) axs.
Proof. exact legacy_false. Qed.
Print Assumptions C27_legacy_refuted.

(** The axiom of the negation does not determine it. *)
Definition nn_M : structure := sfinM (fun _ => 0) (fun _ => 1) (fun f ds => match f, ds with Feval _, [d] => d | _, _ => 0 end).
Lemma negation_open : exists axs, generate v_sort v_evs RSymbolic false false 0 [PConn BNot] = Some axs /\
  (forall rho : env nn_M, Forall (fun a => axiom_holds a rho) axs) /\ conditions_are_booleans v_evs nn_M /\
  dom nn_M SCondition 0 /\ ~ truth v_evs nn_M 0 /\ ~ truth v_evs nn_M (fint nn_M (Fta TNot) [0]).
Proof.
  eexists. split; [vm_compute; reflexivity|]. split; [intros rho; constructor; [reflexivity|constructor]|].
  split; [intros d Hd; cbn in *; destruct d as [|[|d]]; [reflexivity|reflexivity|lia]|]. split; [cbn; lia|]. split; discriminate.
Qed.
Theorem C27_negation_refuted : exists axs, generate v_sort v_evs RSymbolic false false 0 [PConn BNot] = Some axs /\
  (forall rho : env nn_M, Forall (fun a => axiom_holds a rho) axs) /\ conditions_are_booleans v_evs nn_M /\
  dom nn_M SCondition 0 /\ ~ truth v_evs nn_M 0 /\ ~ truth v_evs nn_M (fint nn_M (Fta TNot) [0]).
Proof. exact negation_open. Qed.
Print Assumptions C27_negation_refuted.
