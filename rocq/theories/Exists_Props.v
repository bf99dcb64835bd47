(** C31: merging disjuncts under one existential. *)
From Coq Require Import List Arith Bool Lia.
From Verif Require Import Syntax_Model Traversal_Spec Semantics_Spec Semantics_Proofs Binding_Proofs Expander_Proofs Expander_Props Exists_Model Exists_Spec Exists_Proofs.
Import ListNotations.

(** The merged formula is implied by the disjunction, clash or not, as soon as the variables have values of their sorts. *)
Theorem C31_implied : forall scmp, (forall a b, scmp a b = Eq <-> a = b) ->
  forall (M : structure) (ds : list disjunct) (rho : env M), (forall d, In d ds -> one_sort (fst d)) ->
  (forall d v, In d ds -> In v (fst d) -> dom M (vsort v) (rho (vid v))) ->
  holds (disjunction ds) rho -> holds (into_exist_formula scmp ds) rho.
Proof. exact (fun scmp H M ds rho H1 => @merge_implied scmp H M ds H1 rho). Qed.
Print Assumptions C31_implied.

(** It is equivalent to it when no variable clashes and sorts are not empty. *)
Theorem C31_equivalent : forall scmp, (forall a b, scmp a b = Eq <-> a = b) ->
  forall (M : structure) (ds : list disjunct) (rho : env M), (forall d, In d ds -> one_sort (fst d)) ->
  (forall s, exists d, dom M s d) -> no_clash ds ->
  (holds (into_exist_formula scmp ds) rho <-> holds (disjunction ds) rho).
Proof. exact (fun scmp H M ds rho H1 => @merge_equivalent scmp H M ds H1 rho). Qed.
Print Assumptions C31_equivalent.

(** A comparison of sorts. *)
Definition sort_code (s : sort) : nat * nat :=
  match s with
  | SBool => (0, 0) | SCondition => (1, 0) | SMessage => (2, 0) | SBitstring => (3, 0) | SUserSym i => (4, i) | SUserEval i => (5, i)
  | SIndex i => (6, i) | SName => (7, 0) | SStep => (8, 0)
  end.
Definition scmp0 (a b : sort) : comparison :=
  match Nat.compare (fst (sort_code a)) (fst (sort_code b)) with Eq => Nat.compare (snd (sort_code a)) (snd (sort_code b)) | c => c end.
Lemma scmp0_spec a b : scmp0 a b = Eq <-> a = b.
Proof.
  unfold scmp0. split.
  - destruct (Nat.compare_spec (fst (sort_code a)) (fst (sort_code b))) as [E|E|E]; try discriminate. intros H.
    apply Nat.compare_eq in H. destruct a, b; cbn in *; congruence.
  - intros ->. rewrite !Nat.compare_refl. reflexivity.
Qed.

(** Four disjuncts: the last one binds id 0 with another sort and stays apart; the second one is there twice. *)
Definition m_p (k : nat) (vs : list var) : formula := FFun (Fuser k) (map FVar vs).
Definition m_ds : list disjunct :=
  [([ix 0], m_p 0 [ix 0]); ([ix 1; ix 0], m_p 1 [ix 0; ix 1; ix 5]); ([ix 1; ix 0], m_p 1 [ix 0; ix 1; ix 5]); ([], m_p 2 []);
   ([mkVar 0 SMessage], m_p 3 [mkVar 0 SMessage])].
Example C31_example :
  (forall d, In d m_ds -> one_sort (fst d)) /\ no_clash m_ds /\
  into_exist_formula scmp0 m_ds =
    ors [mk_exists [ix 1] (ors [mk_exists [ix 0] (m_p 0 [ix 0]); mk_exists [ix 0] (m_p 1 [ix 0; ix 1; ix 5]); m_p 2 [];
                                mk_exists [mkVar 0 SMessage] (m_p 3 [mkVar 0 SMessage])])].
Proof.
  assert (Hf : forall k vs j, occurs_free j (m_p k vs) -> In j (map vid vs)).
  { intros k vs j (p & v & Hp & <- & _). apply in_map. inversion Hp as [|? ? i p' a ? Ha Hp'|]; subst.
    rewrite nth_error_map in Ha. destruct (nth_error vs i) as [w|] eqn:E; [|discriminate]. injection Ha as <-. inversion Hp'; subst.
    eapply nth_error_In; eauto. }
  split; [|split; [|reflexivity]].
  - intros d Hd v w Hv Hw E. repeat (destruct Hd as [<-|Hd]; [cbn in Hv, Hw; repeat destruct Hv as [<-|Hv]; repeat destruct Hw as [<-|Hw];
      try contradiction; try discriminate; reflexivity|]). destruct Hd.
  - intros d e v Hd He Hv Hfr.
    repeat (destruct Hd as [<-|Hd]; [apply Hf in Hfr; cbn in Hfr |- *; try tauto; repeat (destruct He as [<-|He]; [cbn in Hv; repeat destruct Hv as [<-|Hv]; try contradiction; cbn in Hfr |- *; intuition discriminate|]); destruct He|]).
    destruct Hd.
Qed.
(** The merge really strengthens nothing but may weaken: with a clash, the result can hold although no disjunct does. *)
Definition m_M : structure := finM 1 (fun s ds => match s, ds with Fuser 1, [d] => d | _, _ => 0 end).
Example C31_clash_example : let ds := [([ix 0], m_p 0 [ix 0]); ([], m_p 1 [ix 0])] in
  holds (M:=m_M) (into_exist_formula scmp0 ds) (fun _ => 0) /\ ~ holds (M:=m_M) (disjunction ds) (fun _ => 0).
Proof. split; [reflexivity|discriminate]. Qed.
