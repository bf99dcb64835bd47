(** C76: pushing evaluations towards the leaves keeps the meaning of an assertion. *)
From Coq Require Import List Arith Bool Lia.
From Verif Require Import Syntax_Model Traversal_Spec Semantics_Spec Semantics_Proofs Order_Spec Binding_Proofs Expander_Spec Sort_Model
  Expander_Props Evaluate_Model Evaluate_Spec Evaluate_Props Propagate_Model Propagate_Spec Propagate_Proofs.
Import ListNotations.

(** The pass succeeds and the result has the value of the assertion, under every evaluation. Partial: what is evaluated may not
    contain a symbolic [forall] or [exists], nor a variable of an evaluated sort, above the first opaque function. *)
Theorem C76_meaning_partial osort evs table funs G f :
  Forall (declared osort) funs -> well osort evs table funs G f ->
  exists n0 f', forall n, n0 <= n -> propagate_evaluate osort evs table n f = Some f' /\
    forall M (rho : env M), evaluation osort evs funs M -> typed_env G M rho -> eval f' rho = eval f rho.
Proof.
  intros Hd Hw. destruct (before_all osort evs table funs G f Hw) as (n0 & x & H). exists n0, (snd x). intros n Hn.
  unfold propagate_evaluate. rewrite H by auto. split; [reflexivity|]. intros M rho HM Hr.
  eapply before_meaning; eauto.
Qed.
Print Assumptions C76_meaning_partial.

(** An assertion that is not an evaluation below its leading quantifiers is left as it is. *)
Theorem C76_elsewhere osort evs table n f f' :
  propagate_evaluate osort evs table n f = Some f' -> ~ is_evaluation (matrix f) -> f' = f.
Proof.
  unfold propagate_evaluate. intros H Hn. destruct (before_eval osort evs table n f) as [x|] eqn:E; [|discriminate]. injection H as <-.
  rewrite (before_elsewhere _ _ _ _ _ _ E Hn). reflexivity.
Qed.
Print Assumptions C76_elsewhere.

(** The evaluation of a [forall] or [exists] whose numbers of bound variables and arguments differ stops the program. *)
Theorem C76_quantifier_panics osort evs table n s k q args :
  table k = Some q -> match qt_inner q with IFind _ _ _ => False | _ => True end -> length args <> length (qt_bound q) ->
  propagate_evaluate osort evs table n (FFun (Feval s) [FFun (Fquant k) args]) = None.
Proof.
  intros Ht Hq Hl. unfold propagate_evaluate. cbn. destruct n as [|n]; [reflexivity|]. cbn [after_eval maybe_evaluated]. rewrite Ht.
  assert (E : Nat.eqb (length (map vid (qt_bound q))) (length args) = false) by (apply Nat.eqb_neq; rewrite map_length; auto).
  destruct (qt_inner q); try contradiction; unfold Subst_Model.frozen_new; rewrite E; reflexivity.
Qed.
Print Assumptions C76_quantifier_panics.

Definition one_sort (h : fsym) : option sort :=
  match h with Fuser _ | Fquant _ | Fta _ => Some SCondition | Fcell _ => Some SMessage | Fuser_eval _ => Some SBool | _ => None end.

(** A variable of an evaluated sort is renamed without its binder: the variable of the result is not the bound one, and reading it
    as the bound one changes the meaning. *)
Definition vx := mkVar 0 SCondition.
Theorem C76_variable_refuted :
  let funs := [PUser 0 [SCondition] SCondition] in
  let f := FQ QForall [vx] (FFun (Feval SCondition) [FFun (Fuser 0) [FVar vx]]) in
  let f' := FQ QForall [vx] (FFun (Fuser_eval 0) [FVar (mkVar 0 SBool)]) in
  Forall (declared one_sort) funs /\
  (forall n, 2 <= n -> propagate_evaluate one_sort [SCondition] (fun _ => None) n f = Some f') /\
  exists M : structure, evaluation one_sort [SCondition] funs M /\ forall rho : env M, holds f rho /\ ~ holds f' rho.
Proof.
  cbv zeta. split; [repeat constructor|]. split; [intros [|[|n]] Hn; [lia|lia|reflexivity]|].
  exists (finM 1 (fun h ds => match h, ds with Feval _, _ => 1 | Fuser_eval _, [0] => 0 | Fuser_eval _, [_] => 1 | _, _ => 0 end)).
  split.
  { constructor.
    - exists (fun _ _ => []). constructor; [|constructor]. intros ds Hds. inversion Hds as [|? ? ? ? ? Hr]; subst. inversion Hr; subst. reflexivity.
    - intros d Hd. reflexivity.
    - intros h s ds Hs. cbn. destruct h; try lia. destruct ds as [|[|d] [|? ?]]; lia. }
  intros rho. split; [reflexivity|]. unfold holds. cbn. discriminate.
Qed.
Print Assumptions C76_variable_refuted.

(** The bound and the free variables of a symbolic quantifier are exchanged: neither of the assertion and the result implies the
    other. *)
Definition qx := mkVar 0 (SIndex 0).
Definition qy := mkVar 1 (SIndex 0).
Definition qz := mkVar 2 (SIndex 0).
Definition some_y : quantifier := mkQuantifier [qy] [qx] (IExists (FFun (Fuser 0) [FVar qx; FVar qy])).
Definition fi (b : bool) (h : fsym) (ds : list nat) : nat :=
  match h, ds with
  | Feval _, [0] => 0 | Feval _, _ => 1
  | Fuser _, [d; e] | Fuser_eval _, [d; e] => if Nat.eqb (if b then e else d) 0 then 0 else 1
  | Fquant _, [d] => if b then 1 else if Nat.eqb d 0 then 0 else 1
  | _, _ => 0
  end.
Lemma fi_evaluation b : evaluation one_sort [SCondition] [PUser 0 [SIndex 0; SIndex 0] SCondition; PQuant 0 some_y] (finM 1 (fi b)).
Proof.
  constructor.
  - exists (fun _ _ => []). constructor; [|constructor; [|constructor]].
    + intros ds Hds. inversion Hds as [|? d ? l ? Hr]; subst. inversion Hr as [|? e ? l' ? Hr']; subst. inversion Hr'; subst. cbn.
      destruct (Nat.eqb (if b then e else d) 0); reflexivity.
    + intros rho fs Hfs. inversion Hfs as [|? d ? l Hd Hr]; subst. inversion Hr; subst. cbn. split.
      * intros H ds Hds. inversion Hds as [|? e ? l' He Hr']; subst. inversion Hr'; subst. unfold at_, truth, value in *. cbn in *.
        destruct b; cbn in *; [exfalso; apply H; reflexivity|]. exact H.
      * intros H. specialize (H [1]). assert (T : typed (M:=finM 1 (fi b)) [qy] [1]) by (repeat constructor). specialize (H T).
        unfold at_, truth, value in *. cbn in *. destruct b; cbn in *; auto.
  - intros d Hd. unfold value. cbn. destruct d as [|[|d]]; reflexivity.
  - intros h s ds Hs. cbn. unfold fi. destruct h; try lia.
    + destruct ds as [|[|d] [|? ?]]; lia.
    + destruct ds as [|d [|e [|? ?]]]; try lia. destruct b; [lia|]. destruct (Nat.eqb d 0); lia.
    + destruct ds as [|d [|e [|? ?]]]; try lia. destruct (Nat.eqb (if b then e else d) 0); lia.
    + destruct ds as [|d [|e [|? ?]]]; try lia. destruct (Nat.eqb (if b then e else d) 0); lia.
Qed.
Theorem C76_quantifier_refuted :
  let funs := [PUser 0 [SIndex 0; SIndex 0] SCondition; PQuant 0 some_y] in
  let f := FQ QForall [qz] (FFun (Feval SCondition) [FFun (Fquant 0) [FVar qz]]) in
  let f' := FQ QForall [qz] (FQ QExists [qx] (FFun (Fuser_eval 0) [FVar qx; FVar qz])) in
  Forall (declared one_sort) funs /\
  (forall n, 3 <= n -> propagate_evaluate one_sort [SCondition] (fun _ => Some some_y) n f = Some f') /\
  exists M M' : structure, evaluation one_sort [SCondition] funs M /\ evaluation one_sort [SCondition] funs M' /\
    (forall rho : env M, holds f rho /\ ~ holds f' rho) /\ (forall rho : env M', ~ holds f rho /\ holds f' rho).
Proof.
  cbv zeta. split.
  { constructor; [repeat constructor|]. constructor; [|constructor]. cbn. split; [reflexivity|]. split; [apply ok_closed; reflexivity|].
    split; [|reflexivity]. intros p i args. apply skolem_free_ok. reflexivity. }
  split; [intros [|[|[|n]]] Hn; [lia|lia|lia|reflexivity]|].
  exists (finM 1 (fi true)), (finM 1 (fi false)). split; [apply fi_evaluation|]. split; [apply fi_evaluation|].
  split; intros rho; split; try reflexivity; unfold holds; cbn; discriminate.
Qed.
Print Assumptions C76_quantifier_refuted.

(** A case of [C76_meaning_partial]: forall i. eval (f(cell(i), i) = cell(i) /\ true). *)
Definition exf : formula :=
  FQ QForall [qx] (FFun (Feval SCondition) [FFun (Fta TAnd)
    [FFun (Fta TEq) [FFun (Fuser 1) [FFun (Fcell 0) [FVar qx]; FVar qx]; FFun (Fcell 0) [FVar qx]]; FFun (Fta TTrue) []]]).
Definition ex_sort (h : fsym) : option sort := match h with Fuser _ => Some SMessage | h => one_sort h end.
Definition ex_funs := [PUser 1 [SMessage; SIndex 0] SMessage; PEq; PConn BAnd; PConn BTrue].
Example C76_example :
  Forall (declared ex_sort) ex_funs /\ well ex_sort [SCondition; SMessage] (fun _ => None) ex_funs (fun _ => SIndex 0) exf /\
  (forall n, 5 <= n -> propagate_evaluate ex_sort [SCondition; SMessage] (fun _ => None) n exf =
     Some (FQ QForall [qx] (FFun (Fb CAnd) [FFun (Fb CEq) [FFun (Fuser_eval 1) [FFun (Feval SMessage) [FFun (Fcell 0) [FVar qx]]; FVar qx];
            FFun (Feval SMessage) [FFun (Fcell 0) [FVar qx]]]; FFun (Fb CTrue) []]))) /\
  exists M, evaluation ex_sort [SCondition; SMessage] ex_funs M /\ forall rho : env M, ~ holds exf rho.
Proof.
  split; [repeat constructor|]. split.
  { apply we_q; [repeat constructor|]. apply we_eval; [left; reflexivity|].
    apply (pl_conn _ _ _ _ BAnd); [cbn; tauto|]. constructor; [|constructor; [|constructor]].
    - apply pl_eq; [cbn; tauto| |apply pl_opaque; [exact I|reflexivity]].
      apply (pl_user _ _ _ _ 1 [SMessage; SIndex 0]); [cbn; tauto|]. constructor; [apply pl_opaque; [exact I|reflexivity]|].
      constructor; [|constructor]. apply (pl_var _ _ _ _ qx); reflexivity.
    - apply (pl_conn _ _ _ _ BTrue); [cbn; tauto|constructor]. }
  split; [intros [|[|[|[|[|n]]]]] Hn; try lia; reflexivity|].
  exists (finM 1 (fun h ds => match h, ds with
                  | Feval SCondition, [0] => 0 | Feval SCondition, _ => 1
                  | Feval _, [0] => 1 | Feval _, _ => 0
                  | Fuser _, _ => 0 | Fuser_eval _, _ => 1
                  | Fta TEq, [a; b] => b2n (Nat.eqb (match a with 0 => 1 | _ => 0 end) (match b with 0 => 1 | _ => 0 end))
                  | Fta TAnd, [a; b] => b2n (n2b (match a with 0 => 0 | _ => 1 end) && n2b (match b with 0 => 0 | _ => 1 end))
                  | Fta TTrue, _ => 1 | Fcell _, _ => 1 | _, _ => 0 end)).
  split; [|intros rho; unfold holds; cbn; discriminate].
  constructor.
  - exists (fun _ _ => []). constructor; [|constructor; [|constructor; [|constructor; [|constructor]]]].
    + intros ds Hds. reflexivity.
    + intros a b _. destruct a, b; reflexivity.
    + intros ds Hds. inversion Hds as [|? d ? l ? Hr]; subst. inversion Hr as [|? e ? l' ? Hr']; subst. inversion Hr'; subst.
      destruct d, e; reflexivity.
    + intros ds Hds. inversion Hds; subst. reflexivity.
  - intros d Hd. unfold value. cbn. destruct d as [|[|d]]; reflexivity.
  - intros h s ds Hs. cbn. destruct h as [| | | | | |c| | | | | | | | | | | | |]; cbn in *; try discriminate; try lia.
    destruct c; try lia; destruct ds as [|a [|b [|? ?]]]; try lia; unfold b2n;
      match goal with |- (if ?b then 1 else 0) <= 1 => destruct b; lia | _ => idtac end.
Qed.
