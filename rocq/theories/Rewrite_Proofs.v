From Coq Require Import List Ascii String Bool Lia.
From Verif Require Import Rewrite_Model Rewrite_Spec.
Import ListNotations.
Local Open Scope list_scope.

Section Sound.
  Variable D : Type.
  Variable I : op -> list D -> D.
  Variable holds : D -> bool.
  Hypothesis B : basic D I holds.

  Lemma decided (a b : D) : a = b \/ a <> b.
  Proof.
    destruct (holds (I OEq [a; b])) eqn:E; [left; eapply b_eq_only; eauto|right]. intros ->.
    rewrite (b_eq _ _ _ B), (b_true _ _ _ B) in E. discriminate.
  Qed.

  Lemma general_valid r : In r general_rules -> rname r <> "simpl-tuple-2"%string -> rname r <> "ite-eq-1"%string -> valid D I r.
  Proof.
    destruct B as [P1 P2 DE IT TR FA EQ NE EO NO ZE].
    intros H N1 N2 s. cbn in H.
    repeat (destruct H as [<-|H]; [cbn in *|]).
    - apply P1.
    - congruence.
    - apply DE.
    - rewrite IT, TR. reflexivity.
    - rewrite IT, FA. reflexivity.
    - rewrite IT. destruct (holds (s _)); reflexivity.
    - congruence.
    - rewrite IT. destruct (holds (I OEq [s (Q "a"%char); s (Q "b"%char)])) eqn:E; [|reflexivity].
      apply (b_eq_only _ _ _ B). exact E.
    - apply EQ.
    - destruct (decided (s (Q "a"%char)) (s (Q "b"%char))) as [E|N]; [rewrite E; reflexivity|].
      rewrite !NE by congruence. reflexivity.
    - apply NO.
    - apply ZE.
    - contradiction.
  Qed.

  Lemma sides_equal s f n : pvalue D I s (premise f n) = pvalue D I s (conclusion f n).
  Proof.
    unfold premise, conclusion. cbn [pvalue map qc]. rewrite (b_ite _ _ _ B).
    rewrite map_map. cbn [pvalue map fst snd].
    rewrite (map_ext _ (fun vv => if holds (s (Q "c"%char)) then pvalue D I s (fst vv) else pvalue D I s (snd vv))).
    2:{ intros a. apply (b_ite _ _ _ B). }
    assert (List.length (vars 0 n) = List.length (vars n n)) as L by (unfold vars; rewrite !map_length, !seq_length; reflexivity).
    destruct (holds (s (Q "c"%char))); f_equal; revert L; generalize (vars 0 n) (vars n n);
      (induction l as [|x l IH]; intros [|y m] L; cbn in *; try discriminate; [reflexivity|]; f_equal; apply IH; congruence).
  Qed.
  Lemma bubble_valid funs r : In r (bubble_rules funs) -> valid D I r.
  Proof.
    unfold bubble_rules. rewrite in_app_iff, !in_map_iff. intros [[[f n] [<- _]]|[[f n] [<- _]]] s; cbn [lhs rhs fst snd];
      [|symmetry]; apply sides_equal.
  Qed.

  Lemma inst_value s p : value D I (inst s p) = pvalue D I (fun x => value D I (s x)) p.
  Proof.
    revert p. fix IH 1. intros [x|f l]; [reflexivity|]. cbn. f_equal. rewrite map_map.
    induction l as [|p l IHl]; [reflexivity|]. cbn. f_equal; [apply IH|exact IHl].
  Qed.
  Lemma derivable_equal rules : (forall r, In r rules -> valid D I r) -> forall a b, derivable rules a b -> value D I a = value D I b.
  Proof.
    intros V. fix IH 3. intros a b H. destruct H as [r s Ir|t|a b H|a b c H1 H2|f l m F].
    - rewrite !inst_value. apply V. exact Ir.
    - reflexivity.
    - symmetry. apply IH. exact H.
    - rewrite (IH _ _ H1). apply IH. exact H2.
    - cbn. f_equal. induction F as [|x y l m X F IHF]; [reflexivity|]. cbn. f_equal; [apply IH; exact X|exact IHF].
  Qed.
End Sound.

Lemma collapse rules a b : (forall r, In r general_rules -> In r rules) -> derivable rules a b.
Proof.
  intros H. set (s := fun x => match x with Q "a" => a | Q "b" => b | _ => a end).
  set (r1 := mkRule "ite-eq-1" (PF OIte [PF OEq [qa; qb]; qa; qb]) qa).
  set (r2 := mkRule "ite-eq-2" (PF OIte [PF OEq [qa; qb]; qa; qb]) qb).
  apply d_trans with (b := inst s (lhs r1)).
  - apply d_sym. exact (d_rule rules r1 s (H r1 ltac:(cbn; tauto))).
  - exact (d_rule rules r2 s (H r2 ltac:(cbn; tauto))).
Qed.

Lemma example_basic : basic val example_I is_true.
Proof.
  constructor; intros; try reflexivity.
  - cbn. destruct (val_eq_dec k k); congruence.
  - cbn. destruct (val_eq_dec a a); congruence.
  - cbn. destruct (val_eq_dec a b); congruence.
  - cbn in H. destruct (val_eq_dec a b); [assumption|discriminate].
  - cbn. destruct x; try reflexivity. destruct x; reflexivity.
Qed.
