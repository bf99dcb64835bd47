From Coq Require Import List Ascii String.
From Verif Require Import Rewrite_Model Rewrite_Spec Rewrite_Proofs.
Import ListNotations.
Local Open Scope list_scope.

(** ** C64: rewrite rules preserve meaning *)

(** In every interpretation of the basic equations, every general rule but two is valid. *)
Theorem C64_general_partial : forall D I holds, basic D I holds -> forall r, In r general_rules ->
  rname r <> "simpl-tuple-2"%string -> rname r <> "ite-eq-1"%string -> valid D I r.
Proof. exact general_valid. Qed.
Print Assumptions C64_general_partial.

(** So is every bubbling rule, for all symbols and arities. *)
Theorem C64_bubble : forall D I holds, basic D I holds -> forall funs r, In r (bubble_rules funs) -> valid D I r.
Proof. exact bubble_valid. Qed.
Print Assumptions C64_bubble.

(** Hence everything these rules identify has the same value. *)
Theorem C64_derivable_partial : forall D I holds, basic D I holds -> forall a b,
  derivable (filter (fun r => negb (String.eqb (rname r) "simpl-tuple-2" || String.eqb (rname r) "ite-eq-1")) all_rules) a b ->
  value D I a = value D I b.
Proof.
  intros D I holds B. apply derivable_equal. intros r H. apply filter_In in H as [H E].
  apply in_app_iff in H as [H|H]; [|exact (bubble_valid D I holds B _ r H)].
  apply (general_valid D I holds B r H); intros X; rewrite X in E; discriminate E.
Qed.
Print Assumptions C64_derivable_partial.

(** The two others are not: each holds only where all values are equal, and there are interpretations with many. With
    [ite-eq-1] the rules identify all terms. *)
Theorem C64_refuted :
  (forall D I holds, basic D I holds -> forall r, In r general_rules ->
     rname r = "simpl-tuple-2"%string \/ rname r = "ite-eq-1"%string -> valid D I r -> forall a b : D, a = b) /\
  (exists D I holds, basic D I holds /\ exists a b : D, a <> b) /\
  (forall a b, derivable all_rules a b).
Proof.
  split; [|split].
  - intros D I holds B r H N V a b.
    specialize (V (fun x => match x with Q "a" => a | Q "b" => b | _ => a end)).
    cbn in H. repeat (destruct H as [<-|H]; [cbn in V; try (destruct N as [N|N]; discriminate N)|]); [| |contradiction].
    + rewrite (b_p2 _ _ _ B) in V. symmetry. exact V.
    + rewrite (b_ite _ _ _ B) in V. destruct (holds (I OEq [a; b])) eqn:E.
      * exact (b_eq_only _ _ _ B _ _ E).
      * symmetry. exact V.
  - exists val, example_I, is_true. split; [exact example_basic|]. exists VTrue, VFalse. discriminate.
  - intros a b. apply collapse. intros r H. apply in_app_iff. left. exact H.
Qed.
Print Assumptions C64_refuted.

(** An interpretation of the equations, and a derivation in several steps with one of the valid rules of each kind:
    [p1 (ite c (tuple x y) (tuple x z))] is [x]. *)
Example C64_example :
  let k (s : string) := T (OConst s) [] in
  let a := T OP1 [T OIte [k "c"%string; T OTuple [k "x"%string; k "y"%string]; T OTuple [k "x"%string; k "z"%string]]] in
  basic val example_I is_true /\
  derivable (filter (fun r => negb (String.eqb (rname r) "simpl-tuple-2" || String.eqb (rname r) "ite-eq-1")) all_rules) a (k "x"%string) /\
  value val example_I (T ODec [T OEnc [k "x"%string; k "r"%string; T OPk [k "k"%string]]; k "k"%string]) = value val example_I (k "x"%string).
Proof.
  cbv zeta. split; [exact example_basic|]. split; [|reflexivity].
  set (k (s : string) := T (OConst s) []). set (R := filter _ _).
  assert (forall r, In r R -> forall s, derivable R (inst s (lhs r)) (inst s (rhs r))) as RU by (intros r Hr s; apply d_rule; exact Hr).
  apply d_trans with (b := T OP1 [T OTuple [T OIte [k "c"%string; k "x"%string; k "x"%string]; T OIte [k "c"%string; k "y"%string; k "z"%string]]]).
  - apply d_cong. constructor; [|constructor].
    exact (RU (mkRule "ite-bubble-down" (premise OTuple 2) (conclusion OTuple 2)) ltac:(cbn; tauto)
      (fun x => match x with QN 0 => k "x"%string | QN 1 => k "y"%string | QN 2 => k "x"%string | QN 3 => k "z"%string | _ => k "c"%string end)).
  - apply d_trans with (b := T OIte [k "c"%string; k "x"%string; k "x"%string]).
    + exact (RU (mkRule "simpl-tuple-1" (PF OP1 [PF OTuple [qa; qb]]) qa) ltac:(cbn; tauto)
        (fun x => match x with Q "a" => T OIte [k "c"%string; k "x"%string; k "x"%string] | _ => T OIte [k "c"%string; k "y"%string; k "z"%string] end)).
    + exact (RU (mkRule "ite-same" (PF OIte [qc; qa; qa]) qa) ltac:(cbn; tauto)
        (fun x => match x with Q "a" => k "x"%string | _ => k "c"%string end)).
Qed.
