(** C44-C48: the automatic runner. *)
From Coq Require Import List Arith Bool Lia NArith ZArith String Ascii Permutation.
From Verif Require Import Runner_Model Runner_Spec Runner_Proofs.
Import ListNotations.
Local Open Scope list_scope.

(** ** C48: classification *)

(** The status of Z3 is what its last line says, if it exits with 0. *)
Ltac parts := split; [split|split; [split|split; [split|split]]].
Theorem C48_z3 rc out :
  (z3_result rc out = AUnsat <-> rc = Some 0%Z /\ says "unsat" out) /\
  (z3_result rc out = ASat <-> rc = Some 0%Z /\ says "sat" out) /\
  ((exists t, z3_result rc out = ATimeout t) <-> rc = Some 0%Z /\ says "timeout" out) /\
  (z3_result rc out = AErr <-> (exists c, rc = Some c /\ c <> 0%Z) \/ (rc = Some 0%Z /\ out = [])).
Proof.
  rewrite says_unsat, says_sat, says_timeout. destruct rc as [c|].
  2: { cbn. parts; try discriminate; try (intros (H & _); discriminate); try (intros (t & H); discriminate).
       intros [(c & H & _)|(H & _)]; discriminate. }
  destruct (Z.eq_dec c 0) as [->|Hc].
  - cbn [z3_result]. destruct (last_opt (lines out)) as [l|] eqn:El.
    + assert (Ho : out <> []) by (intros ->; discriminate).
      assert (EX : forall w, (exists l0, Some l = Some l0 /\ trim l0 = lit w) <-> trim l = lit w).
      { intros w. split; [intros (l0 & [= <-] & H); exact H|intros H; exists l; auto]. }
      rewrite !EX. cbv zeta.
      destruct (chars_eqb (trim l) (lit "unsat")) eqn:E1; [apply chars_eqb_true in E1; rewrite E1|].
      { parts; auto; try discriminate; try (intros (_ & H); discriminate); try (intros (t & H); discriminate).
        intros [(c & [= <-] & H)|(_ & H)]; [destruct H; reflexivity|contradiction]. }
      assert (N1 : trim l <> lit "unsat") by (intros H; apply chars_eqb_true in H; congruence).
      destruct (chars_eqb (trim l) (lit "sat")) eqn:E2; [apply chars_eqb_true in E2; rewrite E2|].
      { parts; auto; try discriminate; try (intros (_ & H); discriminate); try (intros (t & H); discriminate).
        intros [(c & [= <-] & H)|(_ & H)]; [destruct H; reflexivity|contradiction]. }
      assert (N2 : trim l <> lit "sat") by (intros H; apply chars_eqb_true in H; congruence).
      destruct (chars_eqb (trim l) (lit "timeout")) eqn:E3; [apply chars_eqb_true in E3; rewrite E3|].
      { parts; auto; try discriminate; try (intros (_ & H); discriminate); eauto.
        intros [(c & [= <-] & H)|(_ & H)]; [destruct H; reflexivity|contradiction]. }
      assert (N3 : trim l <> lit "timeout") by (intros H; apply chars_eqb_true in H; congruence).
      parts; auto; try discriminate; try (intros (_ & H); contradiction); try (intros (t & H); discriminate).
      intros [(c & [= <-] & H)|(_ & H)]; [destruct H; reflexivity|contradiction].
    + assert (out = []) as ->.
      { destruct (decompose out) as [E|(b & q & nl & -> & Hb & Hnl & Hq & Hne)]; [exact E|]. rewrite last_line in El by assumption. discriminate. }
      parts; auto; try discriminate; try (intros (_ & l & H & _); discriminate); try (intros (t & H); discriminate).
  - assert (z3_result (Some c) out = AErr) as -> by (destruct c; [contradiction|reflexivity|reflexivity]).
    parts; auto; try discriminate; try (intros ([= ->] & _); contradiction); try (intros (t & H); discriminate). intros _. left. eauto.
Qed.
Print Assumptions C48_z3.
Example C48_z3_example : z3_result (Some 0%Z) (lit "(warning)" ++ [10%N] ++ lit "  unsat " ++ [13%N; 10%N]) = AUnsat.
Proof. reflexivity. Qed.

(** That of Vampire is its exit code. Missing: what it says. *)
Theorem C48_vampire_partial rc out :
  (vampire_result rc out = AUnsat <-> rc = Some 0%Z) /\ vampire_result rc out <> ASat /\
  ((exists t, vampire_result rc out = ATimeout t) <-> rc = Some 1%Z) /\ (forall t, vampire_result rc out = ATimeout t -> t = out) /\
  (vampire_result rc out = AErr <-> exists c, rc = Some c /\ c <> 0%Z /\ c <> 1%Z).
Proof.
  destruct rc as [[|[p|p|]|p]|]; cbn; repeat split; try discriminate; try congruence; try (intros (t & H); discriminate); eauto;
    try (intros (c & [= <-] & H1 & H2); congruence); try (intros _; eexists; repeat split; discriminate); try (intros (c & H & _); discriminate).
Qed.
Print Assumptions C48_vampire_partial.
Theorem C48_vampire_refuted : exists out,
  mentions "Termination reason: Satisfiable" out /\ ~ mentions "Refutation" out /\ vampire_result (Some 0%Z) out = AUnsat.
Proof.
  exists (lit "% Termination reason: Satisfiable"). split; [exists (lit "% "), []; reflexivity|]. split; [|reflexivity].
  intros (a & b & E). change (map N_of_ascii (list_ascii_of_string "Refutation")) with (lit "Refutation") in E.
  assert (H : In 82%N (lit "% Termination reason: Satisfiable")) by (rewrite E; rewrite !in_app_iff; right; left; left; reflexivity).
  vm_compute in H. repeat (destruct H as [H|H]; [discriminate|]). destruct H.
Qed.
Print Assumptions C48_vampire_refuted.

(** ** C47: processes *)

Section Round.
  Context (n : nat) (kinds : nat -> kind) (plans : nat -> plan) (kill_fails : nat -> bool).

(** After a round no process runs, whatever the interleaving, except one that could neither be killed nor be read to its end; the
    round is an error or a panic then. *)
Theorem C47_no_process s v i : reachable n kinds plans kill_fails s -> mainth s = MDone v -> processes s i = Running ->
  kill_fails i = true /\ plans i = PBroken /\ (v = VErr \/ v = VPanic).
Proof.
  intros R E Hp. pose proof (inv_reachable _ _ _ _ _ R) as H. destruct (le_lt_dec n i) as [Hi|Hi].
  { destruct (i_out _ _ _ _ _ H i Hi) as (_ & K). congruence. }
  pose proof (i_main _ _ _ _ _ H) as M. unfold mfacts in M. rewrite E in M. destruct M as (v0 & e & _ & _ & Q1 & Q2 & He & _).
  pose proof (i_thread _ _ _ _ _ H i Hi) as T. unfold tfacts in T. specialize (He i Hi).
  destruct (i_proc _ _ _ _ _ H i Hi Hp) as [K|[K|(K & F)]].
  - rewrite K in He. discriminate.
  - rewrite Q1, Q2 in K. destruct (killable (kinds i)); destruct K.
  - split; [exact K|]. split.
    + destruct (threads s i); try discriminate; [apply T; exact Hp|]. destruct T as (_ & T). congruence.
    + rewrite E in F. cbn in F. destruct v; auto; discriminate.
Qed.
(** Every execution ends, and only when the round is done. *)
Theorem C47_ends s : reachable n kinds plans kill_fails s ->
  Acc (fun b a => step n kinds plans kill_fails a b) s /\ ((forall s', ~ step n kinds plans kill_fails s s') -> exists v, mainth s = MDone v).
Proof.
  intros R. split.
  - apply inv_reachable in R. remember (weight n s) as w eqn:Ew. revert s R Ew. induction w as [w IH] using lt_wf_ind. intros s H Ew. constructor.
    intros s' St. eapply IH; [|eapply inv_step; eauto|reflexivity]. subst w. eapply step_weight; eauto.
  - intros N. destruct (progress n kinds plans kill_fails s (inv_reachable _ _ _ _ _ R)) as [D|(s' & St)]; [exact D|]. destruct (N s' St).
Qed.
(** No thread finds that nobody listens to it. *)
Theorem C47_channels s i : reachable n kinds plans kill_fails s -> i < n -> threads s i = TSpawned -> closed (killable (kinds i)) (mainth s) = false.
Proof. intros R. apply closed_false with (1 := inv_reachable _ _ _ _ _ R). Qed.

(** ** C46: timing *)

Lemma truth_answers i a : plans i <> PPanic -> answers (kinds i) (plans i) a <-> a = truth kinds plans i.
Proof. unfold answers, truth. intros H. destruct (plans i); try tauto; try congruence. unfold result. destruct (kinds i); reflexivity. Qed.
Lemma done_facts s v : reachable n kinds plans kill_fails s -> mainth s = MDone v -> (forall i, i < n -> kill_fails i = false) ->
  (exists i, i < n /\ plans i = PPanic) /\ v = VPanic \/ (forall i, i < n -> plans i <> PPanic) /\ vfacts n kinds plans v.
Proof.
  intros R E Hk. pose proof (inv_reachable _ _ _ _ _ R) as H. pose proof (i_main _ _ _ _ _ H) as M. unfold mfacts in M. rewrite E in M.
  destruct M as (v0 & e & V & F & _ & _ & He & ->). pose proof (panicked_plans n kinds plans kill_fails s H He) as P.
  assert (e = false) as ->. { destruct e; [|reflexivity]. destruct (F eq_refl) as (i & Hi & K). rewrite (Hk i Hi) in K. discriminate. }
  destruct (panicked n s); [left; split; [apply P|]; reflexivity|]. right. split; [|exact V]. intros i Hi Ep.
  assert (false = true) by (apply P; eauto). discriminate.
Qed.

(** With an unsat answer, and no sat answer and no error, the verdict is unsat, whatever the order. Partial: no error. *)
Theorem C46_unsat_partial s v : reachable n kinds plans kill_fails s -> mainth s = MDone v -> (forall i, i < n -> kill_fails i = false) ->
  (forall i, i < n -> plans i <> PPanic) ->
  (exists i, i < n /\ answers (kinds i) (plans i) AUnsat) ->
  (forall i a, i < n -> answers (kinds i) (plans i) a -> a <> ASat /\ a <> AErr) -> v = VUnsat.
Proof.
  intros R E Hk Hp (i & Hi & Hu) Hn. destruct (done_facts s v R E Hk) as [((j & Hj & Ep) & _)|(_ & V)]; [destruct (Hp j Hj Ep)|].
  apply truth_answers in Hu; [|auto]. destruct v; cbn in V; try reflexivity.
  - destruct V as (j & Hj & T). destruct (Hn j ASat Hj) as (K & _); [apply truth_answers; auto|]. congruence.
  - destruct V as (V & _). destruct (V i Hi) as [K|K]; [destruct (Hp i Hi K)|]. unfold silent in K. rewrite <- Hu in K. destruct K.
  - destruct V as (j & Hj & T & _). destruct (Hn j AErr Hj) as (_ & K); [apply truth_answers; auto|]. congruence.
  - destruct V.
Qed.
(** If the conclusive answers agree, two executions have the same verdict, up to the order of the outputs to search. *)
Theorem C46_order_partial s v s' v' : reachable n kinds plans kill_fails s -> mainth s = MDone v ->
  reachable n kinds plans kill_fails s' -> mainth s' = MDone v' -> (forall i, i < n -> kill_fails i = false) ->
  (forall i j a b, i < n -> j < n -> answers (kinds i) (plans i) a -> answers (kinds j) (plans j) b -> conclusive a -> conclusive b -> a = b) ->
  v = v' \/ exists l l', v = VTimeout l /\ v' = VTimeout l' /\ Permutation l l'.
Proof.
  intros R E R' E' Hk Hc. destruct (done_facts s v R E Hk) as [((j & Hj & Ep) & ->)|(Hp & V)].
  { destruct (done_facts s' v' R' E' Hk) as [(_ & ->)|(Hp & _)]; [left; reflexivity|destruct (Hp j Hj Ep)]. }
  destruct (done_facts s' v' R' E' Hk) as [((j & Hj & Ep) & ->)|(_ & V')]; [destruct (Hp j Hj Ep)|].
  assert (A : forall i, i < n -> answers (kinds i) (plans i) (truth kinds plans i)) by (intros i Hi; apply truth_answers; auto).
  assert (S : forall i, i < n -> plans i = PPanic \/ silent kinds plans i -> ~ conclusive (truth kinds plans i)).
  { intros i Hi [K|K]; [destruct (Hp i Hi K)|]. unfold silent, conclusive in *. intros [C|[C|C]]; rewrite C in K; destruct K. }
  unfold conclusive in *.
  destruct v, v'; cbn in V, V'; auto; try contradiction; try (destruct V as (i & Hi & T)); try (destruct V' as (j & Hj & T'));
    try (destruct T as (T & _)); try (destruct T' as (T' & _)); try (destruct V as (V & P)); try (destruct V' as (V' & P'));
    try (exfalso; eapply S; [exact Hi|apply V'; exact Hi|rewrite T; auto]; fail);
    try (exfalso; eapply S; [exact Hj|apply V; exact Hj|rewrite T'; auto]; fail);
    try (exfalso; specialize (Hc i j _ _ Hi Hj (A i Hi) (A j Hj)); rewrite T, T' in Hc; assert (K : _ = _) by (apply Hc; auto); discriminate K).
  right. exists l, l0. split; [reflexivity|]. split; [reflexivity|]. rewrite P, P'. reflexivity.
Qed.
(** When nobody concludes, the outputs that are searched for instances are those of the Vampires that ran out of time, each once. *)
Theorem C46_outputs s l : reachable n kinds plans kill_fails s -> mainth s = MDone (VTimeout l) -> (forall i, i < n -> kill_fails i = false) ->
  NoDup (map fst l) /\ forall i out, In (i, out) l <-> i < n /\ kinds i = Vampire /\ plans i = PExit (Some 1%Z) out.
Proof.
  intros R E Hk. destruct (done_facts s _ R E Hk) as [(_ & K)|(Hp & V & P)]; [discriminate K|].
  assert (N : forall i, noisy kinds plans i = [] \/ exists t, noisy kinds plans i = [(i, t)]).
  { intros i. unfold noisy. destruct (discoverer (kinds i)); [|left; reflexivity]. destruct (truth kinds plans i); eauto. }
  assert (Q : forall i out, In (i, out) l <-> i < n /\ In (i, out) (noisy kinds plans i)).
  { intros i out. split.
    - intros H. apply (Permutation_in _ P) in H. apply in_flat_map in H as (j & Hj & H). apply in_seq in Hj. destruct (N j) as [Ej|(t & Ej)]; rewrite Ej in H; [destruct H|].
      destruct H as [H|[]]. injection H as <- <-. split; [lia|]. rewrite Ej. left. reflexivity.
    - intros (Hi & H). apply (Permutation_in _ (Permutation_sym P)). apply in_flat_map. exists i. split; [apply in_seq; lia|exact H]. }
  split.
  - apply (Permutation_NoDup (Permutation_map fst (Permutation_sym P))). clear - N. generalize 0. induction n as [|m IH]; intros k; [constructor|]. cbn [seq flat_map]. rewrite map_app.
    assert (F : ~ In k (map fst (flat_map (noisy kinds plans) (seq (S k) m)))).
    { intros H. apply in_map_iff in H as ((a & b) & <- & H). apply in_flat_map in H as (j & Hj & H). apply in_seq in Hj. destruct (N j) as [Ej|(t & Ej)]; rewrite Ej in H; [destruct H|].
      destruct H as [H|[]]. injection H as <- <-. cbn in Hj. lia. }
    destruct (N k) as [Ek|(t & Ek)]; rewrite Ek; cbn; [apply IH|constructor; [exact F|apply IH]].
  - intros i out. rewrite Q. split.
    + intros (Hi & H). split; [exact Hi|]. unfold noisy, truth in H. destruct (kinds i); cbn [discoverer] in H; [|destruct H]. split; [reflexivity|].
      destruct (plans i) as [| | |rc t]; cbn in H; try contradiction. destruct rc as [[|[p|p|]|p]|]; cbn in H; try contradiction. destruct H as [H|[]]. injection H as ->. reflexivity.
    + intros (Hi & Ek & Ep). split; [exact Hi|]. unfold noisy, truth. rewrite Ek, Ep. left. reflexivity.
Qed.
End Round.
Print Assumptions C46_outputs.
Print Assumptions C47_no_process.
Print Assumptions C47_ends.
Print Assumptions C47_channels.
Print Assumptions C46_unsat_partial.
Print Assumptions C46_order_partial.

(** Executions of two solvers: Vampire finds a proof and Z3 rejects the file. *)
Definition two (i : nat) : kind := match i with 0 => Vampire | _ => Z3 end.
Definition race (i : nat) : plan := match i with 0 => PExit (Some 0%Z) [] | _ => PExit (Some 1%Z) [] end.
Definition never (i : nat) : bool := false.
(** A scheduler, to show executions. *)
Inductive choice : Type := Thread (i : nat) | Exit (i : nat) | Main.
Definition act (plans : nat -> plan) (c : choice) (s : state) : option state :=
  let th := threads s in let pr := processes s in let fin := finished s in let q1 := queue1 s in let q2 := queue2 s in let m := mainth s in
  let ends := ended (th 0) && ended (th 1) in let senders := holds_sender (th 0) || holds_sender (th 1) in
  match c with
  | Thread i =>
      match th i with
      | TInit => match plans i with
                 | PPanic | PFail => None
                 | _ => Some (mkState (set th i TSpawned) (set pr i Running) fin q1 q2 m)
                 end
      | TSpawned => if closed (killable (two i)) m then None else
                    Some (mkState (set th i TWaiting) pr fin (if killable (two i) then q1 ++ [i] else q1) (if killable (two i) then q2 else q2 ++ [i]) m)
      | TWaiting => match pr i with Running => None | _ => Some (mkState (set th i TDone) pr (fin ++ [(i, found two plans i (pr i))]) q1 q2 m) end
      | _ => None
      end
  | Exit i => match pr i with Running => Some (mkState th (set pr i Exited) fin q1 q2 m) | _ => None end
  | Main =>
      match m with
      | MLoop l => match fin with (i, a) :: q => Some (mkState th pr q q1 q2 (receive two l i a))
                   | [] => if ends then Some (mkState th pr fin q1 q2 (MKill1 (VTimeout l) false)) else None end
      | MKill1 v e => match q1 with i :: q => Some (mkState th (set pr i (killed (pr i))) fin q q2 (MKill1 v (e || never i)))
                      | [] => if senders then None else Some (mkState th pr fin q1 q2 (MKill2 v e)) end
      | MKill2 v e => match q2 with i :: q => Some (mkState th (set pr i (killed (pr i))) fin q1 q (MKill2 v (e || never i)))
                      | [] => if senders then None else Some (mkState th pr fin q1 q2 (MJoin v e)) end
      | MJoin v e => if ends then Some (mkState th pr fin q1 q2 (MDone (if panicked 2 s then VPanic else if e then VErr else v))) else None
      | MDone _ => None
      end
  end.
Definition who (c : choice) : bool := match c with Thread i | Exit i => Nat.ltb i 2 | Main => true end.
Fixpoint schedule (plans : nat -> plan) (cs : list choice) (s : state) : option state :=
  match cs with
  | [] => Some s
  | c :: cs' => if who c then match act plans c s with Some s' => schedule plans cs' s' | None => None end else None
  end.
Lemma some_inj {A} (a b : A) : Some a = Some b -> a = b.
Proof. congruence. Qed.
Lemma act_step plans c s s' : who c = true -> act plans c s = Some s' -> step 2 two plans never s s'.
Proof.
  assert (A : forall f : nat -> bool, f 0 && f 1 = true -> forall i, i < 2 -> f i = true).
  { intros f H. apply andb_true_iff in H. intros [|[|i]] Hi; [apply H|apply H|lia]. }
  assert (B : forall f : nat -> bool, f 0 || f 1 = false -> forall i, i < 2 -> f i = false).
  { intros f H. apply orb_false_iff in H. intros [|[|i]] Hi; [apply H|apply H|lia]. }
  destruct c as [i|i|]; cbn [act who]; intros Hw.
  - apply Nat.ltb_lt in Hw. destruct (threads s i) eqn:Et; try discriminate.
    + destruct (plans i) eqn:Ep; try discriminate; intros E; apply some_inj in E; subst s'; apply s_spawn; auto; congruence.
    + destruct (closed (killable (two i)) (mainth s)) eqn:Ec; [discriminate|]. intros E; apply some_inj in E; subst s'. apply s_send; auto.
    + destruct (processes s i) eqn:Ep; try discriminate; intros E; apply some_inj in E; subst s'; rewrite <- Ep; apply s_answer; auto; congruence.
  - apply Nat.ltb_lt in Hw. destruct (processes s i) eqn:Ep; try discriminate. intros E; apply some_inj in E; subst s'. apply s_exit; auto.
  - destruct (mainth s) as [l|v e|v e|v e|v] eqn:Em; try discriminate.
    + destruct (finished s) as [|[i a] q] eqn:Ef; [|intros E; apply some_inj in E; subst s'; eapply s_receive; eauto].
      destruct (_ && _) eqn:Ee; [|discriminate]. intros E; apply some_inj in E; subst s'. rewrite <- Ef. apply s_no_more; auto. exact (A (fun i => ended (threads s i)) Ee).
    + destruct (queue1 s) as [|i q] eqn:Eq; [|intros E; apply some_inj in E; subst s'; exact (s_kill1 2 two plans never s v e i q Em Eq)].
      destruct (_ || _) eqn:Ee; [discriminate|]. intros E; apply some_inj in E; subst s'. rewrite <- Eq. apply s_next; auto. exact (B (fun i => holds_sender (threads s i)) Ee).
    + destruct (queue2 s) as [|i q] eqn:Eq; [|intros E; apply some_inj in E; subst s'; exact (s_kill2 2 two plans never s v e i q Em Eq)].
      destruct (_ || _) eqn:Ee; [discriminate|]. intros E; apply some_inj in E; subst s'. rewrite <- Eq. apply s_join; auto. exact (B (fun i => holds_sender (threads s i)) Ee).
    + destruct (ended _ && _) eqn:Ee; [|discriminate]. intros E; apply some_inj in E; subst s'. apply s_done; auto. exact (A (fun i => ended (threads s i)) Ee).
Qed.
Lemma scheduled plans cs s s' : reachable 2 two plans never s -> schedule plans cs s = Some s' -> reachable 2 two plans never s'.
Proof.
  revert s. induction cs as [|c cs IH]; intros s R; cbn; [intros [= <-]; exact R|]. destruct (who c) eqn:Ew; [|discriminate].
  destruct (act plans c s) as [s1|] eqn:E; [|discriminate]. apply IH. econstructor; [exact R|]. eapply act_step; eauto.
Qed.
Lemma execution plans cs (Q : state -> Prop) : match schedule plans cs start with Some s => Q s | None => False end ->
  exists s, reachable 2 two plans never s /\ Q s.
Proof. destruct (schedule plans cs start) as [s|] eqn:E; [|intros []]. intros H. exists s. split; [eapply scheduled; [constructor|exact E]|exact H]. Qed.
Lemma vampire_first : exists s, reachable 2 two race never s /\ mainth s = MDone VUnsat /\ processes s 1 = Killed.
Proof.
  apply (execution race [Thread 0; Thread 1; Thread 0; Thread 1; Exit 0; Thread 0; Main; Main; Main; Main; Main; Thread 1; Main]).
  vm_compute. split; reflexivity.
Qed.
Lemma z3_first : exists s, reachable 2 two race never s /\ mainth s = MDone VErr.
Proof.
  apply (execution race [Thread 1; Thread 1; Exit 1; Thread 1; Main; Thread 0; Thread 0; Main; Main; Main; Main; Thread 0; Main]). vm_compute. reflexivity.
Qed.
(** Some solver answers unsat, none answers sat, and the verdict depends on the order. *)
Theorem C46_unsat_refuted : answers (two 0) (race 0) AUnsat /\ (forall i a, i < 2 -> answers (two i) (race i) a -> a <> ASat) /\
  (exists s, reachable 2 two race never s /\ mainth s = MDone VUnsat) /\ (exists s, reachable 2 two race never s /\ mainth s = MDone VErr).
Proof.
  split; [reflexivity|]. split; [intros [|[|i]] a Hi H; cbn in H; [| |lia]; subst a; discriminate|]. split; [|exact z3_first].
  destruct vampire_first as (s & R & E & _). eauto.
Qed.
Print Assumptions C46_unsat_refuted.

(** A case of [C46_unsat_partial] and [C46_order_partial]: Z3 does not know. *)
Definition calm (i : nat) : plan := match i with 0 => PExit (Some 0%Z) [] | _ => PExit (Some 0%Z) (lit "unknown") end.
Example C46_example : (exists s v, reachable 2 two calm never s /\ mainth s = MDone v) /\
  (forall i, i < 2 -> never i = false) /\ (forall i, i < 2 -> calm i <> PPanic) /\ (exists i, i < 2 /\ answers (two i) (calm i) AUnsat) /\
  (forall i a, i < 2 -> answers (two i) (calm i) a -> a <> ASat /\ a <> AErr).
Proof.
  split.
  - destruct (execution calm [Thread 1; Thread 1; Exit 1; Thread 1; Main; Thread 0; Thread 0; Exit 0; Thread 0; Main; Main; Main; Main; Main; Main]
      (fun s => mainth s = MDone VUnsat)) as (s & R & E); [vm_compute; reflexivity|eauto].
  - split; [reflexivity|]. split; [intros [|[|i]] Hi; cbn; [discriminate|discriminate|lia]|]. split; [exists 0; split; [lia|reflexivity]|].
    intros [|[|i]] a Hi H; cbn in H; [| |lia]; subst a; split; discriminate.
Qed.

(** ** C45: the number of rounds *)

Section Rounds.
  Context {P : Type} (round : nat -> P -> verdict) (discover : nat -> P -> list N -> option P).

Lemma discover_searched l p q : discover_all discover l p = Some q <-> searched discover l p q.
Proof.
  revert p. induction l as [|[i t] l IH]; intros p; cbn.
  - split; [intros [= <-]; constructor|intros H; inversion H; reflexivity].
  - split.
    + destruct (discover i p t) as [p'|] eqn:E; [|discriminate]. intros H. econstructor; [exact E|apply IH; exact H].
    + intros H. inversion H; subst. rewrite H5. apply IH. assumption.
Qed.
Lemma rounds_spec n k i p : match rounds round discover n k i p with
  | (RanOut m, q) => m = n /\ timed_out round discover i p (i + k) q
  | (Proved j, q) => i <= j < i + k /\ timed_out round discover i p j q /\ round j q = VUnsat
  | (Disproved, q) => exists j, i <= j < i + k /\ timed_out round discover i p j q /\ round j q = VSat
  | (Panicked, q) => exists j, i <= j < i + k /\ timed_out round discover i p j q /\ round j q = VPanic
  | (Failed, q) => exists j, i <= j < i + k /\ timed_out round discover i p j q /\
      (round j q = VErr \/ exists l, round j q = VTimeout l /\ forall q', ~ searched discover l q q')
  | (NothingToDo, q) => False
  end.
Proof.
  revert i p. induction k as [|k IH]; intros i p; cbn [rounds].
  - split; [reflexivity|]. rewrite Nat.add_0_r. constructor.
  - destruct (round i p) as [| |l| |] eqn:E; try (exists i; repeat split; auto; try lia; constructor); try (repeat split; auto; try lia; constructor).
    destruct (discover_all discover l p) as [p'|] eqn:Ed.
    2: { exists i. split; [lia|]. split; [constructor|]. right. exists l. split; [exact E|]. intros q' H. apply discover_searched in H. congruence. }
    apply discover_searched in Ed. specialize (IH (S i) p'). destruct (rounds round discover n k (S i) p') as [[j|m| | | |] q]; auto.
    + destruct IH as (A & B & C). split; [lia|]. split; [econstructor; eauto|exact C].
    + destruct IH as (-> & B). split; [reflexivity|]. rewrite Nat.add_succ_r. econstructor; eauto.
    + destruct IH as (j & A & B & C). exists j. split; [lia|]. split; [econstructor; eauto|exact C].
    + destruct IH as (j & A & B & C). exists j. split; [lia|]. split; [econstructor; eauto|exact C].
    + destruct IH as (j & A & B & C). exists j. split; [lia|]. split; [econstructor; eauto|exact C].
Qed.
Lemma rounds_complete n k i p j q : i <= j < i + k -> timed_out round discover i p j q -> round j q = VUnsat ->
  rounds round discover n k i p = (Proved j, q).
Proof.
  intros Hj T. revert k Hj. induction T as [i p|i p l p' j q E Sd T IH]; intros k Hj Hu.
  - destruct k as [|k]; [lia|]. cbn [rounds]. rewrite Hu. reflexivity.
  - assert (S i <= j) by (clear - T; induction T; lia). destruct k as [|k]; [lia|]. cbn [rounds]. rewrite E. apply discover_searched in Sd. rewrite Sd.
    apply IH; [lia|exact Hu].
Qed.

(** With a limit and some solver: the reply "proved in [j] tries" says that rounds 1 to [j - 1] timed out and round [j] was unsat, and
    [j] is within the limit; running out of tries says that as many rounds as the limit timed out. In all cases the rounds are within
    the limit. *)
Theorem C45_rounds solvers num p r q : solvers <> 0 -> num <> 0 -> autorun round discover solvers num p = (r, q) ->
  match r with
  | Proved j => 1 <= j <= num /\ timed_out round discover 1 p j q /\ round j q = VUnsat
  | RanOut m => m = num /\ timed_out round discover 1 p (S num) q
  | Disproved => exists j, 1 <= j <= num /\ timed_out round discover 1 p j q /\ round j q = VSat
  | Panicked => exists j, 1 <= j <= num /\ timed_out round discover 1 p j q /\ round j q = VPanic
  | Failed => exists j, 1 <= j <= num /\ timed_out round discover 1 p j q /\
      (round j q = VErr \/ exists l, round j q = VTimeout l /\ forall q', ~ searched discover l q q')
  | NothingToDo => False
  end.
Proof.
  intros Hs Hn. unfold autorun, limit. destruct (Nat.eqb_spec solvers 0); [contradiction|]. destruct (Nat.eqb_spec num 0); [contradiction|].
  intros E. pose proof (rounds_spec num num 1 p) as S. rewrite E in S. destruct r; auto.
  - destruct S as (A & B). split; [lia|exact B].
  - destruct S as (j & A & B). exists j. split; [lia|exact B].
  - destruct S as (j & A & B). exists j. split; [lia|exact B].
  - destruct S as (j & A & B). exists j. split; [lia|exact B].
Qed.
(** A proof within the limit is found. *)
Theorem C45_complete solvers num p j q : solvers <> 0 -> num <> 0 -> 1 <= j <= num -> timed_out round discover 1 p j q -> round j q = VUnsat ->
  autorun round discover solvers num p = (Proved j, q).
Proof.
  intros Hs Hn Hj T E. unfold autorun, limit. destruct (Nat.eqb_spec solvers 0); [contradiction|]. destruct (Nat.eqb_spec num 0); [contradiction|].
  apply rounds_complete; [lia|exact T|exact E].
Qed.
(** No limit (0) is 2^32 - 1 rounds. *)
Theorem C45_no_limit solvers p j q : solvers <> 0 -> autorun round discover solvers 0 p = (Proved j, q) ->
  1 <= j /\ timed_out round discover 1 p j q /\ round j q = VUnsat.
Proof.
  intros Hs. unfold autorun. destruct (Nat.eqb_spec solvers 0); [contradiction|]. intros E. pose proof (rounds_spec (limit 0) (limit 0) 1 p) as S.
  rewrite E in S. destruct S as (A & B). split; [apply A|exact B].
Qed.
(** So every proof within that many rounds is found. *)
Theorem C45_no_limit_complete solvers p j q : solvers <> 0 -> 1 <= j -> (N.of_nat j < 2 ^ 32)%N -> timed_out round discover 1 p j q -> round j q = VUnsat ->
  autorun round discover solvers 0 p = (Proved j, q).
Proof.
  intros Hs Hj Hl T E. unfold autorun. destruct (Nat.eqb_spec solvers 0); [contradiction|]. apply rounds_complete; [|exact T|exact E].
  change (2 ^ 32)%N with 4294967296%N in Hl. unfold limit. cbn [Nat.eqb]. lia.
Qed.
End Rounds.
Print Assumptions C45_rounds.
Print Assumptions C45_no_limit_complete.
Print Assumptions C45_complete.
Print Assumptions C45_no_limit.
Definition third (i : nat) (p : nat) : verdict := if Nat.ltb p 2 then VTimeout [(0, [])] else VUnsat.
Example C45_example : autorun third (fun _ p _ => Some (S p)) 2 5 0 = (Proved 3, 2) /\ autorun third (fun _ p _ => Some (S p)) 2 2 0 = (RanOut 2, 2).
Proof. split; reflexivity. Qed.

(** ** C44: success *)

(** If every round is an execution of the solvers on the problem of that round, a problem is reported as proved only when a solver run on
    the problem of that round exited with 0, and said "unsat" if it is Z3. *)
Theorem C44_success {P} (n : nat) (kinds : nat -> kind) (plans : nat -> P -> nat -> plan) (kill_fails : nat -> P -> nat -> bool)
    (round : nat -> P -> verdict) (discover : nat -> P -> list N -> option P) num p j q :
  (forall i p, exists s, reachable n kinds (plans i p) (kill_fails i p) s /\ mainth s = MDone (round i p)) ->
  autorun round discover n num p = (Proved j, q) ->
  timed_out round discover 1 p j q /\
  exists i out, i < n /\ plans j q i = PExit (Some 0%Z) out /\ (kinds i = Z3 -> says "unsat" out).
Proof.
  intros H E. assert (T : timed_out round discover 1 p j q /\ round j q = VUnsat).
  { unfold autorun in E. destruct (Nat.eqb_spec n 0); [discriminate|]. pose proof (rounds_spec round discover (limit num) (limit num) 1 p) as S.
    rewrite E in S. tauto. }
  destruct T as (T & Eu). split; [exact T|]. destruct (H j q) as (s & R & Em). rewrite Eu in Em.
  pose proof (inv_reachable _ _ _ _ _ R) as I. pose proof (i_main _ _ _ _ _ I) as M. unfold mfacts in M. rewrite Em in M.
  destruct M as (v0 & e & V & _ & _ & _ & _ & Ev). destruct (panicked n s); [discriminate|]. destruct e; [discriminate|]. subst v0.
  destruct V as (i & Hi & Tr). unfold truth in Tr. destruct (plans j q i) as [| | |rc out] eqn:Ep; try discriminate. exists i, out. split; [exact Hi|].
  unfold result in Tr. destruct (kinds i).
  - apply (proj1 (C48_vampire_partial rc out)) in Tr. subst rc. split; [congruence|discriminate].
  - apply (proj1 (C48_z3 rc out)) in Tr. destruct Tr as (-> & S). split; [congruence|auto].
Qed.
Print Assumptions C44_success.
(** Rounds as the hypothesis wants them exist for all solvers. *)
Lemma some_verdict n kinds plans kf : exists s v, reachable n kinds plans kf s /\ mainth s = MDone v.
Proof.
  assert (G : forall s, Acc (fun b a => step n kinds plans kf a b) s -> reachable n kinds plans kf s ->
    exists s' v, reachable n kinds plans kf s' /\ mainth s' = MDone v).
  { intros s A. induction A as [s _ IH]. intros R. destruct (progress n kinds plans kf s (inv_reachable _ _ _ _ _ R)) as [(v & E)|(s' & St)]; [eauto|].
    apply (IH s' St). econstructor; eauto. }
  apply (G start); [apply C47_ends|]; constructor.
Qed.
Example C44_example : (forall i p, exists s, reachable 2 two race never s /\ mainth s = MDone ((fun (_ : nat) (_ : unit) => VUnsat) i p)) /\
  autorun (fun (_ : nat) (_ : unit) => VUnsat) (fun _ _ _ => None) 2 5 tt = (Proved 1, tt).
Proof. split; [|reflexivity]. intros _ _. destruct vampire_first as (s & R & E & _). eauto. Qed.
