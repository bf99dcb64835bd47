(** Proofs about the automatic runner. *)
From Coq Require Import List Arith Bool Lia NArith ZArith String Ascii Permutation.
From Verif Require Import Runner_Model Runner_Spec.
Import ListNotations.
Local Open Scope list_scope.

(** ** Lines *)

Lemma split_ne l c : split_inclusive (l ++ [c]) <> [].
Proof. destruct l as [|d l]; cbn; [destruct (N.eqb c 10); discriminate|]. destruct (N.eqb d 10); [discriminate|]. destruct (split_inclusive (l ++ [c])); discriminate. Qed.
Lemma split_app l r : split_inclusive (l ++ 10%N :: r) = split_inclusive (l ++ [10%N]) ++ split_inclusive r.
Proof.
  induction l as [|c l IH]; [reflexivity|]. cbn [List.app split_inclusive]. rewrite IH. destruct (N.eqb c 10); [reflexivity|].
  destruct (split_inclusive (l ++ [10%N])) as [|p ps] eqn:E; [exfalso; eapply split_ne; exact E|]. reflexivity.
Qed.
Lemma split_line q nl : ~ In 10%N q -> nl = [] \/ nl = [10%N] -> q ++ nl <> [] -> split_inclusive (q ++ nl) = [q ++ nl].
Proof.
  intros Hq Hnl. induction q as [|c q IH]; intros Hne.
  - destruct Hnl as [->| ->]; [destruct (Hne eq_refl)|reflexivity].
  - cbn [List.app split_inclusive]. destruct (N.eqb_spec c 10) as [->|Hc]; [destruct Hq; left; reflexivity|].
    destruct (q ++ nl) as [|d r] eqn:E; [reflexivity|]. rewrite IH; [reflexivity|intros H; apply Hq; right; exact H|discriminate].
Qed.
Lemma last_app {A} (l : list A) a : last_opt (l ++ [a]) = Some a.
Proof. induction l as [|x l IH]; [reflexivity|]. cbn [List.app last_opt]. destruct (l ++ [a]) eqn:E; [destruct l; discriminate|]. exact IH. Qed.
Lemma last_map {A B} (f : A -> B) l : last_opt (map f l) = option_map f (last_opt l).
Proof. induction l as [|x l IH]; [reflexivity|]. destruct l as [|y l]; [reflexivity|]. exact IH. Qed.
(** Every text is some whole lines and a last one. *)
Lemma decompose l : l = [] \/ exists before q nl, l = before ++ q ++ nl /\ (before = [] \/ exists m, before = m ++ [10%N]) /\
  (nl = [] \/ nl = [10%N]) /\ ~ In 10%N q /\ q ++ nl <> [].
Proof.
  induction l as [|c l IH]; [left; reflexivity|]. right. destruct IH as [->|(b & q & nl & -> & Hb & Hnl & Hq & Hne)].
  - destruct (N.eq_dec c 10) as [->|Hc].
    + exists [], [], [10%N]. repeat split; auto. discriminate.
    + exists [], [c], []. repeat split; auto; [intros [H|[]]; congruence|discriminate].
  - destruct Hb as [->|(m & ->)].
    + destruct (N.eq_dec c 10) as [->|Hc].
      * exists [10%N], q, nl. repeat split; auto. right. exists []. reflexivity.
      * exists [], (c :: q), nl. repeat split; auto; [intros [H|H]; [congruence|auto]|discriminate].
    + exists (c :: m ++ [10%N]), q, nl. repeat split; auto. right. exists (c :: m). reflexivity.
Qed.
Lemma last_line before q nl : (before = [] \/ exists m, before = m ++ [10%N]) -> (nl = [] \/ nl = [10%N]) -> ~ In 10%N q -> q ++ nl <> [] ->
  last_opt (lines (before ++ q ++ nl)) = Some (strip_end (q ++ nl)).
Proof.
  intros Hb Hnl Hq Hne. unfold lines. rewrite last_map.
  assert (E : last_opt (split_inclusive (before ++ q ++ nl)) = Some (q ++ nl)); [|rewrite E; reflexivity].
  destruct Hb as [->|(m & ->)].
  - cbn [List.app]. rewrite split_line by assumption. reflexivity.
  - rewrite <- app_assoc. cbn [List.app]. rewrite split_app, (split_line q nl) by assumption. apply last_app.
Qed.

(** ** Trimming *)

Lemma trim_start_spec l : exists a, Forall (fun c => white c = true) a /\ l = a ++ trim_start l.
Proof.
  induction l as [|c l (a & Ha & E)]; [exists []; split; [constructor|reflexivity]|]. cbn [trim_start]. destruct (white c) eqn:Ec.
  - exists (c :: a). split; [constructor; auto|]. cbn. f_equal. exact E.
  - exists []. split; [constructor|reflexivity].
Qed.
Lemma trim_start_white a l : Forall (fun c => white c = true) a -> trim_start (a ++ l) = trim_start l.
Proof. induction 1 as [|c a H _ IH]; [reflexivity|]. cbn. rewrite H. exact IH. Qed.
Lemma trim_spec l : exists a b, Forall (fun c => white c = true) a /\ Forall (fun c => white c = true) b /\ l = a ++ trim l ++ b.
Proof.
  destruct (trim_start_spec l) as (a & Ha & E). destruct (trim_start_spec (rev (trim_start l))) as (b & Hb & E2).
  exists a, (rev b). split; [exact Ha|]. split; [apply Forall_rev; exact Hb|]. rewrite E at 1. f_equal. unfold trim.
  rewrite <- (rev_involutive (trim_start l)) at 1. rewrite E2 at 1. apply rev_app_distr.
Qed.
Lemma trim_word a w b c d m : Forall (fun c => white c = true) a -> Forall (fun c => white c = true) b ->
  w = c :: m -> (exists m', w = m' ++ [d]) -> white c = false -> white d = false -> trim (a ++ w ++ b) = w.
Proof.
  intros Ha Hb Ew (m' & Ew') Hc Hd. unfold trim. rewrite trim_start_white by exact Ha. rewrite Ew at 1. cbn [List.app trim_start]. rewrite Hc.
  change (c :: m ++ b) with ((c :: m) ++ b). rewrite <- Ew, rev_app_distr, trim_start_white by (apply Forall_rev; exact Hb).
  rewrite Ew', rev_app_distr. cbn [List.app rev trim_start]. rewrite Hd. cbn [rev]. rewrite rev_involutive. reflexivity.
Qed.
Lemma trim_last l c : white c = true -> trim (l ++ [c]) = trim l.
Proof.
  intros H. unfold trim. destruct (trim_start_spec l) as (a & Ha & E). rewrite E at 1. rewrite <- app_assoc, trim_start_white by exact Ha.
  destruct (trim_start l) as [|x r] eqn:Es.
  - cbn. rewrite H. reflexivity.
  - assert (Hx : white x = false).
    { clear - Es. induction l as [|y l IH]; [discriminate|]. cbn in Es. destruct (white y) eqn:Ey; [auto|]. congruence. }
    cbn [List.app trim_start]. rewrite Hx. change (x :: r ++ [c]) with ((x :: r) ++ [c]). rewrite rev_app_distr. cbn [List.app rev trim_start].
    rewrite H. reflexivity.
Qed.
Lemma trim_strip q nl : nl = [] \/ nl = [10%N] -> ~ In 10%N q -> trim (strip_end (q ++ nl)) = trim q.
Proof.
  intros [->| ->] Hq; unfold strip_end.
  - rewrite app_nil_r. destruct (rev q) as [|c r] eqn:E; [reflexivity|]. destruct (N.eqb_spec c 10) as [->|]; [|reflexivity].
    destruct Hq. apply in_rev. rewrite E. left. reflexivity.
  - rewrite rev_app_distr. cbn [List.app rev]. cbn [N.eqb Pos.eqb]. destruct (rev q) as [|d r] eqn:E.
    + assert (q = []) as -> by (rewrite <- (rev_involutive q), E; reflexivity). reflexivity.
    + assert (q = rev r ++ [d]) as -> by (rewrite <- (rev_involutive q), E; reflexivity). destruct (N.eqb_spec d 13) as [->|]; [|reflexivity].
      symmetry. apply trim_last. reflexivity.
Qed.

Lemma says_trim w c m d : lit w = c :: m -> (exists m', lit w = m' ++ [d]) -> white c = false -> white d = false -> ~ In 10%N (lit w) ->
  forall out, says w out <-> exists l, last_opt (lines out) = Some l /\ trim l = lit w.
Proof.
  intros E E' Hc Hd Hn out. split.
  - intros (before & a & b & nl & -> & Hb & Hnl & Ha & Hb').
    assert (Hq : ~ In 10%N (a ++ lit w ++ b)).
    { rewrite !in_app_iff. intros [H|[H|H]]; [|exact (Hn H)|].
      - rewrite Forall_forall in Ha. destruct (Ha _ H) as (_ & K). exact (K eq_refl).
      - rewrite Forall_forall in Hb'. destruct (Hb' _ H) as (_ & K). exact (K eq_refl). }
    exists (strip_end ((a ++ lit w ++ b) ++ nl)). change (map N_of_ascii (list_ascii_of_string w)) with (lit w).
    replace (before ++ a ++ lit w ++ b ++ nl) with (before ++ (a ++ lit w ++ b) ++ nl) by (rewrite !app_assoc; reflexivity). split.
    + apply last_line; auto. rewrite E. destruct a; discriminate.
    + rewrite trim_strip by auto. eapply trim_word; eauto; eapply Forall_impl; eauto; intros x (H & _); exact H.
  - intros (l & El & Et). destruct (decompose out) as [->|(before & q & nl & -> & Hb & Hnl & Hq & Hne)]; [discriminate|].
    rewrite last_line in El by assumption. injection El as <-. rewrite trim_strip in Et by assumption.
    destruct (trim_spec q) as (a & b & Ha & Hb' & Eq). rewrite Et in Eq. exists before, a, b, nl. subst q. split; [rewrite <- !app_assoc; reflexivity|].
    split; [exact Hb|]. split; [exact Hnl|]. rewrite !in_app_iff in Hq. split; apply Forall_forall; intros x Hx.
    + rewrite Forall_forall in Ha. split; [auto|]. intros ->. tauto.
    + rewrite Forall_forall in Hb'. split; [auto|]. intros ->. tauto.
Qed.
Ltac word := intros; eapply says_trim; [reflexivity| |reflexivity|reflexivity|cbn; intuition discriminate].
Lemma says_unsat out : says "unsat" out <-> exists l, last_opt (lines out) = Some l /\ trim l = lit "unsat".
Proof. eapply says_trim with (d := 116%N); [reflexivity|exists (lit "unsa"); reflexivity|reflexivity|reflexivity|cbn; intuition discriminate]. Qed.
Lemma says_sat out : says "sat" out <-> exists l, last_opt (lines out) = Some l /\ trim l = lit "sat".
Proof. eapply says_trim with (d := 116%N); [reflexivity|exists (lit "sa"); reflexivity|reflexivity|reflexivity|cbn; intuition discriminate]. Qed.
Lemma says_timeout out : says "timeout" out <-> exists l, last_opt (lines out) = Some l /\ trim l = lit "timeout".
Proof. eapply says_trim with (d := 116%N); [reflexivity|exists (lit "timeou"); reflexivity|reflexivity|reflexivity|cbn; intuition discriminate]. Qed.
Lemma chars_eqb_true a b : chars_eqb a b = true <-> a = b.
Proof. unfold chars_eqb. destruct (list_eq_dec N.eq_dec a b); split; congruence. Qed.

(** ** The round *)

Section Round.
  Context (n : nat) (kinds : nat -> kind) (plans : nat -> plan) (kill_fails : nat -> bool).
  Notation step := (step n kinds plans kill_fails).
  Notation reachable := (reachable n kinds plans kill_fails).

  (** What solver [i] answers when it is not killed. *)
  Definition truth (i : nat) : answer := match plans i with PExit rc out => result (kinds i) rc out | _ => AErr end.
  Definition noisy (i : nat) : list (nat * chars) :=
    if discoverer (kinds i) then match truth i with ATimeout t => [(i, t)] | _ => [] end else [].
  Definition silent (i : nat) : Prop := match truth i with ATimeout _ | AOther => True | _ => False end.

  Definition vfacts (v : verdict) : Prop :=
    match v with
    | VSat => exists i, i < n /\ truth i = ASat
    | VUnsat => exists i, i < n /\ truth i = AUnsat
    | VErr => exists i, i < n /\ truth i = AErr /\ plans i <> PPanic
    | VTimeout l => (forall i, i < n -> plans i = PPanic \/ silent i) /\ Permutation l (flat_map noisy (seq 0 n))
    | VPanic => False
    end.
  Definition efacts (e : bool) : Prop := e = true -> exists i, i < n /\ kill_fails i = true.
  Definition nosender (s : state) : Prop := forall i, i < n -> holds_sender (threads s i) = false.
  Definition allended (s : state) : Prop := forall i, i < n -> ended (threads s i) = true.
  Definition mfacts (s : state) : Prop :=
    match mainth s with
    | MLoop l => (forall i, processes s i <> Killed) /\
        exists R, NoDup (R ++ map fst (finished s)) /\ (forall i, i < n -> threads s i = TDone -> In i (R ++ map fst (finished s))) /\
                  (forall i, In i (R ++ map fst (finished s)) -> threads s i = TDone) /\ (forall i, In i R -> i < n /\ silent i) /\
                  l = flat_map noisy R
    | MKill1 v e => vfacts v /\ efacts e
    | MKill2 v e => vfacts v /\ efacts e /\ queue1 s = [] /\ nosender s
    | MJoin v e => vfacts v /\ efacts e /\ queue1 s = [] /\ queue2 s = [] /\ nosender s
    | MDone v => exists v0 e, vfacts v0 /\ efacts e /\ queue1 s = [] /\ queue2 s = [] /\ allended s /\
                  v = (if panicked n s then VPanic else if e then VErr else v0)
    end.
  Definition looping (m : main) : bool := match m with MLoop _ => true | _ => false end.
  Definition failing (m : main) : bool :=
    match m with
    | MLoop _ => false
    | MKill1 _ e | MKill2 _ e | MJoin _ e => e
    | MDone v => match v with VErr | VPanic => true | _ => false end
    end.
  Definition tfacts (s : state) (i : nat) : Prop :=
    match threads s i with
    | TInit => processes s i = NoProcess
    | TSpawned | TWaiting => plans i <> PPanic /\ plans i <> PFail
    | TDone => plans i <> PPanic /\ (processes s i = Running -> plans i = PBroken)
    | TPanicked => plans i = PPanic /\ processes s i = NoProcess
    end.
  Record inv (s : state) : Prop := mkInv {
    i_main : mfacts s;
    i_thread : forall i, i < n -> tfacts s i;
    i_proc : forall i, i < n -> processes s i = Running ->
      threads s i = TSpawned \/ In i (if killable (kinds i) then queue1 s else queue2 s) \/ (kill_fails i = true /\ failing (mainth s) = true);
    i_msg : forall i a, In (i, a) (finished s) -> i < n /\ plans i <> PPanic /\ (a = truth i \/ (a = AOther /\ looping (mainth s) = false));
    i_q : forall i, In i (queue1 s) \/ In i (queue2 s) -> i < n;
    i_out : forall i, n <= i -> threads s i = TInit /\ processes s i = NoProcess }.

  Lemma set_same {A} (f : nat -> A) i a : set f i a i = a.
  Proof. unfold set. rewrite Nat.eqb_refl. reflexivity. Qed.
  Lemma set_other {A} (f : nat -> A) i a j : j <> i -> set f i a j = f j.
  Proof. intros H. unfold set. destruct (Nat.eqb_spec j i); [contradiction|reflexivity]. Qed.

  Lemma closed_false s i : inv s -> i < n -> threads s i = TSpawned -> closed (killable (kinds i)) (mainth s) = false.
  Proof.
    intros H Hi Ht. pose proof (i_main s H) as M. unfold mfacts in M. unfold closed. destruct (mainth s); try reflexivity.
    - destruct M as (_ & _ & _ & M). specialize (M i Hi). rewrite Ht in M. discriminate.
    - destruct M as (_ & _ & _ & _ & M). specialize (M i Hi). rewrite Ht in M. discriminate.
    - destruct M as (? & ? & _ & _ & _ & _ & M & _). specialize (M i Hi). rewrite Ht in M. discriminate.
  Qed.

  (** A thread changes its phase, with its process and its message. *)
  Lemma mfacts_thread s i t ps q1 q2 fin : inv s -> i < n -> ended (threads s i) = false -> t <> TDone ->
    (holds_sender t = true -> holds_sender (threads s i) = true) -> (forall j, processes s j <> Killed -> ps j <> Killed) ->
    (closed true (mainth s) = true -> q1 = queue1 s) -> (closed false (mainth s) = true -> q2 = queue2 s) -> fin = finished s ->
    mfacts (mkState (set (threads s) i t) ps fin q1 q2 (mainth s)).
  Proof.
    intros H Hi He Ht Hs Hk E1 E2 ->. pose proof (i_main s H) as M. unfold mfacts in *. cbn [mainth threads processes finished queue1 queue2].
    assert (NS : nosender s -> nosender (mkState (set (threads s) i t) ps (finished s) q1 q2 (mainth s))).
    { intros N j Hj. cbn. unfold set. destruct (Nat.eqb_spec j i) as [->|]; [|apply N; exact Hj].
      specialize (N i Hi). destruct (holds_sender t); [|reflexivity]. rewrite (Hs eq_refl) in N. discriminate. }
    destruct (mainth s) as [l|v e|v e|v e|v].
    - destruct M as (K & R & ND & D1 & D2 & D3 & D4). split; [intros j; apply Hk, K|]. exists R. split; [exact ND|]. split; [|split; [|split; [exact D3|exact D4]]].
      + intros j Hj. unfold set. destruct (Nat.eqb_spec j i) as [->|]; [intros E; contradiction|auto].
      + intros j Hj. rewrite set_other; [auto|]. intros ->. rewrite (D2 i Hj) in He. discriminate.
    - exact M.
    - destruct M as (A & B & C & D). rewrite (E1 eq_refl). auto.
    - destruct M as (A & B & C & D & E). rewrite (E1 eq_refl), (E2 eq_refl). auto 6.
    - destruct M as (? & ? & _ & _ & _ & _ & M & _). specialize (M i Hi). congruence.
  Qed.
  Lemma mfacts_done s i ps a : inv s -> i < n -> ended (threads s i) = false ->
    (forall j, processes s j <> Killed -> ps j <> Killed) ->
    mfacts (mkState (set (threads s) i TDone) ps (finished s ++ [(i, a)]) (queue1 s) (queue2 s) (mainth s)).
  Proof.
    intros H Hi He Hk. pose proof (i_main s H) as M. unfold mfacts in *. cbn [mainth threads processes finished queue1 queue2].
    assert (NS : nosender s -> nosender (mkState (set (threads s) i TDone) ps (finished s ++ [(i, a)]) (queue1 s) (queue2 s) (mainth s))).
    { intros N j Hj. cbn. unfold set. destruct (Nat.eqb_spec j i) as [->|]; [reflexivity|apply N; exact Hj]. }
    destruct (mainth s) as [l|v e|v e|v e|v].
    - destruct M as (K & R & ND & D1 & D2 & D3 & D4). split; [intros j; apply Hk, K|]. exists R. rewrite map_app, app_assoc.
      cbn [map fst]. split; [|split; [|split; [|split; [exact D3|exact D4]]]].
      + apply NoDup_Add with (a := i) (l := R ++ map fst (finished s)).
        * replace (R ++ map fst (finished s)) with ((R ++ map fst (finished s)) ++ []) at 1 by apply app_nil_r. apply Add_app.
        * split; [exact ND|]. intros J. rewrite (D2 i J) in He. discriminate.
      + intros j Hj. unfold set. rewrite in_app_iff. destruct (Nat.eqb_spec j i) as [->|]; [right; left; reflexivity|intros E; left; auto].
      + intros j Hj. apply in_app_iff in Hj. unfold set. destruct (Nat.eqb_spec j i) as [->|Hne]; [reflexivity|].
        destruct Hj as [Hj|[->|[]]]; [auto|congruence].
    - exact M.
    - destruct M as (A & B & C & D). auto.
    - destruct M as (A & B & C & D & E). auto 6.
    - destruct M as (? & ? & _ & _ & _ & _ & M & _). specialize (M i Hi). congruence.
  Qed.

  Lemma inv_start : inv start.
  Proof.
    constructor; cbn.
    - unfold mfacts. cbn. split; [intros; discriminate|]. exists []. cbn. repeat split; try constructor; try discriminate; tauto.
    - intros i _. reflexivity.
    - intros; discriminate.
    - tauto.
    - tauto.
    - intros; split; reflexivity.
  Qed.

  Lemma receive_loop l i a : looping (receive kinds l i a) = true ->
    exists t, receive kinds l i a = MLoop (l ++ t) /\ (a = truth i -> silent i /\ t = noisy i).
  Proof.
    unfold receive, silent, noisy. destruct a as [| |t| |]; try discriminate; intros _.
    - destruct (discoverer (kinds i)); [exists [(i, t)]|exists []]; (split; [rewrite ?app_nil_r; reflexivity|]); intros <-; auto.
    - exists []. split; [rewrite app_nil_r; reflexivity|]. intros <-. destruct (discoverer (kinds i)); auto.
  Qed.

  Lemma all_silent s R : inv s -> finished s = [] -> allended s -> NoDup (R ++ map fst (finished s)) ->
    (forall i, i < n -> threads s i = TDone -> In i (R ++ map fst (finished s))) ->
    (forall i, In i (R ++ map fst (finished s)) -> threads s i = TDone) -> (forall i, In i R -> i < n /\ silent i) ->
    vfacts (VTimeout (flat_map noisy R)).
  Proof.
    intros H Ef He ND D1 D2 D3. rewrite Ef in *. cbn [map] in *. rewrite app_nil_r in *. cbn. split.
    - intros i Hi. specialize (He i Hi). pose proof (i_thread s H i Hi) as T. unfold tfacts in T. destruct (threads s i) eqn:Et; try discriminate.
      + right. apply D3. apply D1; assumption.
      + left. tauto.
    - assert (P : Permutation R (filter (fun i => match threads s i with TDone => true | _ => false end) (seq 0 n))).
      { apply NoDup_Permutation; [exact ND|apply NoDup_filter, seq_NoDup|]. intros i. rewrite filter_In, in_seq. split.
        - intros Hi. rewrite (D2 i Hi). split; [|reflexivity]. destruct (D3 i Hi). lia.
        - intros (Hi & E). destruct (threads s i) eqn:Et; try discriminate. apply D1; [lia|exact Et]. }
      rewrite (Permutation_flat_map noisy P). clear - H He.
      assert (A : forall i, In i (seq 0 n) -> threads s i <> TDone -> noisy i = []).
      { intros i Hi Hne. apply in_seq in Hi. specialize (He i ltac:(lia)). pose proof (i_thread s H i ltac:(lia)) as T. unfold tfacts in T.
        destruct (threads s i) eqn:Et; try discriminate; try congruence. destruct T as (T & _). unfold noisy, truth. rewrite T.
        destruct (discoverer (kinds i)); reflexivity. }
      induction (seq 0 n) as [|i l IH]; [constructor|]. cbn [filter flat_map].
      assert (I : Permutation (flat_map noisy (filter (fun i => match threads s i with TDone => true | _ => false end) l)) (flat_map noisy l)).
      { apply IH. intros j Hj. apply A. right. exact Hj. }
      destruct (threads s i) eqn:Et; try (rewrite (A i (or_introl eq_refl) ltac:(congruence)); exact I).
      cbn [flat_map]. apply Permutation_app_head. exact I.
  Qed.

  Lemma killed_running p : killed p = Running -> False.
  Proof. destruct p; discriminate. Qed.

  Lemma inv_step s s' : inv s -> step s s' -> inv s'.
  Proof.
    intros H St. pose proof H as [HM HT HP HF HQ HO]. destruct St.
    - (* panic *)
      assert (Hp : processes s i = NoProcess) by (pose proof (HT i H0) as T; unfold tfacts in T; rewrite H1 in T; exact T).
      constructor; cbn [threads processes finished queue1 queue2 mainth].
      + apply mfacts_thread; auto; try (rewrite H1; auto); discriminate.
      + intros j Hj. unfold tfacts. cbn. unfold set. destruct (Nat.eqb_spec j i) as [->|]; [auto|apply HT; exact Hj].
      + intros j Hj Hr. unfold set. destruct (Nat.eqb_spec j i) as [->|]; [congruence|]. apply HP; assumption.
      + exact HF.
      + exact HQ.
      + intros j Hj. rewrite set_other by lia. apply HO, Hj.
    - (* fail *)
      assert (Hp : processes s i = NoProcess) by (pose proof (HT i H0) as T; unfold tfacts in T; rewrite H1 in T; exact T).
      constructor; cbn [threads processes finished queue1 queue2 mainth].
      + apply mfacts_done; auto. rewrite H1. reflexivity.
      + intros j Hj. unfold tfacts. cbn. unfold set. destruct (Nat.eqb_spec j i) as [->|]; [split; [congruence|intros E; congruence]|apply HT; exact Hj].
      + intros j Hj Hr. unfold set. destruct (Nat.eqb_spec j i) as [->|]; [congruence|]. apply HP; assumption.
      + intros j a Hin. apply in_app_iff in Hin. destruct Hin as [Hin|[[= <- <-]|[]]]; [apply HF; exact Hin|].
        split; [exact H0|]. split; [congruence|]. left. unfold truth. rewrite H2. reflexivity.
      + exact HQ.
      + intros j Hj. rewrite set_other by lia. apply HO, Hj.
    - (* spawn *)
      constructor; cbn [threads processes finished queue1 queue2 mainth].
      + apply mfacts_thread; auto; try (rewrite H1; reflexivity); try discriminate.
        intros j Hj. unfold set. destruct (Nat.eqb_spec j i); [discriminate|exact Hj].
      + intros j Hj. unfold tfacts. cbn. unfold set. destruct (Nat.eqb_spec j i) as [->|]; [auto|apply HT; exact Hj].
      + intros j Hj Hr. unfold set in *. destruct (Nat.eqb_spec j i) as [->|]; [auto|]. apply HP; assumption.
      + exact HF.
      + exact HQ.
      + intros j Hj. rewrite !set_other by lia. apply HO, Hj.
    - (* send *)
      constructor; cbn [threads processes finished queue1 queue2 mainth].
      + apply mfacts_thread; auto; try (rewrite H1; reflexivity); try discriminate.
        * destruct (killable (kinds i)); [|reflexivity]. intros E. congruence.
        * destruct (killable (kinds i)); [reflexivity|]. intros E. congruence.
      + intros j Hj. unfold tfacts. cbn. unfold set. destruct (Nat.eqb_spec j i) as [->|]; [|apply HT; exact Hj].
        pose proof (HT i H0) as T. unfold tfacts in T. rewrite H1 in T. exact T.
      + intros j Hj Hr. unfold set. destruct (Nat.eqb_spec j i) as [->|Hne].
        * right. left. destruct (killable (kinds i)); apply in_app_iff; right; left; reflexivity.
        * destruct (HP j Hj Hr) as [K|[K|K]]; auto. right. left. destruct (killable (kinds j)), (killable (kinds i)); try apply in_app_iff; auto.
      + exact HF.
      + intros j Hj. destruct (killable (kinds i)); rewrite ?in_app_iff in Hj; cbn in Hj; destruct Hj as [Hj|Hj]; try (destruct Hj as [Hj|[<-|[]]]); auto.
      + intros j Hj. rewrite !set_other by lia. apply HO, Hj.
    - (* send_fail *)
      rewrite (closed_false s i H H0 H1) in H2. discriminate.
    - (* exit *)
      constructor; cbn [threads processes finished queue1 queue2 mainth].
      + unfold mfacts in *. cbn. destruct (mainth s); try exact HM. destruct HM as (K & HM). split; [|exact HM].
        intros j. unfold set. destruct (Nat.eqb_spec j i); [discriminate|apply K].
      + intros j Hj. pose proof (HT j Hj) as T. unfold tfacts in *. cbn. unfold set. destruct (Nat.eqb_spec j i) as [->|]; [|exact T].
        destruct (threads s i); try exact T.
        * rewrite H1 in T. discriminate.
        * split; [apply T|discriminate].
        * rewrite H1 in T. destruct T. discriminate.
      + intros j Hj Hr. unfold set in Hr. destruct (Nat.eqb_spec j i) as [->|]; [discriminate|]. apply HP; assumption.
      + exact HF.
      + exact HQ.
      + intros j Hj. rewrite !set_other by lia. apply HO, Hj.
    - (* answer *)
      pose proof (HT i H0) as T. unfold tfacts in T. rewrite H1 in T.
      constructor; cbn [threads processes finished queue1 queue2 mainth].
      + apply mfacts_done; auto. rewrite H1. reflexivity.
      + intros j Hj. unfold tfacts. cbn. unfold set. destruct (Nat.eqb_spec j i) as [->|]; [|apply HT; exact Hj]. split; [apply T|contradiction].
      + intros j Hj Hr. unfold set. destruct (Nat.eqb_spec j i) as [->|]; [contradiction|]. apply HP; assumption.
      + intros j a Hin. apply in_app_iff in Hin. destruct Hin as [Hin|[E|[]]]; [apply HF; exact Hin|].
        injection E as -> <-. split; [exact H0|]. split; [apply T|]. unfold found, truth.
        destruct (processes s j) eqn:Ep; try (left; reflexivity). right. split; [destruct (kinds j); reflexivity|].
        unfold mfacts in HM. destruct (mainth s); try reflexivity. destruct HM as (K & _). destruct (K j Ep).
      + exact HQ.
      + intros j Hj. rewrite !set_other by lia. apply HO, Hj.
    - (* broken *)
      constructor; cbn [threads processes finished queue1 queue2 mainth].
      + apply mfacts_done; auto. rewrite H1. reflexivity.
      + intros j Hj. unfold tfacts. cbn. unfold set. destruct (Nat.eqb_spec j i) as [->|]; [|apply HT; exact Hj]. split; [congruence|auto].
      + intros j Hj Hr. unfold set. destruct (HP j Hj Hr) as [K|[K|K]]; auto. destruct (Nat.eqb_spec j i) as [->|]; [congruence|auto].
      + intros j a Hin. apply in_app_iff in Hin. destruct Hin as [Hin|[[= <- <-]|[]]]; [apply HF; exact Hin|].
        split; [exact H0|]. split; [congruence|]. left. unfold truth. rewrite H2. reflexivity.
      + exact HQ.
      + intros j Hj. rewrite !set_other by lia. apply HO, Hj.
    - (* receive *)
      assert (Hm : i < n /\ plans i <> PPanic /\ (a = truth i \/ a = AOther /\ looping (mainth s) = false)) by (apply HF; rewrite H1; left; reflexivity).
      destruct Hm as (Hi & Hnp & Ha). rewrite H0 in Ha. destruct Ha as [Ha|(_ & [=])].
      constructor; cbn [threads processes finished queue1 queue2 mainth]; auto.
      + unfold mfacts in HM. rewrite H0 in HM. destruct HM as (K & R & ND & D1 & D2 & D3 & D4).
        destruct (looping (receive kinds l i a)) eqn:El.
        * destruct (receive_loop _ _ _ El) as (t & Er & Ht). destruct (Ht Ha) as (Hs & ->). unfold mfacts. cbn. rewrite Er. split; [exact K|].
          exists (R ++ [i]). rewrite H1 in ND, D1, D2. cbn [map fst] in ND, D1, D2. rewrite <- app_assoc. cbn [List.app].
          split; [exact ND|]. split; [exact D1|]. split; [exact D2|]. split.
          -- intros j Hj. apply in_app_iff in Hj. destruct Hj as [Hj|[<-|[]]]; auto.
          -- rewrite flat_map_app, D4. cbn. rewrite app_nil_r. reflexivity.
        * unfold mfacts. cbn. unfold receive in *. destruct a; try discriminate; cbn.
          -- split; [exists i; auto|intros [=]].
          -- split; [exists i; auto|intros [=]].
          -- destruct (discoverer (kinds i)); discriminate.
          -- split; [exists i; auto|intros [=]].
      + intros j Hj Hr. destruct (HP j Hj Hr) as [C|[C|(_ & C)]]; auto. rewrite H0 in C. discriminate.
      + intros j b Hin. destruct (HF j b) as (A & B & C); [rewrite H1; right; exact Hin|]. split; [exact A|]. split; [exact B|].
        rewrite H0 in C. destruct C as [C|(_ & [=])]. left. exact C.
    - (* no more *)
      constructor; cbn [threads processes finished queue1 queue2 mainth]; auto.
      + unfold mfacts in HM. rewrite H0 in HM. destruct HM as (K & R & ND & D1 & D2 & D3 & D4). unfold mfacts. cbn [mainth].
        split; [|intros [=]]. rewrite D4. eapply all_silent; eauto.
      + intros j Hj Hr. destruct (HP j Hj Hr) as [C|[C|(_ & C)]]; auto. rewrite H0 in C. discriminate.
      + intros j b Hin. rewrite H1 in Hin. destruct Hin.
    - (* kill1 *)
      assert (Hi : i < n) by (apply HQ; left; rewrite H1; left; reflexivity).
      unfold mfacts in HM. rewrite H0 in HM. destruct HM as (M1 & M2).
      constructor; cbn [threads processes finished queue1 queue2 mainth]; auto.
      + unfold mfacts. cbn. split; [exact M1|]. intros E. apply orb_true_iff in E. destruct E as [E|E]; [auto|exists i; auto].
      + intros j Hj. pose proof (HT j Hj) as T. unfold tfacts in *. cbn. destruct (kill_fails i); [exact T|]. unfold set.
        destruct (Nat.eqb_spec j i) as [->|]; [|exact T]. destruct (threads s i); try exact T.
        * rewrite T. reflexivity.
        * split; [apply T|]. intros E. destruct (killed_running _ E).
        * destruct T as (T1 & ->). auto.
      + intros j Hj Hr. destruct (kill_fails i) eqn:Ek.
        * rewrite orb_true_r. destruct (HP j Hj Hr) as [C|[C|(C & _)]]; auto. destruct (killable (kinds j)); auto.
          rewrite H1 in C. destruct C as [<-|C]; auto.
        * rewrite orb_false_r. unfold set in Hr. destruct (Nat.eqb_spec j i) as [->|Hne]; [destruct (killed_running _ Hr)|].
          destruct (HP j Hj Hr) as [C|[C|C]]; auto.
          -- destruct (killable (kinds j)); auto. rewrite H1 in C. destruct C as [<-|C]; [congruence|auto].
          -- rewrite H0 in C. auto.
      + intros j b Hin. destruct (HF j b Hin) as (A & B & C). split; [exact A|]. split; [exact B|]. rewrite H0 in C. exact C.
      + intros j Hj. apply HQ. rewrite H1. cbn. tauto.
      + intros j Hj. destruct (HO j Hj) as (O1 & O2). split; [exact O1|]. destruct (kill_fails i); [exact O2|]. rewrite set_other by lia. exact O2.
    - (* kill2 *)
      assert (Hi : i < n) by (apply HQ; right; rewrite H1; left; reflexivity).
      unfold mfacts in HM. rewrite H0 in HM. destruct HM as (M1 & M2 & M3 & M4).
      constructor; cbn [threads processes finished queue1 queue2 mainth]; auto.
      + unfold mfacts. cbn. split; [exact M1|]. split; [|auto]. intros E. apply orb_true_iff in E. destruct E as [E|E]; [auto|exists i; auto].
      + intros j Hj. pose proof (HT j Hj) as T. unfold tfacts in *. cbn. destruct (kill_fails i); [exact T|]. unfold set.
        destruct (Nat.eqb_spec j i) as [->|]; [|exact T]. destruct (threads s i); try exact T.
        * rewrite T. reflexivity.
        * split; [apply T|]. intros E. destruct (killed_running _ E).
        * destruct T as (T1 & ->). auto.
      + intros j Hj Hr. destruct (kill_fails i) eqn:Ek.
        * rewrite orb_true_r. destruct (HP j Hj Hr) as [C|[C|(C & _)]]; auto. destruct (killable (kinds j)); auto.
          rewrite H1 in C. destruct C as [<-|C]; auto.
        * rewrite orb_false_r. unfold set in Hr. destruct (Nat.eqb_spec j i) as [->|Hne]; [destruct (killed_running _ Hr)|].
          destruct (HP j Hj Hr) as [C|[C|C]]; auto.
          -- destruct (killable (kinds j)); auto. rewrite H1 in C. destruct C as [<-|C]; [congruence|auto].
          -- rewrite H0 in C. auto.
      + intros j b Hin. destruct (HF j b Hin) as (A & B & C). split; [exact A|]. split; [exact B|]. rewrite H0 in C. exact C.
      + intros j Hj. apply HQ. rewrite H1. cbn. tauto.
      + intros j Hj. destruct (HO j Hj) as (O1 & O2). split; [exact O1|]. destruct (kill_fails i); [exact O2|]. rewrite set_other by lia. exact O2.
    - (* next *)
      unfold mfacts in HM. rewrite H0 in HM. destruct HM as (M1 & M2).
      constructor; cbn [threads processes finished queue1 queue2 mainth]; auto.
      + unfold mfacts. cbn. auto.
      + intros j Hj Hr. pose proof (HP j Hj Hr) as C. rewrite H0 in C. exact C.
      + intros j b Hin. destruct (HF j b Hin) as (A & B & C). split; [exact A|]. split; [exact B|]. rewrite H0 in C. exact C.
    - (* join *)
      unfold mfacts in HM. rewrite H0 in HM. destruct HM as (M1 & M2 & M3 & M4).
      constructor; cbn [threads processes finished queue1 queue2 mainth]; auto.
      + unfold mfacts. cbn. auto 6.
      + intros j Hj Hr. pose proof (HP j Hj Hr) as C. rewrite H0 in C. exact C.
      + intros j b Hin. destruct (HF j b Hin) as (A & B & C). split; [exact A|]. split; [exact B|]. rewrite H0 in C. exact C.
    - (* done *)
      unfold mfacts in HM. rewrite H0 in HM. destruct HM as (M1 & M2 & M3 & M4 & M5).
      constructor; cbn [threads processes finished queue1 queue2 mainth]; auto.
      + unfold mfacts. cbn. exists v, e. repeat split; auto.
      + intros j Hj Hr. destruct (HP j Hj Hr) as [C|[C|(C1 & C2)]]; auto. rewrite H0 in C2. cbn in C2. subst e. right. right. split; [exact C1|].
        cbn. destruct (panicked n s); reflexivity.
      + intros j b Hin. destruct (HF j b Hin) as (A & B & C). split; [exact A|]. split; [exact B|]. rewrite H0 in C. exact C.
  Qed.
  Lemma inv_reachable s : reachable s -> inv s.
  Proof. induction 1; [apply inv_start|eapply inv_step; eauto]. Qed.

  Lemma panicked_plans s : inv s -> allended s -> panicked n s = true <-> exists i, i < n /\ plans i = PPanic.
  Proof.
    intros H He. unfold panicked. rewrite existsb_exists. split.
    - intros (i & Hi & E). apply in_seq in Hi. exists i. split; [lia|]. pose proof (i_thread s H i ltac:(lia)) as T. unfold tfacts in T.
      destruct (threads s i); try discriminate. apply T.
    - intros (i & Hi & Hp). exists i. split; [apply in_seq; lia|]. pose proof (i_thread s H i Hi) as T. unfold tfacts in T. specialize (He i Hi).
      destruct (threads s i); try discriminate; [destruct T; congruence|reflexivity].
  Qed.

  (** Every step makes this smaller. *)
  Definition tweight (t : thread) : nat := match t with TInit => 6 | TSpawned => 4 | TWaiting => 2 | _ => 0 end.
  Definition pweight (p : process) : nat := match p with Running => 1 | _ => 0 end.
  Definition mweight (m : main) : nat := match m with MLoop _ => 4 | MKill1 _ _ => 3 | MKill2 _ _ => 2 | MJoin _ _ => 1 | MDone _ => 0 end.
  Definition total (f : nat -> nat) (l : list nat) : nat := list_sum (map f l).
  Definition weight (s : state) : nat :=
    total (fun i => tweight (threads s i)) (seq 0 n) + total (fun i => pweight (processes s i)) (seq 0 n) +
    List.length (finished s) + List.length (queue1 s) + List.length (queue2 s) + mweight (mainth s).
  Lemma total_same (f g : nat -> nat) l i : ~ In i l -> (forall j, j <> i -> g j = f j) -> total g l = total f l.
  Proof. unfold total. intros H E. f_equal. apply map_ext_in. intros j Hj. apply E. intros ->. auto. Qed.
  Lemma total_set (f g : nat -> nat) i : i < n -> (forall j, j <> i -> g j = f j) -> total g (seq 0 n) + f i = total f (seq 0 n) + g i.
  Proof.
    intros Hi E. assert (Hin : In i (seq 0 n)) by (apply in_seq; lia). pose proof (seq_NoDup n 0) as ND. induction (seq 0 n) as [|j l IH]; [destruct Hin|].
    unfold total in *. cbn [map]. change (list_sum (g j :: map g l)) with (g j + list_sum (map g l)). change (list_sum (f j :: map f l)) with (f j + list_sum (map f l)).
    apply NoDup_cons_iff in ND. destruct ND as (Hni & ND). destruct Hin as [->|Hin].
    - pose proof (total_same f g l i Hni E) as T. unfold total in T. rewrite T. lia.
    - rewrite (E j) by (intros ->; auto). specialize (IH Hin ND). lia.
  Qed.
  Lemma total_le (f g : nat -> nat) l : (forall j, g j <= f j) -> total g l <= total f l.
  Proof. intros E. unfold total. induction l as [|j l IH]; [constructor|]. change (list_sum (map g (j :: l))) with (g j + list_sum (map g l)). change (list_sum (map f (j :: l))) with (f j + list_sum (map f l)). specialize (E j). lia. Qed.
  Lemma kill_weight s i : total (fun j => pweight ((if kill_fails i then processes s else set (processes s) i (killed (processes s i))) j)) (seq 0 n) <=
    total (fun j => pweight (processes s j)) (seq 0 n).
  Proof.
    apply total_le. intros j. destruct (kill_fails i); [constructor|]. unfold set. destruct (Nat.eqb_spec j i) as [->|]; [|constructor].
    destruct (processes s i); cbn; lia.
  Qed.
  Lemma step_weight s s' : inv s -> step s s' -> weight s' < weight s.
  Proof.
    intros H St.
    assert (TW : forall i t, i < n -> total (fun j => tweight (set (threads s) i t j)) (seq 0 n) + tweight (threads s i) =
                             total (fun j => tweight (threads s j)) (seq 0 n) + tweight t).
    { intros i t Hi. pose proof (total_set (fun j => tweight (threads s j)) (fun j => tweight (set (threads s) i t j)) i Hi) as E.
      cbn beta in E. rewrite set_same in E. apply E. intros j Hj. rewrite set_other by exact Hj. reflexivity. }
    assert (PW : forall i p, i < n -> total (fun j => pweight (set (processes s) i p j)) (seq 0 n) + pweight (processes s i) =
                             total (fun j => pweight (processes s j)) (seq 0 n) + pweight p).
    { intros i t Hi. pose proof (total_set (fun j => pweight (processes s j)) (fun j => pweight (set (processes s) i t j)) i Hi) as E.
      cbn beta in E. rewrite set_same in E. apply E. intros j Hj. rewrite set_other by exact Hj. reflexivity. }
    destruct St; unfold weight; cbn [threads processes finished queue1 queue2 mainth]; rewrite ?app_length; cbn [List.length].
    - specialize (TW i TPanicked H0). rewrite H1 in TW. cbn in TW. lia.
    - specialize (TW i TDone H0). rewrite H1 in TW. cbn in TW. lia.
    - specialize (TW i TSpawned H0). rewrite H1 in TW. specialize (PW i Running H0).
      pose proof (i_thread s H i H0) as T. unfold tfacts in T. rewrite H1 in T. rewrite T in PW. cbn in TW, PW. lia.
    - specialize (TW i TWaiting H0). rewrite H1 in TW. cbn in TW. destruct (killable (kinds i)); rewrite ?app_length; cbn [List.length]; lia.
    - rewrite (closed_false s i H H0 H1) in H2. discriminate.
    - specialize (PW i Exited H0). rewrite H1 in PW. cbn in PW. lia.
    - specialize (TW i TDone H0). rewrite H1 in TW. cbn in TW. lia.
    - specialize (TW i TDone H0). rewrite H1 in TW. cbn in TW. lia.
    - rewrite H1, H0. cbn [List.length]. assert (mweight (receive kinds l i a) <= mweight (MLoop l)); [|lia].
      unfold receive. destruct a; cbn; try lia. destruct (discoverer (kinds i)); cbn; lia.
    - rewrite H0. cbn [mweight]. lia.
    - rewrite H0, H1. cbn [mweight List.length]. pose proof (kill_weight s i). lia.
    - rewrite H0, H1. cbn [mweight List.length]. pose proof (kill_weight s i). lia.
    - rewrite H0. cbn [mweight]. lia.
    - rewrite H0. cbn [mweight]. lia.
    - rewrite H0. cbn [mweight]. lia.
  Qed.

  Lemma all_or s : allended s \/ exists i, i < n /\ ended (threads s i) = false.
  Proof.
    unfold allended. induction n as [|k IH]; [left; intros; lia|]. destruct IH as [IH|(i & Hi & E)]; [|right; exists i; auto with arith].
    destruct (ended (threads s k)) eqn:E; [|right; exists k; auto]. left. intros i Hi. destruct (Nat.eq_dec i k) as [->|]; [exact E|apply IH; lia].
  Qed.
  Lemma progress s : inv s -> (exists v, mainth s = MDone v) \/ exists s', step s s'.
  Proof.
    intros H. destruct (all_or s) as [He|(i & Hi & E)].
    - assert (NS : nosender s) by (intros i Hi; specialize (He i Hi); destruct (threads s i); cbn in *; congruence).
      destruct (mainth s) as [l|v e|v e|v e|v] eqn:Em; [| | | |left; eauto]; right.
      + destruct (finished s) as [|(i, a) q] eqn:Ef; eexists; [eapply s_no_more; eauto|eapply s_receive; eauto].
      + destruct (queue1 s) as [|i q] eqn:Eq; eexists; [eapply s_next; eauto|eapply s_kill1; eauto].
      + destruct (queue2 s) as [|i q] eqn:Eq; eexists; [eapply s_join; eauto|eapply s_kill2; eauto].
      + eexists. eapply s_done; eauto.
    - right. destruct (threads s i) eqn:Et; try discriminate.
      + destruct (plans i) eqn:Ep; eexists; [eapply s_panic; eauto|eapply s_fail; eauto|eapply s_spawn; eauto; congruence|eapply s_spawn; eauto; congruence].
      + destruct (closed (killable (kinds i)) (mainth s)) eqn:Ec; eexists; [eapply s_send_fail; eauto|eapply s_send; eauto].
      + destruct (processes s i) eqn:Ep; eexists; try (eapply s_exit; eauto; fail); eapply s_answer; eauto; congruence.
  Qed.
End Round.
