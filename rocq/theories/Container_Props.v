From Coq Require Import List Arith Bool Ascii String Lia.
From Verif Require Import Squirrel_Model Squirrel_Proofs Smt_Model Container_Model Container_Spec Container_Proofs.
Import ListNotations.
Local Open Scope list_scope.

(** ** C53: definitions are initialised at most once *)

(** In every history starting from an empty container and using references after their allocation: a new reference is a
    new one, an initialisation succeeds exactly when nothing was given before, a read returns the first value given, and
    so does the final container. *)
Theorem C53_history : forall V A (p : prog V A) es a st, run V p (new_container V) = (es, (a, st)) -> proper V [] es ->
  (forall r, value V st r = given V es r) /\
  (forall es1 e es2, es = es1 ++ e :: es2 ->
     match e with
     | EAlloc r _ => ~ allocated V es1 r
     | EInit r v ok => ok = true <-> given V es1 r = None
     | ERead r v => v = given V es1 r
     | EFresh _ => True
     end).
Proof. intros V A p es a st R P. exact (run_history V p es a st R P). Qed.
Print Assumptions C53_history.

(** From any state, nothing a program does changes a value. *)
Theorem C53_values_stay : forall V A (p : prog V A) st es a st' r v, run V p st = (es, (a, st')) ->
  value V st r = Some v -> value V st' r = Some v.
Proof. intros V A p st es a st' r v. apply run_keeps. Qed.
Print Assumptions C53_values_stay.

(** Definitions given by a function of their own reference: success gives the new reference the content returned, and
    changes nothing else; the error is raised exactly when the function initialised the reference itself; a failure of the
    function is reported and leaves the reference without content. *)
Theorem C53_cyclic : forall V b f st es res st', run V (cyclic1 V b f) st = (es, (res, st')) ->
  exists es1 c stf,
    run V (f (List.length (cells V st))) (mkStore (cells V st ++ [(b, None)]) (counter V st)) = (es1, (c, stf)) /\
    match res with
    | CDone r => r = List.length (cells V st) /\ exists v, c = Some v /\ value V stf r = None /\ value V st' r = Some v /\
                 (forall r', r' <> r -> value V st' r' = value V stf r')
    | CFailed => c = None /\ st' = stf
    | CAlready => exists v w, c = Some v /\ value V stf (List.length (cells V st)) = Some w /\ st' = stf
    | CPanic => False
    end.
Proof. intros V b f st es res st'. apply cyclic1_result. Qed.
Print Assumptions C53_cyclic.

Theorem C53_cyclic_pair : forall V b1 b2 f st es res st', run V (cyclic2 V b1 b2 f) st = (es, (res, st')) ->
  exists es1 c stf,
    run V (f (List.length (cells V st)) (S (List.length (cells V st))))
          (mkStore (cells V st ++ [(b1, None); (b2, None)]) (counter V st)) = (es1, (c, stf)) /\
    match res with
    | CDone (r1, r2) => r1 = List.length (cells V st) /\ r2 = S (List.length (cells V st)) /\ exists v1 v2, c = Some (v1, v2) /\
                 value V stf r1 = None /\ value V stf r2 = None /\ value V st' r1 = Some v1 /\ value V st' r2 = Some v2 /\
                 (forall r', r' <> r1 -> r' <> r2 -> value V st' r' = value V stf r')
    | CFailed => c = None /\ st' = stf
    | CAlready => exists x, c = Some x /\
                  ~ (value V stf (List.length (cells V st)) = None /\ value V stf (S (List.length (cells V st))) = None)
    | CPanic => False
    end.
Proof. intros V b1 b2 f st es res st'. apply cyclic2_result. Qed.
Print Assumptions C53_cyclic_pair.

(** Several at once: a panic exactly when the number of contents is not the number of references, unless one of the
    references had already been initialised. *)
Theorem C53_cyclic_many : forall V b n f st es res st', run V (cyclics V b n f) st = (es, (res, st')) ->
  let rs := seq (List.length (cells V st)) n in
  exists es1 c stf, run V (f rs) (mkStore (cells V st ++ repeat (b, None) n) (counter V st)) = (es1, (c, stf)) /\
    match res with
    | CDone d => d = rs /\ exists vs, c = Some vs /\ List.length vs = n /\
                 (forall i r v, nth_error rs i = Some r -> nth_error vs i = Some v -> value V stf r = None /\ value V st' r = Some v) /\
                 (forall r', ~ In r' rs -> value V st' r' = value V stf r')
    | CFailed => c = None /\ st' = stf
    | CAlready => exists vs r, c = Some vs /\ In r rs /\ value V stf r <> None
    | CPanic => exists vs, c = Some vs /\ List.length vs <> n
    end.
Proof. intros V b n f st es res st'. apply cyclics_result. Qed.
Print Assumptions C53_cyclic_many.

(** A history where two definitions refer to each other, a read comes before the initialisation, and a second
    initialisation is refused. *)
Example C53_example :
  let p := Alloc BFunction None (fun r1 => Alloc BSort (Some 7) (fun r2 => Read r1 (fun x => Init r1 (10 + r2) (fun ok1 =>
           Init r1 99 (fun ok2 => Init r2 98 (fun ok3 => Read r1 (fun y => Read r2 (fun z => Ret (x, ok1, ok2, ok3, y, z)))))))))  in
  let es := fst (run nat p (new_container nat)) in
  fst (snd (run nat p (new_container nat))) = (None, true, false, false, Some 11, Some 7) /\ proper nat [] es /\ List.length es = 8.
Proof. vm_compute. repeat split; auto. Qed.
(** The four outcomes of a cyclic allocation. *)
Example C53_example_cyclic :
  let go f := fst (snd (run nat (cyclics nat BStep 2 f) (mkStore [(BSort, Some 1)] 0))) in
  go (fun rs => Ret (Some (map S rs))) = CDone [1; 2] /\ go (fun rs => Ret None) = CFailed /\
  go (fun rs => Init 2 5 (fun _ => Ret (Some [3; 4]))) = CAlready /\ go (fun rs => Ret (Some [3])) = CPanic.
Proof. vm_compute. repeat split. Qed.

(** ** C52: generated names *)

(** At most 65536 calls give different names, whatever the base names and whatever happens in between. *)
Theorem C52_distinct_partial : forall V A (p : prog V A) st es a st', counter V st < 2 ^ 16 -> run V p st = (es, (a, st')) ->
  List.length (fresh_names V es) <= 2 ^ 16 -> NoDup (fresh_names V es).
Proof. intros V A p st es a st'. apply run_names_nodup. Qed.
Print Assumptions C52_distinct_partial.

(** A fresh name is not the name of an existing definition unless that one has the form [_<number>$<text>], in particular
    when it starts with another character than [_]. *)
Theorem C52_existing_partial : forall V name_of A (p : prog V A) st es a st' n, counter V st < 2 ^ 16 -> run V p st = (es, (a, st')) ->
  In n (fresh_names V es) ->
  (exists i base, n = "_"%char :: dec i ++ "$"%char :: base /\ i < 2 ^ 16) /\
  (forall st2 r v c rest, value V st2 r = Some v -> name_of v = c :: rest -> c <> "_"%char -> name_of v <> n).
Proof.
  intros V name_of A p st es a st' n LT R I. pose proof (run_names_form V p _ _ _ _ _ LT R I) as F. split; [exact F|].
  intros st2 r v c rest _ E N X. destruct F as [i [base [-> _]]]. rewrite E in X. apply N. exact (f_equal (hd c) X).
Qed.
Print Assumptions C52_existing_partial.

(** The names of the container are the names of its initialised definitions. *)
Theorem C52_name_set : forall V name_of st n,
  In n (name_set V name_of st) <-> exists r v, value V st r = Some v /\ name_of v = n.
Proof. exact name_set_in. Qed.
Print Assumptions C52_name_set.

(** False in general: the counter is 16 bits wide and wraps around, so asking more often with the same base repeats a name;
    an existing function may have the generated name; and [is_name_available] answers the opposite of its name. *)
Theorem C52_refuted :
  (forall V n base es a st, 2 ^ 16 < n -> run V (asking V n base) (new_container V) = (es, (a, st)) -> ~ NoDup (fresh_names V es)) /\
  (exists (p : prog text text), let '(_, (n, st)) := run text p (new_container text) in In n (name_set text (fun v => v) st)) /\
  (forall V name_of st n, is_name_available V name_of st n = true <-> exists r v, value V st r = Some v /\ name_of v = n).
Proof.
  split; [|split].
  - intros V n base es a st L R ND. apply calls_names in R; [|unfold wrap; cbn [counter new_container]; apply Nat.neq_0_lt_0, wrap_pos].
    rewrite R in ND. cbn [counter new_container] in ND. fold wrap in L. pose proof wrap_pos as W. revert W L ND. generalize wrap. intros w W L ND.
    rewrite NoDup_nth_error in ND.
    assert (0 = w) as X; [|lia]. apply ND; [rewrite map_length, seq_length; lia|].
    rewrite !nth_error_map.
    assert (forall i m s, i < m -> nth_error (seq s m) i = Some (s + i)) as SQ.
    { induction i as [|i IH]; intros [|m] s Q; cbn; try lia; [f_equal; lia|]. rewrite IH by lia. f_equal. lia. }
    rewrite !SQ by lia. cbn [option_map]. f_equal. f_equal. cbn [Nat.add]. rewrite Nat.mod_same, Nat.mod_small by lia. reflexivity.
  - exists (Alloc BFunction (Some (str "_0$enc")) (fun _ => Fresh (str "enc") (fun n => Ret n))). left. reflexivity.
  - intros V name_of st n. rewrite <- name_set_in. unfold is_name_available. rewrite existsb_exists. split.
    + intros [m [I E]]. apply teqb_spec in E as ->. exact I.
    + intros I. exists n. split; [exact I|]. apply teqb_refl.
Qed.
Print Assumptions C52_refuted.

Example C52_example :
  let p := Fresh (str "uf") (fun a => Alloc BFunction (Some a) (fun _ => Fresh (str "uf") (fun b => Fresh (str "1$uf") (fun c => Ret [a; b; c])))) in
  let '(es, (ns, st)) := run text p (new_container text) in
  fresh_names text es = [str "_0$uf"; str "_1$uf"; str "_2$1$uf"] /\ name_set text (fun v => v) st = [str "_0$uf"].
Proof. vm_compute. split; reflexivity. Qed.

(** ** C82: the table of functions *)

(** An answer is a built-in function or a function of the container with that name; built-in functions take precedence, and
    among functions of the same name the last one allocated; no answer means no function has that name. *)
Theorem C82_lookup : forall V name_of st bs m n, function_map V name_of st bs = Some m ->
  match m n with
  | Some r => In (n, r) bs \/
              (function_named V name_of st n r /\ (forall r', ~ In (n, r') bs) /\
               (forall r', function_named V name_of st n r' -> r' <= r))
  | None => (forall r, ~ In (n, r) bs) /\ (forall r, ~ function_named V name_of st n r)
  end.
Proof.
  intros V name_of st bs m n M. destruct (map_lookup V name_of st bs m n M) as [es [E X]].
  assert (forall n' r', In (n', r') es <-> function_named V name_of st n' r') as F.
  { intros n' r'. rewrite (entries_in V name_of _ _ _ E). unfold function_named. split.
    - intros [i [v [-> H]]]. exists v. exact H.
    - intros [v H]. exists r', v. auto. }
  destruct (m n) as [r|].
  - destruct X as [a [b [S0 L]]].
    assert (In (n, r) (es ++ bs)) as I by (rewrite S0; apply in_app_iff; right; left; reflexivity).
    destruct (in_dec (fun x y : text * nat => ltac:(repeat decide equality)) (n, r) bs) as [J|J]; [left; exact J|right].
    apply in_app_iff in I as [I|I]; [|contradiction]. split; [apply F; exact I|].
    assert (exists b', b = b' ++ bs /\ es = a ++ (n, r) :: b') as [b' [-> Es]].
    { clear - S0 J. revert a S0. induction es as [|e es IH]; intros a S0; cbn in S0.
      - exfalso. apply J. rewrite S0. apply in_app_iff. right. left. reflexivity.
      - destruct a as [|x a]; cbn in S0.
        + injection S0 as -> <-. exists es. auto.
        + injection S0 as -> S0. destruct (IH _ S0) as [b' [-> ->]]. exists b'. auto. }
    split; [intros r' I'; apply (L r'), in_app_iff; right; exact I'|].
    intros r' I'. apply F in I'. rewrite Es in I'. apply in_app_iff in I' as [I'|[I'|I']].
    + apply in_split in I' as [x [y ->]]. apply Nat.lt_le_incl.
      eapply (entries_order V name_of _ _ _ E x n r'); [rewrite Es, <- app_assoc; reflexivity|]. apply in_app_iff. right. left. reflexivity.
    + injection I' as <-. lia.
    + exfalso. apply (L r'), in_app_iff. left. exact I'.
  - split; intros r I; apply (X r), in_app_iff; [right; exact I|left; apply F; exact I].
Qed.
Print Assumptions C82_lookup.

(** Building it fails exactly when a function is still without content. *)
Theorem C82_panics : forall V name_of st bs,
  function_map V name_of st bs = None <-> exists r, nth_error (cells V st) r = Some (BFunction, None).
Proof.
  intros V name_of st bs. rewrite <- (entries_none V name_of _ 0). unfold function_map.
  destruct (function_entries V name_of (cells V st) 0); cbn; split; congruence.
Qed.
Print Assumptions C82_panics.

Example C82_example :
  let st := mkStore [(BFunction, Some (str "f")); (BSort, Some (str "f")); (BFunction, Some (str "f")); (BStep, None); (BFunction, Some (str "eq"))] 0 in
  exists m, function_map text (fun v => v) st [(str "eq", 100); (str "and", 101)] = Some m /\
    m (str "f") = Some 2 /\ m (str "eq") = Some 100 /\ m (str "and") = Some 101 /\ m (str "g") = None.
Proof. eexists. split; [reflexivity|]. vm_compute. repeat split. Qed.
