From Coq Require Import DecimalString DecimalNat.
From Coq Require Import List Arith Bool Ascii String Lia.
From Verif Require Import Squirrel_Model Squirrel_Proofs Smt_Model Container_Model Container_Spec.
Import ListNotations.
Local Open Scope list_scope.

(** ** Names *)

Definition digit (c : ascii) : Prop := In c (str "0123456789").

Lemma str_inj a b : str a = str b -> a = b.
Proof.
  revert b. induction a as [|c a IH]; intros [|d b]; cbn; intros E; try discriminate; [reflexivity|].
  injection E as -> E. f_equal. apply IH. exact E.
Qed.
Lemma uint_digits u : Forall digit (str (NilEmpty.string_of_uint u)).
Proof. induction u; cbn; constructor; auto; unfold digit; cbn; tauto. Qed.
Lemma dec_digits n : Forall digit (dec n).
Proof. apply uint_digits. Qed.
Lemma dec_inj a b : dec a = dec b -> a = b.
Proof.
  unfold dec. intros E. apply str_inj in E.
  assert (Nat.to_uint a = Nat.to_uint b) as X.
  { pose proof (NilEmpty.usu (Nat.to_uint a)) as A. pose proof (NilEmpty.usu (Nat.to_uint b)) as B. congruence. }
  apply (f_equal Nat.of_uint) in X. rewrite !DecimalNat.Unsigned.of_to in X. exact X.
Qed.
Lemma not_digit : ~ digit "$"%char.
Proof. unfold digit. cbn. intros H. repeat (destruct H as [H|H]; [discriminate H|]). exact H. Qed.

Lemma digits_split a : forall b x y, Forall digit a -> Forall digit b -> a ++ "$"%char :: x = b ++ "$"%char :: y -> a = b /\ x = y.
Proof.
  induction a as [|c a IH]; intros [|d b] x y A B; cbn; intros E.
  - injection E as <-. auto.
  - injection E as <- _. exfalso. apply not_digit. inversion B; auto.
  - injection E as -> _. exfalso. apply not_digit. inversion A; auto.
  - injection E as -> E. inversion A; inversion B; subst. destruct (IH b x y) as [-> ->]; auto.
Qed.

Definition fresh_text (i : nat) (base : text) : text := str "_" ++ dec i ++ str "$" ++ base.
Lemma fresh_text_inj i j b c : fresh_text i b = fresh_text j c -> i = j /\ b = c.
Proof.
  unfold fresh_text. cbn. intros E. injection E as E.
  destruct (digits_split _ _ _ _ (dec_digits i) (dec_digits j) E) as [X ->]. apply dec_inj in X. auto.
Qed.

Section Proofs.
  Variable V : Type.
  Variable name_of : V -> text.
  Notation store := (store V).
  Notation event := (event V).
  Notation value := (value V).
  Notation run := (run V).
  Notation given := (given V).
  Notation prog := (prog V).

  Lemma write_length l r v : List.length (write V l r v) = List.length l.
  Proof. revert r. induction l as [|[b x] l IH]; intros [|r]; cbn; auto. Qed.
  Lemma write_same l r v : r < List.length l -> exists b, nth_error (write V l r v) r = Some (b, Some v).
  Proof. revert r. induction l as [|[b x] l IH]; intros [|r]; cbn; intros H; try lia; eauto. apply IH. lia. Qed.
  Lemma write_other l r r' v : r <> r' -> nth_error (write V l r v) r' = nth_error l r'.
  Proof. revert r r'. induction l as [|[b x] l IH]; intros [|r] [|r'] H; cbn; auto; try lia. Qed.

  Definition known (st : store) (r : nat) : Prop := r < List.length (cells V st).

  Lemma value_known st r v : value st r = Some v -> known st r.
  Proof. unfold Container_Model.value, known. destruct (nth_error (cells V st) r) eqn:E; [|discriminate]. intros _. apply nth_error_Some. congruence. Qed.
  Lemma allocate_value st b v r' : value (fst (allocate V st b v)) r' =
    if Nat.eq_dec (List.length (cells V st)) r' then v else value st r'.
  Proof.
    unfold Container_Model.value, allocate. cbn. destruct (Nat.eq_dec (List.length (cells V st)) r') as [<-|N].
    - rewrite nth_error_app2, Nat.sub_diag by lia. reflexivity.
    - destruct (Nat.lt_ge_cases r' (List.length (cells V st))).
      + rewrite nth_error_app1 by lia. reflexivity.
      + rewrite nth_error_app2 by lia. destruct (r' - List.length (cells V st)) as [|k] eqn:E; [lia|]. cbn.
        destruct (nth_error (cells V st) r') eqn:X; [|destruct k; reflexivity].
        assert (r' < List.length (cells V st)) by (apply nth_error_Some; congruence). lia.
  Qed.
  Lemma init_ok st r v st' : initialize V st r v = (st', true) -> known st r ->
    value st r = None /\ value st' r = Some v /\ (forall r', r' <> r -> value st' r' = value st r').
  Proof.
    unfold initialize. destruct (value st r) eqn:E; [discriminate|]. intros X K. injection X as <-. split; [reflexivity|].
    unfold Container_Model.value. cbn. destruct (write_same (cells V st) r v K) as [b ->]. split; [reflexivity|].
    intros r' N. rewrite write_other; auto.
  Qed.
  Lemma init_err st r v st' : initialize V st r v = (st', false) -> st' = st /\ value st r <> None.
  Proof. unfold initialize. destruct (value st r) eqn:E; [|discriminate]. intros X. injection X as <-. split; congruence. Qed.
  Lemma init_counter st r v st' ok : initialize V st r v = (st', ok) -> counter V st' = counter V st /\ List.length (cells V st') = List.length (cells V st).
  Proof.
    unfold initialize. destruct (value st r); intros X; injection X as <- <-; cbn; [auto|]. rewrite write_length. auto.
  Qed.

  Lemma free_cells st base st1 n : free_name V st base = (st1, n) -> cells V st1 = cells V st.
  Proof. unfold free_name. generalize (2 ^ 16). intros w E. injection E as <- _. reflexivity. Qed.

  (** *** Histories *)

  Record tracks (st : store) (es : list event) : Prop := mkTracks {
    t_value : forall r, value st r = given es r;
    t_known : forall r, allocated V es r <-> known st r }.

  Lemma given_app a b r : given (a ++ b) r = match given a r with Some v => Some v | None => given b r end.
  Proof.
    induction a as [|e a IH]; [reflexivity|].
    destruct e as [r' [v|]|r' v ok|r' v|n]; cbn; try destruct (Nat.eq_dec r' r); auto.
  Qed.
  Lemma given_snoc a e r : given (a ++ [e]) r = match given a r with Some v => Some v | None => given [e] r end.
  Proof. apply given_app. Qed.
  Lemma allocated_snoc a e r : allocated V (a ++ [e]) r <-> allocated V a r \/ (exists v, e = EAlloc r v).
  Proof.
    unfold allocated. split.
    - intros [v I]. apply in_app_iff in I as [I|[I|[]]]; eauto.
    - intros [[v I]|[v ->]]; exists v; apply in_app_iff; cbn; auto.
  Qed.
  Lemma value_unknown st r : ~ known st r -> value st r = None.
  Proof. intros N. destruct (value st r) eqn:E; [|reflexivity]. apply value_known in E. contradiction. Qed.

  Definition answer_ok (es1 : list event) (e : event) : Prop :=
    match e with
    | EAlloc r _ => ~ allocated V es1 r
    | EInit r v ok => ok = true <-> given es1 r = None
    | ERead r v => v = given es1 r
    | EFresh _ => True
    end.

  Lemma step_split (es0 es1 : list event) (e : event) (P : list event -> event -> Prop) :
    P es0 e -> (forall a x b, es1 = a ++ x :: b -> P ((es0 ++ [e]) ++ a) x) ->
    forall a x b, e :: es1 = a ++ x :: b -> P (es0 ++ a) x.
  Proof.
    intros H1 H2 [|y a] x b E; cbn in E.
    - injection E as -> ->. rewrite app_nil_r. exact H1.
    - injection E as -> E. specialize (H2 _ _ _ E). rewrite <- app_assoc in H2. exact H2.
  Qed.

  Lemma run_tracks {A} (p : prog A) : forall st es0 es a st' l, tracks st es0 ->
    (forall r, In r l <-> known st r) ->
    run p st = (es, (a, st')) -> proper V l es ->
    tracks st' (es0 ++ es) /\
    (forall es1 e es2, es = es1 ++ e :: es2 -> answer_ok (es0 ++ es1) e).
  Proof.
    induction p as [a0|b v k IH|r v k IH|r k IH|base k IH]; intros st es0 es a st' l T L; cbn [Container_Model.run].
    - intros E _. inversion E; subst. rewrite app_nil_r. split; [exact T|]. intros es1 e es2 X; destruct es1; discriminate X.
    - destruct (allocate V st b v) as [st1 r] eqn:EA. destruct (run (k r) st1) as [es1 x] eqn:ER.
      intros E P. inversion E; subst; clear E. cbn in P.
      assert (r = List.length (cells V st)) as -> by (unfold allocate in EA; congruence).
      assert (st1 = fst (allocate V st b v)) as -> by (rewrite EA; reflexivity).
      assert (forall r, known (fst (allocate V st b v)) r <-> (List.length (cells V st) = r \/ known st r)) as K1.
      { intros r. unfold known, allocate. cbn. rewrite app_length. cbn. lia. }
      assert (~ known st (List.length (cells V st))) as NK by (unfold known; lia).
      edestruct (fun T L => IH _ _ (es0 ++ [EAlloc (List.length (cells V st)) v]) _ _ _ (List.length (cells V st) :: l) T L ER P) as [T2 A2].
      { split.
        - intros r. rewrite allocate_value, given_snoc, <- (t_value _ _ T). cbn.
          destruct (Nat.eq_dec (List.length (cells V st)) r) as [<-|D].
          + rewrite (value_unknown _ _ NK). destruct v; reflexivity.
          + destruct (value st r); [reflexivity|]. destruct v; reflexivity.
        - intros r. rewrite allocated_snoc, K1, (t_known _ _ T). split.
          + intros [X|[w X]]; [auto|]. left. congruence.
          + intros [<-|X]; eauto. }
      { intros r. cbn. rewrite K1, L. reflexivity. }
      rewrite <- app_assoc in T2. split; [exact T2|]. apply step_split; [|exact A2]. cbn. rewrite (t_known _ _ T). exact NK.
    - destruct (initialize V st r v) as [st1 ok] eqn:EI. destruct (run (k ok) st1) as [es1 x] eqn:ER.
      intros E P. inversion E; subst; clear E. destruct P as [I P]. apply L in I.
      assert (forall r, known st1 r <-> known st r) as K1.
      { intros r'. unfold known. destruct (init_counter _ _ _ _ _ EI) as [_ ->]. reflexivity. }
      edestruct (fun T L => IH _ _ (es0 ++ [EInit r v ok]) _ _ _ l T L ER P) as [T2 A2].
      { split.
        - intros r'. rewrite given_snoc, <- (t_value _ _ T). destruct ok.
          + destruct (init_ok _ _ _ _ EI I) as [N [W O]]. cbn. destruct (Nat.eq_dec r r') as [<-|D].
            * rewrite N, W. reflexivity.
            * rewrite O by auto. destruct (value st r'); reflexivity.
          + destruct (init_err _ _ _ _ EI) as [-> N]. cbn. destruct (value st r') eqn:X; [reflexivity|].
            destruct (Nat.eq_dec r r') as [<-|D]; [contradiction|reflexivity].
        - intros r'. rewrite allocated_snoc, K1, (t_known _ _ T). split; [intros [X|[w X]]; [auto|discriminate]|auto]. }
      { intros r'. rewrite K1. apply L. }
      rewrite <- app_assoc in T2. split; [exact T2|]. apply step_split; [|exact A2]. cbn. rewrite <- (t_value _ _ T).
      destruct ok.
      + destruct (init_ok _ _ _ _ EI I) as [N _]. rewrite N. split; reflexivity.
      + destruct (init_err _ _ _ _ EI) as [_ N]. split; [discriminate|contradiction].
    - destruct (run (k (value st r)) st) as [es1 x] eqn:ER. intros E P. inversion E; subst; clear E. destruct P as [_ P].
      edestruct (fun T L => IH _ _ (es0 ++ [ERead r (value st r)]) _ _ _ l T L ER P) as [T2 A2].
      { split.
        - intros r'. rewrite given_snoc, <- (t_value _ _ T). cbn. destruct (value st r'); reflexivity.
        - intros r'. rewrite allocated_snoc, (t_known _ _ T). split; [intros [X|[w X]]; [auto|discriminate]|auto]. }
      { exact L. }
      rewrite <- app_assoc in T2. split; [exact T2|]. apply step_split; [|exact A2]. cbn. apply (t_value _ _ T).
    - destruct (free_name V st base) as [st1 n] eqn:EF. destruct (run (k n) st1) as [es1 x] eqn:ER.
      intros E P. inversion E; subst; clear E. cbn in P.
      pose proof (free_cells _ _ _ _ EF) as C1.
      edestruct (fun T L => IH _ _ (es0 ++ [EFresh n]) _ _ _ l T L ER P) as [T2 A2].
      { split.
        - intros r'. rewrite given_snoc, <- (t_value _ _ T). cbn. unfold Container_Model.value. rewrite C1.
          destruct (nth_error (cells V st) r') as [[? [?|]]|]; reflexivity.
        - intros r'. unfold known. rewrite allocated_snoc, C1, (t_known _ _ T). split; [intros [X|[w X]]; [auto|discriminate]|auto]. }
      { intros r'. unfold known. rewrite C1. apply L. }
      rewrite <- app_assoc in T2. split; [exact T2|]. apply step_split; [|exact A2]. exact I.
  Qed.

  Lemma new_tracks : tracks (new_container V) [].
  Proof.
    split; [intros r; unfold Container_Model.value; cbn; destruct r; reflexivity|].
    intros r. unfold allocated, known. cbn. split; [intros [? []]|lia].
  Qed.
  Lemma run_history {A} (p : prog A) es a st' : run p (new_container V) = (es, (a, st')) -> proper V [] es ->
    (forall r, value st' r = given es r) /\ (forall es1 e es2, es = es1 ++ e :: es2 -> answer_ok es1 e).
  Proof.
    intros R P. assert (forall r, In r [] <-> known (new_container V) r) as L by (intros r; unfold known; cbn; split; [intros []|lia]).
    destruct (run_tracks p _ [] _ _ _ [] new_tracks L R P) as [T A0]. split; [exact (t_value _ _ T)|exact A0].
  Qed.

  (** *** Values stay. *)
  Lemma init_keeps st r v st' ok r' w : initialize V st r v = (st', ok) -> value st r' = Some w -> value st' r' = Some w.
  Proof.
    intros E W. pose proof (value_known _ _ _ W) as K. unfold initialize in E. destruct (value st r) eqn:X; injection E as <- <-; [exact W|].
    unfold Container_Model.value in *. cbn. rewrite write_other; [exact W|]. intros ->. rewrite X in W. discriminate.
  Qed.
  Lemma run_keeps {A} (p : prog A) : forall st es a st' r w, run p st = (es, (a, st')) -> value st r = Some w -> value st' r = Some w.
  Proof.
    induction p as [a0|b v k IH|r0 v k IH|r0 k IH|base k IH]; intros st es a st' r w; cbn [Container_Model.run].
    - intros E W. inversion E; subst. exact W.
    - destruct (allocate V st b v) as [st1 r1] eqn:EA. destruct (run (k r1) st1) as [es1 x] eqn:ER. intros E W. inversion E; subst.
      eapply IH; [exact ER|]. assert (st1 = fst (allocate V st b v)) as -> by (rewrite EA; reflexivity).
      rewrite allocate_value. destruct Nat.eq_dec as [X|]; [|exact W]. apply value_known in W. unfold known in W. lia.
    - destruct (initialize V st r0 v) as [st1 ok] eqn:EI. destruct (run (k ok) st1) as [es1 x] eqn:ER. intros E W. inversion E; subst.
      eapply IH; [exact ER|]. eapply init_keeps; eauto.
    - destruct (run (k (value st r0)) st) as [es1 x] eqn:ER. intros E W. inversion E; subst. eapply IH; eauto.
    - destruct (free_name V st base) as [st1 n] eqn:EF. destruct (run (k n) st1) as [es1 x] eqn:ER. intros E W. inversion E; subst.
      eapply IH; [exact ER|]. unfold Container_Model.value. rewrite (free_cells _ _ _ _ EF). exact W.
  Qed.
  Lemma run_grows {A} (p : prog A) : forall st es a st', run p st = (es, (a, st')) -> List.length (cells V st) <= List.length (cells V st').
  Proof.
    induction p as [a0|b v k IH|r0 v k IH|r0 k IH|base k IH]; intros st es a st'; cbn [Container_Model.run].
    - intros E. inversion E; subst. lia.
    - destruct (allocate V st b v) as [st1 r1] eqn:EA. destruct (run (k r1) st1) as [es1 x] eqn:ER. intros E. inversion E; subst.
      apply IH in ER. unfold allocate in EA. injection EA as <- _. cbn in ER. rewrite app_length in ER. lia.
    - destruct (initialize V st r0 v) as [st1 ok] eqn:EI. destruct (run (k ok) st1) as [es1 x] eqn:ER. intros E. inversion E; subst.
      apply IH in ER. destruct (init_counter _ _ _ _ _ EI) as [_ <-]. exact ER.
    - destruct (run (k (value st r0)) st) as [es1 x] eqn:ER. intros E. inversion E; subst. eapply IH; eauto.
    - destruct (free_name V st base) as [st1 n] eqn:EF. destruct (run (k n) st1) as [es1 x] eqn:ER. intros E. inversion E; subst.
      apply IH in ER. rewrite (free_cells _ _ _ _ EF) in ER. exact ER.
  Qed.

  Lemma run_bind {A B} (p : prog A) (f : A -> prog B) : forall st,
    run (bind V p f) st = let (es, x) := run p st in let (es2, y) := run (f (fst x)) (snd x) in (es ++ es2, y).
  Proof.
    induction p as [a0|b v k IH|r0 v k IH|r0 k IH|base k IH]; intros st; cbn [Container_Model.run bind].
    - cbn. destruct (run (f a0) st). reflexivity.
    - destruct (allocate V st b v) as [st1 r1]. rewrite IH. destruct (run (k r1) st1) as [es x]. destruct (run (f (fst x)) (snd x)). reflexivity.
    - destruct (initialize V st r0 v) as [st1 ok]. rewrite IH. destruct (run (k ok) st1) as [es x]. destruct (run (f (fst x)) (snd x)). reflexivity.
    - rewrite IH. destruct (run (k (value st r0)) st) as [es x]. destruct (run (f (fst x)) (snd x)). reflexivity.
    - destruct (free_name V st base) as [st1 n]. rewrite IH. destruct (run (k n) st1) as [es x]. destruct (run (f (fst x)) (snd x)). reflexivity.
  Qed.

  (** *** Cyclic allocation *)
  Lemma cyclic1_result b f st es res st' : run (cyclic1 V b f) st = (es, (res, st')) ->
    exists es1 c stf, run (f (List.length (cells V st))) (mkStore (cells V st ++ [(b, None)]) (counter V st)) = (es1, (c, stf)) /\
      match res with
      | CDone r => r = List.length (cells V st) /\ exists v, c = Some v /\ value stf r = None /\ value st' r = Some v /\
                   (forall r', r' <> r -> value st' r' = value stf r')
      | CFailed => c = None /\ st' = stf
      | CAlready => exists v w, c = Some v /\ value stf (List.length (cells V st)) = Some w /\ st' = stf
      | CPanic => False
      end.
  Proof.
    unfold cyclic1. cbn [Container_Model.run]. unfold allocate. rewrite run_bind.
    destruct (run (f (List.length (cells V st))) _) as [es1 [c stf]] eqn:EF. cbn [fst snd].
    assert (known stf (List.length (cells V st))) as K.
    { apply run_grows in EF. cbn in EF. rewrite app_length in EF. cbn in EF. unfold known. lia. }
    destruct c as [v|]; cbn [Container_Model.run].
    - destruct (initialize V stf (List.length (cells V st)) v) as [st1 ok] eqn:EI. intros E. inversion E; subst; clear E.
      exists es1, (Some v), stf. split; [reflexivity|]. destruct ok.
      + destruct (init_ok _ _ _ _ EI K) as [N [W O]]. split; [reflexivity|]. exists v. auto.
      + destruct (init_err _ _ _ _ EI) as [-> N]. destruct (value stf (List.length (cells V st))) as [w|] eqn:X; [|congruence]. exists v, w. auto.
    - intros E. inversion E; subst. exists es1, None, st'. auto.
  Qed.

  Lemma cyclic2_result b1 b2 f st es res st' : run (cyclic2 V b1 b2 f) st = (es, (res, st')) ->
    exists es1 c stf,
      run (f (List.length (cells V st)) (S (List.length (cells V st)))) (mkStore (cells V st ++ [(b1, None); (b2, None)]) (counter V st)) = (es1, (c, stf)) /\
      match res with
      | CDone (r1, r2) => r1 = List.length (cells V st) /\ r2 = S (List.length (cells V st)) /\ exists v1 v2, c = Some (v1, v2) /\
                   value stf r1 = None /\ value stf r2 = None /\ value st' r1 = Some v1 /\ value st' r2 = Some v2 /\
                   (forall r', r' <> r1 -> r' <> r2 -> value st' r' = value stf r')
      | CFailed => c = None /\ st' = stf
      | CAlready => exists x, c = Some x /\
                    ~ (value stf (List.length (cells V st)) = None /\ value stf (S (List.length (cells V st))) = None)
      | CPanic => False
      end.
  Proof.
    unfold cyclic2. cbn [Container_Model.run]. unfold allocate. cbn [cells counter]. rewrite app_length. cbn [List.length].
    replace (List.length (cells V st) + 1) with (S (List.length (cells V st))) by lia. rewrite <- app_assoc. cbn [app].
    rewrite run_bind. set (n := List.length (cells V st)).
    destruct (run (f n (S n)) _) as [es1 [c stf]] eqn:EF. cbn [fst snd].
    assert (known stf n /\ known stf (S n)) as [K1 K2].
    { apply run_grows in EF. cbn in EF. rewrite app_length in EF. cbn in EF. fold n in EF. unfold known. lia. }
    destruct c as [[v1 v2]|]; cbn [Container_Model.run].
    - destruct (initialize V stf n v1) as [st1 ok1] eqn:EI1. destruct ok1; cbn [Container_Model.run].
      + destruct (init_ok _ _ _ _ EI1 K1) as [N1 [W1 O1]].
        destruct (initialize V st1 (S n) v2) as [st2 ok2] eqn:EI2. intros E. inversion E; subst; clear E.
        exists es1, (Some (v1, v2)), stf. split; [reflexivity|]. destruct ok2.
        * assert (known st1 (S n)) as K3 by (unfold known; destruct (init_counter _ _ _ _ _ EI1) as [_ ->]; exact K2).
          destruct (init_ok _ _ _ _ EI2 K3) as [N2 [W2 O2]].
          do 2 (split; [reflexivity|]). exists v1, v2. rewrite O1 in N2 by lia. rewrite O2 by lia. repeat (split; [auto; fail|]).
          intros r' D1 D2. rewrite O2, O1; auto.
        * destruct (init_err _ _ _ _ EI2) as [-> N]. exists (v1, v2). split; [reflexivity|]. intros [_ X]. apply N. rewrite O1 by lia. exact X.
      + intros E. inversion E; subst; clear E. exists es1, (Some (v1, v2)), stf. split; [reflexivity|].
        destruct (init_err _ _ _ _ EI1) as [-> N]. exists (v1, v2). split; [reflexivity|]. intros [X _]. auto.
    - intros E. inversion E; subst. exists es1, None, st'. auto.
  Qed.

  Lemma allocs_run {A} b n (k : list nat -> prog A) : forall st,
    run (allocs V b n k) st =
    let m := List.length (cells V st) in
    let (es, x) := run (k (seq m n)) (mkStore (cells V st ++ repeat (b, None) n) (counter V st)) in
    (map (fun r => EAlloc r None) (seq m n) ++ es, x).
  Proof.
    revert k. induction n as [|n IH]; intros k st; cbn [allocs].
    - cbn [repeat seq]. rewrite app_nil_r. destruct st. cbn. destruct (run (k []) _). reflexivity.
    - cbn [Container_Model.run]. unfold allocate. rewrite IH. cbn [cells counter]. rewrite app_length. cbn [List.length].
      replace (List.length (cells V st) + 1) with (S (List.length (cells V st))) by lia. rewrite <- app_assoc. cbn [app repeat seq].
      cbv zeta. destruct (run (k _) _) as [es x]. reflexivity.
  Qed.

  Lemma inits_result rs : forall vs done st es res st', NoDup rs -> (forall r, In r rs -> known st r) ->
    run (inits V rs vs done) st = (es, (res, st')) ->
    match res with
    | CDone d => d = done /\ List.length rs = List.length vs /\
                 (forall i r v, nth_error rs i = Some r -> nth_error vs i = Some v -> value st r = None /\ value st' r = Some v) /\
                 (forall r, ~ In r rs -> value st' r = value st r)
    | CFailed => False
    | CAlready => exists r, In r rs /\ value st r <> None
    | CPanic => List.length rs <> List.length vs
    end.
  Proof.
    induction rs as [|r rs IH]; intros [|v vs] done st es res st' ND K; cbn [inits Container_Model.run].
    - intros E. inversion E; subst. repeat (split; [auto; fail|]). split; [|auto]. intros [|i] r v X; discriminate X.
    - intros E. inversion E; subst. cbn. lia.
    - intros E. inversion E; subst. cbn. lia.
    - destruct (initialize V st r v) as [st1 ok] eqn:EI. destruct ok.
      + destruct (run (inits V rs vs done) st1) as [es1 x] eqn:ER. intros E. inversion E; subst; clear E.
        inversion ND as [|? ? NI ND']; subst.
        destruct (init_ok _ _ _ _ EI (K r (or_introl eq_refl))) as [N [W O]].
        specialize (IH vs done st1 es1 res st' ND').
        assert (forall r0, In r0 rs -> known st1 r0) as K1.
        { intros r0 I. unfold known. destruct (init_counter _ _ _ _ _ EI) as [_ ->]. apply K. right. exact I. }
        specialize (IH K1 ER). destruct res as [d| | |].
        * destruct IH as [-> [L [S0 F]]]. split; [reflexivity|]. split; [cbn; congruence|]. split.
          -- intros [|i] r0 v0 E1 E2; cbn in E1, E2.
             ++ injection E1 as <-. injection E2 as <-. split; [exact N|]. rewrite F by exact NI. exact W.
             ++ destruct (S0 _ _ _ E1 E2) as [A1 A2]. split; [|exact A2]. rewrite <- O; [exact A1|]. intros ->. apply NI. eapply nth_error_In; eauto.
          -- intros r0 NI0. rewrite F by (intros X; apply NI0; right; exact X). apply O. intros ->. apply NI0. left. reflexivity.
        * contradiction.
        * destruct IH as [r0 [I0 V0]]. exists r0. split; [right; exact I0|]. rewrite <- O; [exact V0|]. intros ->. contradiction.
        * cbn. lia.
      + cbn [Container_Model.run]. intros E. inversion E; subst. exists r. split; [left; reflexivity|]. destruct (init_err _ _ _ _ EI) as [_ X]. exact X.
  Qed.

  Lemma cyclics_result b n f st es res st' : run (cyclics V b n f) st = (es, (res, st')) ->
    let rs := seq (List.length (cells V st)) n in
    exists es1 c stf, run (f rs) (mkStore (cells V st ++ repeat (b, None) n) (counter V st)) = (es1, (c, stf)) /\
      match res with
      | CDone d => d = rs /\ exists vs, c = Some vs /\ List.length vs = n /\
                   (forall i r v, nth_error rs i = Some r -> nth_error vs i = Some v -> value stf r = None /\ value st' r = Some v) /\
                   (forall r', ~ In r' rs -> value st' r' = value stf r')
      | CFailed => c = None /\ st' = stf
      | CAlready => exists vs r, c = Some vs /\ In r rs /\ value stf r <> None
      | CPanic => exists vs, c = Some vs /\ List.length vs <> n
      end.
  Proof.
    unfold cyclics. rewrite allocs_run. cbv zeta. set (rs := seq (List.length (cells V st)) n). rewrite run_bind.
    destruct (run (f rs) _) as [es1 [c stf]] eqn:EF. cbn [fst snd].
    assert (forall r, In r rs -> known stf r) as K.
    { intros r I. apply in_seq in I. apply run_grows in EF. cbn in EF. rewrite app_length, repeat_length in EF. unfold known. lia. }
    destruct c as [vs|].
    - destruct (run (inits V rs vs rs) stf) as [es2 x] eqn:EI. intros E. inversion E; subst; clear E.
      exists es1, (Some vs), stf. split; [reflexivity|].
      apply inits_result in EI; [|apply seq_NoDup|exact K]. assert (List.length rs = n) as LN by apply seq_length.
      destruct res as [d| | |].
      + destruct EI as [-> [L X]]. split; [reflexivity|]. exists vs. split; [reflexivity|]. split; [congruence|exact X].
      + contradiction.
      + destruct EI as [r [I X]]. eauto.
      + exists vs. split; [reflexivity|]. congruence.
    - cbn [Container_Model.run]. intros E. inversion E; subst. exists es1, None, st'. auto.
  Qed.

  (** *** Fresh names *)
  Definition wrap : nat := 2 ^ 16.
  Lemma wrap_pos : wrap <> 0.
  Proof. unfold wrap. apply Nat.pow_nonzero. lia. Qed.

  Lemma free_counter st base st1 n : free_name V st base = (st1, n) ->
    counter V st1 = S (counter V st) mod wrap /\ n = fresh_text (counter V st) base.
  Proof. unfold free_name. fold wrap. generalize wrap. intros w E. injection E as <- <-. auto. Qed.

  Lemma shift_names w c (bs : list text) : w <> 0 -> forall l,
    map (fun ib => fresh_text ((S c mod w + fst ib) mod w) (snd ib)) (combine l bs) =
    map (fun ib => fresh_text ((c + fst ib) mod w) (snd ib)) (combine (map S l) bs).
  Proof.
    intros W. induction bs as [|b bs IH]; intros [|i l]; cbn [combine map fst snd]; try reflexivity.
    rewrite IH. f_equal. rewrite Nat.add_mod_idemp_l by exact W. replace (S c + i) with (c + S i) by lia. reflexivity.
  Qed.

  Lemma run_names {A} (p : prog A) : forall st es a st', counter V st < wrap -> run p st = (es, (a, st')) ->
    exists bases, fresh_names V es = map (fun ib => fresh_text ((counter V st + fst ib) mod wrap) (snd ib)) (combine (seq 0 (List.length bases)) bases)
                  /\ counter V st' < wrap.
  Proof.
    induction p as [a0|b v k IH|r0 v k IH|r0 k IH|base k IH]; intros st es a st' LT; cbn [Container_Model.run].
    - intros E. inversion E; subst. exists []. auto.
    - destruct (allocate V st b v) as [st1 r1] eqn:EA. destruct (run (k r1) st1) as [es1 x] eqn:ER. intros E. inversion E; subst.
      assert (counter V st1 = counter V st) as C1 by (unfold allocate in EA; injection EA as <- _; reflexivity).
      cbn [fresh_names]. rewrite <- C1. eapply IH; [|exact ER]. rewrite C1. exact LT.
    - destruct (initialize V st r0 v) as [st1 ok] eqn:EI. destruct (run (k ok) st1) as [es1 x] eqn:ER. intros E. inversion E; subst.
      destruct (init_counter _ _ _ _ _ EI) as [C1 _]. cbn [fresh_names]. rewrite <- C1. eapply IH; [|exact ER]. rewrite C1. exact LT.
    - destruct (run (k (value st r0)) st) as [es1 x] eqn:ER. intros E. inversion E; subst. cbn [fresh_names]. eapply IH; eauto.
    - destruct (free_name V st base) as [st1 n] eqn:EF. destruct (run (k n) st1) as [es1 x] eqn:ER. intros E. inversion E; subst.
      destruct (free_counter _ _ _ _ EF) as [C1 ->].
      assert (counter V st1 < wrap) as LT1 by (rewrite C1; apply Nat.mod_upper_bound, wrap_pos).
      destruct (IH _ _ _ _ _ LT1 ER) as [bs [FN CT]].
      exists (base :: bs). split; [|exact CT]. cbn [fresh_names]. rewrite FN, C1. cbn [List.length seq combine map fst snd counter].
      f_equal.
      + rewrite Nat.add_0_r, Nat.mod_small by exact LT. reflexivity.
      + rewrite <- seq_shift. apply shift_names, wrap_pos.
  Qed.

  Lemma names_nodup wrap c n (bases : list text) : wrap <> 0 -> n = List.length bases -> n <= wrap ->
    NoDup (map (fun ib => fresh_text ((c + fst ib) mod wrap) (snd ib)) (combine (seq 0 n) bases)).
  Proof.
    intros wrap_pos LB LN.
    assert (NoDup (map (fun i => (c + i) mod wrap) (seq 0 n))) as ND.
    { assert (forall m s, s + m <= wrap -> NoDup (map (fun i => (c + i) mod wrap) (seq s m))) as X; [|apply X; lia].
      induction m as [|m IH]; intros s L; cbn; constructor; [|apply IH; lia].
      intros I. apply in_map_iff in I as [j [E J]]. apply in_seq in J.
      pose proof (Nat.div_mod (c + j) wrap wrap_pos). pose proof (Nat.div_mod (c + s) wrap wrap_pos).
      rewrite E in H.
      assert ((c + j) / wrap = (c + s) / wrap \/ (c + s) / wrap < (c + j) / wrap) as [X|X].
      { pose proof (Nat.div_le_mono (c + s) (c + j) wrap wrap_pos). lia. }
      - rewrite X in H. lia.
      - nia. }
    clear LN. revert ND. generalize (seq_length n 0). generalize (seq 0 n). intros l. subst n. revert l.
    induction bases as [|b bs IH]; intros [|i l] L ND; cbn; constructor.
    - intros I. apply in_map_iff in I as [[j b'] [E J]]. cbn in E. apply fresh_text_inj in E as [E _].
      cbn in ND. inversion ND as [|? ? NI _]; subst. apply NI. rewrite <- E. apply in_map_iff. exists j. split; [reflexivity|].
      eapply in_combine_l; eauto.
    - apply IH; [cbn in L; congruence|]. cbn in ND. inversion ND; auto.
  Qed.

  Lemma combine_len {X} (l : list X) : List.length (combine (seq 0 (List.length l)) l) = List.length l.
  Proof. rewrite combine_length, seq_length. lia. Qed.

  Lemma run_names_nodup {A} (p : prog A) st es a st' : counter V st < wrap -> run p st = (es, (a, st')) ->
    List.length (fresh_names V es) <= wrap -> NoDup (fresh_names V es).
  Proof.
    intros LT R L. destruct (run_names p _ _ _ _ LT R) as [bs [E _]]. rewrite E in *. rewrite map_length, combine_len in L.
    apply names_nodup; [apply wrap_pos|reflexivity|exact L].
  Qed.
  Lemma run_names_form {A} (p : prog A) st es a st' n : counter V st < wrap -> run p st = (es, (a, st')) -> In n (fresh_names V es) ->
    exists i base, n = "_"%char :: dec i ++ "$"%char :: base /\ i < wrap.
  Proof.
    intros LT R I. destruct (run_names p _ _ _ _ LT R) as [bs [E _]]. rewrite E in I. apply in_map_iff in I as [[j b] [<- J]].
    exists ((counter V st + j) mod wrap), b. split; [reflexivity|]. apply Nat.mod_upper_bound, wrap_pos.
  Qed.

  (** *** Name set *)
  Lemma name_set_in st n : In n (name_set V name_of st) <-> exists r v, value st r = Some v /\ name_of v = n.
  Proof.
    unfold name_set. rewrite in_flat_map. split.
    - intros [[b [v|]] [I J]]; cbn in J; [|contradiction]. destruct J as [<-|[]].
      apply In_nth_error in I as [r E]. exists r, v. unfold Container_Model.value. rewrite E. auto.
    - intros [r [v [W <-]]]. unfold Container_Model.value in W. destruct (nth_error (cells V st) r) as [[b o]|] eqn:E; [|discriminate].
      subst o. exists (b, Some v). split; [eapply nth_error_In; eauto|]. cbn. auto.
  Qed.

  (** *** The table of functions *)
  Lemma entries_in l : forall k es, function_entries V name_of l k = Some es -> forall n r,
    In (n, r) es <-> exists i v, r = k + i /\ nth_error l i = Some (BFunction, Some v) /\ name_of v = n.
  Proof.
    induction l as [|[b o] l IH]; intros k es; cbn [function_entries].
    - intros E n r. injection E as <-. split; [intros []|]. intros [[|i] [v [_ [X _]]]]; discriminate X.
    - intros E n r.
      assert (forall es', function_entries V name_of l (S k) = Some es' ->
              (In (n, r) es' <-> exists i v, r = k + S i /\ nth_error ((b, o) :: l) (S i) = Some (BFunction, Some v) /\ name_of v = n)) as X.
      { intros es' E'. rewrite (IH _ _ E'). split; intros [i [v [A B]]]; exists i, v; (split; [lia|exact B]). }
      assert (forall P, ~ (exists v, (b, o) = (BFunction, Some v) /\ name_of v = n /\ r = k) ->
              (P <-> exists i v, r = k + S i /\ nth_error ((b, o) :: l) (S i) = Some (BFunction, Some v) /\ name_of v = n) ->
              (P <-> exists i v, r = k + i /\ nth_error ((b, o) :: l) i = Some (BFunction, Some v) /\ name_of v = n)) as Y.
      { intros P N H. rewrite H. split; intros [i [v [A [B C]]]]; [eauto|]. destruct i as [|i]; [|eauto].
        exfalso. apply N. exists v. cbn in B. injection B as -> ->. split; [reflexivity|split; [exact C|lia]]. }
      destruct b, o as [v|]; try discriminate E; try (apply Y; [intros [w [Q _]]; discriminate Q|apply X; exact E]).
      destruct (function_entries V name_of l (S k)) as [es'|] eqn:E'; [|discriminate E]. cbn in E. injection E as <-.
      specialize (X _ eq_refl). cbn [In]. rewrite X. split.
      + intros [Q|[i [w H]]]; [|eauto]. injection Q as <- <-. exists 0, v. split; [lia|]. split; reflexivity.
      + intros [[|i] [w [A [B C]]]]; [|right; eauto]. left. cbn in B. injection B as ->. f_equal; [exact C|lia].
  Qed.
  Lemma entries_none l : forall k, function_entries V name_of l k = None <-> exists i, nth_error l i = Some (BFunction, None).
  Proof.
    induction l as [|[b o] l IH]; intros k; cbn [function_entries].
    - split; [discriminate|]. intros [[|i] X]; discriminate X.
    - assert ((exists i, nth_error ((b, o) :: l) i = Some (BFunction, None)) <->
              (b, o) = (BFunction, None) \/ exists i, nth_error l i = Some (BFunction, None)) as ->.
      { split; [intros [[|i] X]; [left; cbn in X; congruence|right; exists i; exact X]|].
        intros [X|[i X]]; [exists 0; cbn; congruence|exists (S i); exact X]. }
      rewrite <- (IH (S k)).
      destruct b, o as [v|]; try (split; [intros X; right; exact X|intros [X|X]; [discriminate X|exact X]]).
      + destruct (function_entries V name_of l (S k)); cbn; split; intros X; auto; try discriminate X; destruct X; discriminate.
      + split; auto.
  Qed.
  Lemma entries_order l : forall k es, function_entries V name_of l k = Some es ->
    forall a n r b, es = a ++ (n, r) :: b -> forall n' r', In (n', r') b -> r < r'.
  Proof.
    induction l as [|[b0 o] l IH]; intros k es; cbn [function_entries].
    - intros E a n r b X. injection E as <-. destruct a; discriminate X.
    - intros E a n r b X n' r' I.
      destruct b0, o as [v|]; try discriminate E; try exact (IH _ _ E _ _ _ _ X _ _ I).
      destruct (function_entries V name_of l (S k)) as [es'|] eqn:E'; [|discriminate E]. cbn in E. injection E as <-.
      destruct a as [|x a]; cbn in X.
      + injection X as <- <- <-. apply (entries_in _ _ _ E') in I as [i [w [-> _]]]. lia.
      + injection X as _ X. exact (IH _ _ E' _ _ _ _ X _ _ I).
  Qed.

  Lemma find_split {X} f (l : list X) x : find f l = Some x -> exists a b, l = a ++ x :: b /\ f x = true /\ forallb (fun y => negb (f y)) a = true.
  Proof.
    induction l as [|y l IH]; cbn; [discriminate|]. destruct (f y) eqn:E.
    - intros H. injection H as <-. exists [], l. auto.
    - intros H. destruct (IH H) as [a [b [-> [F A]]]]. exists (y :: a), b. cbn. rewrite E. auto.
  Qed.

  Lemma map_lookup st bs m n : function_map V name_of st bs = Some m ->
    exists es, function_entries V name_of (cells V st) 0 = Some es /\
    match m n with
    | Some r => exists a b, es ++ bs = a ++ (n, r) :: b /\ (forall r', ~ In (n, r') b)
    | None => forall r, ~ In (n, r) (es ++ bs)
    end.
  Proof.
    unfold function_map. destruct (function_entries V name_of (cells V st) 0) as [es|]; [|discriminate]. cbn. intros E. injection E as <-.
    exists es. split; [reflexivity|]. destruct (find _ _) as [[n' r]|] eqn:F; cbn.
    - destruct (find_split _ _ _ F) as [a [b [X [T A]]]]. cbn in T. apply teqb_spec in T as ->.
      apply (f_equal (@List.rev _)) in X. rewrite rev_involutive, rev_app_distr in X. cbn in X. rewrite <- app_assoc in X. cbn in X.
      exists (rev b), (rev a). split; [exact X|]. intros r' I. apply in_rev in I. rewrite forallb_forall in A. specialize (A _ I). cbn in A.
      destruct (text_eqb n n) eqn:Y; [discriminate A|]. assert (text_eqb n n = true) by (apply teqb_spec; reflexivity). congruence.
    - intros r I. apply in_rev in I. pose proof (find_none _ _ F _ I) as N. cbn in N.
      assert (text_eqb n n = true) by (apply teqb_spec; reflexivity). congruence.
  Qed.
End Proofs.

(** ** Wrapping around *)
Lemma calls_names V n base : forall st es a st', counter V st < wrap ->
  run V (asking V n base) st = (es, (a, st')) ->
  fresh_names V es = map (fun i => fresh_text ((counter V st + i) mod wrap) base) (seq 0 n).
Proof.
  induction n as [|n IH]; intros st es a st' LT; cbn [asking run].
  - intros E. inversion E; subst. reflexivity.
  - destruct (free_name V st base) as [st1 t] eqn:EF.
    destruct (run V _ st1) as [es1 x] eqn:ER. intros E. inversion E; subst; clear E.
    destruct (free_counter _ _ _ _ _ EF) as [C1 ->].
    assert (counter V st1 < wrap) as LT1 by (rewrite C1; apply Nat.mod_upper_bound, wrap_pos).
    cbn [fresh_names]. rewrite (IH _ _ _ _ LT1 ER). cbn [seq map]. f_equal.
    + rewrite Nat.add_0_r, Nat.mod_small by exact LT. reflexivity.
    + rewrite <- seq_shift, map_map. apply map_ext. intros i. f_equal. rewrite C1, Nat.add_mod_idemp_l by apply wrap_pos.
      f_equal. lia.
Qed.
