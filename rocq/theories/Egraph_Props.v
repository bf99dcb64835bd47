(** C65, C84-C87: the searches of the indistinguishability prover in its e-graph. *)
From Coq Require Import String List Arith Lia.
From Verif Require Import Rewrite_Model Egraph_Model Egraph_Spec Egraph_Proofs.
Import ListNotations.
Local Open Scope list_scope.

(** ** C65 *)

(** The checks of a nonce with a shared table all end without a panic, and a positive answer gives a term of the class in
    which the nonce is not seen, outside of the classes ignored so far: for the keys and the randomness of IND-CCA2, ... *)
Theorem C65_cca : forall g, rebuilt g -> forall sk nonce qs, (forall q, In q qs -> snd q < length g) ->
  length (checks g (next_cca sk) nonce empty_memo qs) = length qs /\
  forall j q, nth_error qs j = Some q -> nth_error (checks g (next_cca sk) nonce empty_memo qs) j = Some true ->
    avoids g (looks_cca sk) nonce (concat (map fst (firstn (S j) qs))) (snd q).
Proof.
  intros g W sk nonce qs LT.
  exact (checks_sound g W _ _ (agrees_cca g W sk) (children_cca sk) (proper_cca sk) nonce qs _ [] (empty_sound g _ _ _) LT).
Qed.
Print Assumptions C65_cca.

(** ... for the randomness of ENC-KP, ... *)
Theorem C65_nonce : forall g, rebuilt g -> forall nonce qs, (forall q, In q qs -> snd q < length g) ->
  length (checks g next_nonce nonce empty_memo qs) = length qs /\
  forall j q, nth_error qs j = Some q -> nth_error (checks g next_nonce nonce empty_memo qs) j = Some true ->
    avoids g looks_nonce nonce (concat (map fst (firstn (S j) qs))) (snd q).
Proof.
  intros g W nonce qs LT.
  exact (checks_sound g W _ _ (agrees_nonce g) children_nonce proper_nonce nonce qs _ [] (empty_sound g _ _ _) LT).
Qed.
Print Assumptions C65_nonce.

(** ... and for its keys. *)
Theorem C65_key : forall g, rebuilt g -> forall nonce qs, (forall q, In q qs -> snd q < length g) ->
  length (checks g next_key nonce empty_memo qs) = length qs /\
  forall j q, nth_error qs j = Some q -> nth_error (checks g next_key nonce empty_memo qs) j = Some true ->
    avoids g looks_key nonce (concat (map fst (firstn (S j) qs))) (snd q).
Proof.
  intros g W nonce qs LT.
  exact (checks_sound g W _ _ (agrees_key g W) children_key proper_key nonce qs _ [] (empty_sound g _ _ _) LT).
Qed.
Print Assumptions C65_key.

(** ** C84 *)

(** In a graph without cycles, checks ignoring the same classes answer exactly whether there is such a term. *)
Theorem C84_exact_partial : forall g, rebuilt g -> acyclic g -> forall ign nonce ts, (forall t, In t ts -> t < length g) ->
  (forall sk, Forall2 (fun t b => b = true <-> avoids g (looks_cca sk) nonce ign t) ts
                      (checks g (next_cca sk) nonce empty_memo (map (fun t => (ign, t)) ts))) /\
  Forall2 (fun t b => b = true <-> avoids g looks_nonce nonce ign t) ts
          (checks g next_nonce nonce empty_memo (map (fun t => (ign, t)) ts)) /\
  Forall2 (fun t b => b = true <-> avoids g looks_key nonce ign t) ts
          (checks g next_key nonce empty_memo (map (fun t => (ign, t)) ts)).
Proof.
  intros g W [rank RK] ign nonce ts LT.
  assert (forall l, exact g l nonce ign empty_memo) as X0 by (intros l; split; [apply empty_sound|intros i E; discriminate E]).
  assert (forall i, empty_memo i <> Some Searching) as NS by (intros i; discriminate).
  split; [intros sk|split].
  - exact (checks_exact g W _ _ (agrees_cca g W sk) (children_cca sk) (proper_cca sk) nonce (exactly_cca g W sk) rank RK ign ts _ (X0 _) NS LT).
  - exact (checks_exact g W _ _ (agrees_nonce g) children_nonce proper_nonce nonce (exactly_nonce g) rank RK ign ts _ (X0 _) NS LT).
  - exact (checks_exact g W _ _ (agrees_key g W) children_key proper_key nonce (exactly_key g W) rank RK ign ts _ (X0 _) NS LT).
Qed.
Print Assumptions C84_exact_partial.

(** A way to show that a concrete graph is rebuilt. *)
Lemma rebuilt_by g (repr : nat -> term) : NoDup (concat g) ->
  Forall (fun ns => Forall (fun n => Forall (fun c => c < length g) (snd n) /\
          match fst n with ODec => length (snd n) = 2 | OPk => length (snd n) = 1 | _ => True end) ns) g ->
  (forall i, i < length g -> rep g (repr i) i) -> rebuilt g.
Proof.
  intros ND F R. rewrite Forall_forall in F. constructor.
  - clear F R. induction g as [|ns0 g IH]; [intros [|] [|]; discriminate|]. cbn in ND.
    assert (forall j ns n, nth_error g j = Some ns -> In n ns -> In n ns0 -> False) as D.
    { intros j ns n E I I0. apply nth_error_In in E. clear IH. induction ns0 as [|x ns0 IH0]; [destruct I0|].
      cbn in ND. inversion ND as [|? ? N1 N2]; subst. destruct I0 as [->|I0]; [|auto]. apply N1. apply in_app_iff. right. apply in_concat. eauto. }
    assert (NoDup (concat g)) as ND' by (clear - ND; induction ns0; [exact ND|inversion ND; auto]).
    intros [|i] [|j] ns ns' n E E' I I'; cbn in E, E'; try reflexivity.
    + injection E as <-. destruct (D _ _ _ E' I' I).
    + injection E' as <-. destruct (D _ _ _ E I I').
    + f_equal. eapply IH; eauto.
  - intros i ns f ids c E I Ic. specialize (F ns (nth_error_In _ _ E)). rewrite Forall_forall in F. destruct (F _ I) as [Z _].
    rewrite Forall_forall in Z. exact (Z c Ic).
  - intros i L. exists (repr i). auto.
  - intros i ns f ids E I. specialize (F ns (nth_error_In _ _ E)). rewrite Forall_forall in F. destruct (F _ I) as [_ Z]. cbn in Z.
    split; intros ->; exact Z.
Qed.
Ltac nodup := repeat (constructor; [cbn; intuition discriminate|]); constructor.
Ltac ranges := repeat constructor; cbn; lia.
Ltac reps := repeat first [apply Forall2_nil | apply Forall2_cons | eapply rep_node; [reflexivity|cbn; eauto 9|]].

Definition const (s : string) : term := T (OConst s) [].
(** Class 4 has the term [tuple a (p2 a)], without the nonce, but [p2 a] is examined first below a cycle. *)
Definition cyc : graph :=
  [[(ONonce, [1])]; [(OConst "n", [])]; [(OP1, [3]); (OConst "a", [])]; [(OP2, [2])]; [(OTuple, [2; 3])]].
Definition cyc_terms (i : nat) : term :=
  nth i [T ONonce [const "n"]; const "n"; const "a"; T OP2 [const "a"]; T OTuple [const "a"; T OP2 [const "a"]]] (const "a").
Lemma cyc_rebuilt : rebuilt cyc.
Proof.
  apply (rebuilt_by _ cyc_terms); [nodup|ranges|].
  intros [|[|[|[|[|i]]]]] L; [..|cbn in L; lia]; cbn; reps.
Qed.

Lemma seen_child sk K Ign f ts v : seen (looks_cca sk) K Ign (T f ts) v -> v = T f ts \/ exists u, In u ts /\ seen (looks_cca sk) K Ign u v.
Proof. intros H. inversion H as [|t n u w N L S0]; subst; [auto|]. right. exists u. split; [|exact S0]. eapply nth_error_In. apply L. Qed.

(** With cycles a table makes the check miss terms, also when the class is asked for again. *)
Theorem C84_refuted : exists g t nonce, rebuilt g /\ t < length g /\
  avoids g (looks_cca Randomness) nonce [] t /\ checks g (next_cca Randomness) nonce empty_memo [([], t); ([], t)] = [false; false].
Proof.
  exists cyc, 4, 0. split; [exact cyc_rebuilt|]. split; [cbn; lia|]. split; [|reflexivity].
  exists (T OTuple [const "a"; T OP2 [const "a"]]). split; [reps|].
  assert (forall v, rep cyc v 0 -> v = T ONonce [const "n"]) as K.
  { intros v R. inversion R as [f ts ids i ns E I F]; subst. injection E as <-. destruct I as [I|[]]. injection I as <- <-.
    inversion F as [|t c ts' cs R1 F1]; subst. inversion F1; subst. f_equal. f_equal.
    inversion R1 as [f ts ids i ns E I F2]; subst. injection E as <-. destruct I as [I|[]]. injection I as <- <-. inversion F2. reflexivity. }
  intros v S0 R. apply K in R. subst v.
  apply seen_child in S0 as [E|[u [[<-|[<-|[]]] S1]]]; [discriminate E| |].
  - apply seen_child in S1 as [E|[u [[] _]]]. discriminate E.
  - apply seen_child in S1 as [E|[u [[<-|[]] S2]]]; [discriminate E|].
    apply seen_child in S2 as [E|[u [[] _]]]. discriminate E.
Qed.
Print Assumptions C84_refuted.

(** ** C85 *)

(** What IND-CCA2 merges: a class with an [equiv], and a term of it in which a ciphertext of [m] is replaced by one of zeroes of
    the length of [m], on a path whose other branches have, as [m] has, terms without the randomness, and terms with the key
    in public keys and decryptions only, up to the ciphertext. *)
Theorem C85_instance_partial : forall g repr, rebuilt g -> (forall i, i < length g -> rep g (repr i) i) -> forall p e,
  cca_instance g repr (p, e) ->
  exists m k r c tm tk tr, rep g tm m /\ rep g tk k /\ rep g tr r /\ rep g (T OEnc [tm; tr; T OPk [tk]]) c /\
    k <> r /\ headed g ONonce k /\ headed g ONonce r /\ headed g OEquiv p /\
    avoids g (looks_cca KeyBeforeEnc) k [] m /\ avoids g (looks_cca Randomness) r [] m /\
    swapped g c (T OEnc [T OZeroes [T OLength [tm]]; tr; T OPk [tk]])
      (fun s => avoids g (looks_cca KeyBeforeEnc) k [c] s /\ avoids g (looks_cca Randomness) r [c] s) p e.
Proof.
  intros g repr W RE p e [i [st [M [S0 Y]]]]. destruct (matches_rep g W repr RE i M) as [L1 [L2 [L3 [L4 RC]]]].
  destruct (cca_start_inv g W repr RE i st M S0) as [NE [N1 [N2 [A1 [A2 [V _]]]]]].
  destruct (yields_swapped g W repr RE _ _ _ _ _ _ Y V) as [EQ SW]. cbn in EQ, SW.
  exists (im i), (ik i), (ir i), (ic i), (repr (im i)), (repr (ik i)), (repr (ir i)).
  do 3 (split; [auto|]). split; [exact RC|]. split; [exact NE|]. split; [apply (nonce_rep g W); exact N1|].
  split; [apply (nonce_rep g W); exact N2|]. split; [apply (equiv_rep g W); exact EQ|]. split; [exact A1|]. split; [exact A2|].
  clear - SW. induction SW as [|f ids ns p id e ts Hn Hi Hd SW IH F]; [constructor|]. econstructor; eauto.
  clear - F. induction F as [|s t ids ts H F IH]; constructor; [|exact IH]. destruct H as [H|[H1 [H2 H3]]]; [left; exact H|right].
  inversion H3 as [|? ? ? ? B1 B']; subst. inversion B' as [|? ? ? ? B2 B'']; subst. cbn in B1, B2. auto.
Qed.
Print Assumptions C85_instance_partial.

Definition tm : term := const "m".
Definition tr : term := T ONonce [const "r"].
Definition tk : term := T ONonce [const "k"].
Definition c0 : term := T OEnc [tm; tr; T OPk [tk]].
Definition c1 : term := T OEnc [T OZeroes [T OLength [tm]]; tr; T OPk [tk]].
(** 0 m, 1 r, 2 k, 3 nonce r, 4 nonce k, 5 pk, 6 the ciphertext, 7 p1 of it, 8 a pair, 9 equiv, 10 a decryption, 11, 12. *)
Definition cca : graph :=
  [[(OConst "m", [])]; [(OConst "r", [])]; [(OConst "k", [])]; [(ONonce, [1])]; [(ONonce, [2])]; [(OPk, [4])];
   [(OEnc, [0; 3; 5])]; [(OP1, [6])]; [(OTuple, [6; 7])]; [(OEquiv, [8])];
   [(ODec, [7; 4])]; [(OTuple, [6; 10])]; [(OEquiv, [11])]].
Definition cca_terms (i : nat) : term :=
  nth i [tm; const "r"; const "k"; tr; tk; T OPk [tk]; c0; T OP1 [c0]; T OTuple [c0; T OP1 [c0]];
         T OEquiv [T OTuple [c0; T OP1 [c0]]];
         T ODec [T OP1 [c0]; tk]; T OTuple [c0; T ODec [T OP1 [c0]; tk]]; T OEquiv [T OTuple [c0; T ODec [T OP1 [c0]; tk]]]] tm.
Lemma cca_reps i : i < length cca -> rep cca (cca_terms i) i.
Proof. do 13 (destruct i as [|i]; [intros _; cbn; reps|]). cbn. lia. Qed.
Lemma cca_rebuilt : rebuilt cca.
Proof. apply (rebuilt_by _ cca_terms); [nodup|ranges|exact cca_reps]. Qed.

(** The ciphertext, and with it the randomness, may remain in the other branches: it is replaced at one place only. A
    decryption of a function of the ciphertext may remain as well, without a test that its argument is another ciphertext. *)
Theorem C85_refuted : exists g repr p q, rebuilt g /\ (forall i, i < length g -> rep g (repr i) i) /\
  (rep g (T OEquiv [T OTuple [c0; T OP1 [c0]]]) p /\ cca_instance g repr (p, T OEquiv [T OTuple [c1; T OP1 [c0]]])) /\
  (rep g (T OEquiv [T OTuple [c0; T ODec [T OP1 [c0]; tk]]]) q /\
   cca_instance g repr (q, T OEquiv [T OTuple [c1; T ODec [T OP1 [c0]; tk]]])).
Proof.
  exists cca, cca_terms, 9, 12. split; [exact cca_rebuilt|]. split; [exact cca_reps|].
  assert (matches cca (mkInstance 0 4 3 6)) as M.
  { exists [(OEnc, [0; 3; 5])], 5, [(OPk, [4])]. cbn. auto. }
  assert (exists st, cca_start cca cca_terms (mkInstance 0 4 3 6) = Some st /\
          In (9, T OEquiv [T OTuple [c1; T OP1 [c0]]]) (collect cca cca_terms (cca_checks (mkInstance 0 4 3 6)) 6 20 st) /\
          In (12, T OEquiv [T OTuple [c1; T ODec [T OP1 [c0]; tk]]]) (collect cca cca_terms (cca_checks (mkInstance 0 4 3 6)) 6 20 st)) as [st [E [I1 I2]]].
  { eexists. split; [reflexivity|]. split; vm_compute; tauto. }
  split; (split; [apply cca_reps with (i := 9) || apply cca_reps with (i := 12); cbn; lia|]); exists (mkInstance 0 4 3 6), st;
    (split; [exact M|]); (split; [exact E|]); eapply collect_yields; eassumption.
Qed.
Print Assumptions C85_refuted.

(** ** C86 *)

(** What ENC-KP merges: the same with the key replaced by another one. *)
Theorem C86_instance_partial : forall g repr nonces, rebuilt g -> (forall i, i < length g -> rep g (repr i) i) ->
  (forall n, In n nonces -> n < length g) -> forall p e, kp_instance g repr nonces (p, e) ->
  exists m k nk r c tm tk tn tr, rep g tm m /\ rep g tk k /\ rep g tn nk /\ rep g tr r /\ rep g (T OEnc [tm; tr; T OPk [tk]]) c /\
    k <> r /\ k <> nk /\ In nk nonces /\ headed g ONonce k /\ headed g ONonce r /\ headed g OEquiv p /\
    avoids g looks_key k [] m /\ avoids g looks_key nk [] m /\ avoids g looks_nonce r [] m /\
    swapped g c (T OEnc [tm; tr; T OPk [tn]])
      (fun s => avoids g looks_key k [c] s /\ avoids g looks_key nk [c] s /\ avoids g looks_nonce r [c] s) p e.
Proof.
  intros g repr nonces W RE LN p e [i [nk [st [M [IN [S0 Y]]]]]]. destruct (matches_rep g W repr RE i M) as [L1 [L2 [L3 [L4 RC]]]].
  destruct (kp_start_inv g W repr RE i nk st M S0) as [NE [NK [N1 [N2 [A1 [A2 [A3 [V _]]]]]]]].
  destruct (yields_swapped g W repr RE _ _ _ _ _ _ Y V) as [EQ SW]. cbn in EQ, SW.
  exists (im i), (ik i), nk, (ir i), (ic i), (repr (im i)), (repr (ik i)), (repr nk), (repr (ir i)).
  do 4 (split; [auto|]). split; [exact RC|]. do 3 (split; [assumption|]). split; [apply (nonce_rep g W); exact N1|].
  split; [apply (nonce_rep g W); exact N2|]. split; [apply (equiv_rep g W); exact EQ|]. do 3 (split; [assumption|]).
  clear - SW. induction SW as [|f ids ns p id e ts Hn Hi Hd SW IH F]; [constructor|]. econstructor; eauto.
  clear - F. induction F as [|s t ids ts H F IH]; constructor; [|exact IH]. destruct H as [H|[H1 [H2 H3]]]; [left; exact H|right].
  inversion H3 as [|? ? ? ? B1 B']; subst. inversion B' as [|? ? ? ? B2 B'']; subst. inversion B'' as [|? ? ? ? B3 B3']; subst. cbn in B1, B2, B3. auto.
Qed.
Print Assumptions C86_instance_partial.

(** 0 m, 1 r, 2 k, 3 nonce r, 4 nonce k, 5 pk, 6 the ciphertext, 7 equiv. *)
Definition kp : graph :=
  [[(OConst "m", [])]; [(OConst "r", [])]; [(OConst "k", [])]; [(ONonce, [1])]; [(ONonce, [2])]; [(OPk, [4])];
   [(OEnc, [0; 3; 5])]; [(OEquiv, [6])]; [(OConst "k2", [])]; [(ONonce, [8])]; [(OP1, [6])]; [(OTuple, [6; 10])]; [(OEquiv, [11])]].
Definition kp_terms (i : nat) : term :=
  nth i [tm; const "r"; const "k"; tr; tk; T OPk [tk]; c0; T OEquiv [c0]; const "k2"; T ONonce [const "k2"];
         T OP1 [c0]; T OTuple [c0; T OP1 [c0]]; T OEquiv [T OTuple [c0; T OP1 [c0]]]] tm.
Lemma kp_reps i : i < length kp -> rep kp (kp_terms i) i.
Proof. do 13 (destruct i as [|i]; [intros _; cbn; reps|]). cbn. lia. Qed.
Lemma kp_rebuilt : rebuilt kp.
Proof. apply (rebuilt_by _ kp_terms); [nodup|ranges|exact kp_reps]. Qed.

(** The new key may be the randomness of the ciphertext; and, as for IND-CCA2, the ciphertext may remain elsewhere. *)
Theorem C86_refuted : exists g repr r k2 p q, rebuilt g /\ (forall i, i < length g -> rep g (repr i) i) /\
  rep g tr r /\ rep g (T ONonce [const "k2"]) k2 /\
  (rep g (T OEquiv [c0]) p /\ kp_instance g repr [r; k2] (p, T OEquiv [T OEnc [tm; tr; T OPk [tr]]])) /\
  (rep g (T OEquiv [T OTuple [c0; T OP1 [c0]]]) q /\
   kp_instance g repr [r; k2] (q, T OEquiv [T OTuple [T OEnc [tm; tr; T OPk [T ONonce [const "k2"]]]; T OP1 [c0]]])).
Proof.
  exists kp, kp_terms, 3, 9, 7, 12. split; [exact kp_rebuilt|]. split; [exact kp_reps|].
  split; [apply kp_reps with (i := 3); cbn; lia|]. split; [apply kp_reps with (i := 9); cbn; lia|].
  assert (matches kp (mkInstance 0 4 3 6)) as M.
  { exists [(OEnc, [0; 3; 5])], 5, [(OPk, [4])]. cbn. auto. }
  split.
  - split; [apply kp_reps with (i := 7); cbn; lia|]. exists (mkInstance 0 4 3 6), 3.
    eexists. split; [exact M|]. split; [cbn; auto|]. split; [reflexivity|]. apply collect_yields with (fuel := 20). vm_compute. tauto.
  - split; [apply kp_reps with (i := 12); cbn; lia|]. exists (mkInstance 0 4 3 6), 9.
    eexists. split; [exact M|]. split; [cbn; auto|]. split; [reflexivity|]. apply collect_yields with (fuel := 20). vm_compute. tauto.
Qed.
Print Assumptions C86_refuted.

(** ** C87 *)

(** A search ends after at most as many steps as there are classes, and never panics. *)
Theorem C87_cca : forall g repr, rebuilt g -> (forall i, i < length g -> rep g (repr i) i) -> forall i st0 n st,
  matches g i -> cca_start g repr i = Some st0 -> after g repr (cca_checks i) (ic i) st0 n st ->
  n <= length g /\
  forall td1 id e td2 ups, todos st = td1 ++ (id, e) :: td2 -> (forall np, In np ups <-> above g id np) ->
    exists o st', step g repr (cca_checks i) (ic i) st o st' /\ (forall r, o = Some r -> r = (id, e)).
Proof.
  intros g repr W RE i st0 n st M S0 A. destruct (cca_start_inv g W repr RE i st0 M S0) as [_ [_ [_ [_ [_ [V D]]]]]].
  exact (search_total_up g W repr RE _ _ _ _ st0 n st V D A).
Qed.
Print Assumptions C87_cca.

Theorem C87_kp : forall g repr, rebuilt g -> (forall i, i < length g -> rep g (repr i) i) -> forall i nk st0 n st,
  matches g i -> kp_start g repr i nk = Some st0 -> after g repr (kp_checks i nk) (ic i) st0 n st ->
  n <= length g /\
  forall td1 id e td2 ups, todos st = td1 ++ (id, e) :: td2 -> (forall np, In np ups <-> above g id np) ->
    exists o st', step g repr (kp_checks i nk) (ic i) st o st' /\ (forall r, o = Some r -> r = (id, e)).
Proof.
  intros g repr W RE i nk st0 n st M S0 A. destruct (kp_start_inv g W repr RE i nk st0 M S0) as [_ [_ [_ [_ [_ [_ [_ [V D]]]]]]]].
  exact (search_total_up g W repr RE _ _ _ _ st0 n st V D A).
Qed.
Print Assumptions C87_kp.

(** The graph of [C85_refuted] meets the hypotheses of C65 to C87; some answers on it. *)
Example C65_example : rebuilt cca /\
  checks cca (next_cca Randomness) 3 empty_memo [([], 0); ([], 7); ([], 5)] = [true; false; true] /\
  checks cca (next_cca Randomness) 3 empty_memo [([], 0); ([6], 7); ([6], 12)] = [true; true; true] /\
  checks cca (next_cca KeyBeforeEnc) 4 empty_memo [([], 10); ([], 4)] = [true; false] /\
  checks cca next_key 4 empty_memo [([], 5); ([6], 10); ([], 0)] = [false; true; true] /\
  checks cca next_nonce 3 empty_memo [([6], 12); ([], 3)] = [true; false].
Proof. split; [exact cca_rebuilt|]. repeat split. Qed.
Example C84_example : rebuilt cca /\ acyclic cca.
Proof.
  split; [exact cca_rebuilt|]. exists (fun i => i). intros i ns f ids c E I Ic.
  do 13 (destruct i as [|i]; [injection E as <-; cbn in I; repeat (destruct I as [I|I]; [injection I as <- <-; cbn in Ic; lia|]); destruct I|]).
  destruct i; discriminate E.
Qed.
Example C87_example : exists st0, cca_start cca cca_terms (mkInstance 0 4 3 6) = Some st0 /\ matches cca (mkInstance 0 4 3 6) /\
  todos st0 = [(6, c1)].
Proof.
  eexists. split; [reflexivity|]. split; [|reflexivity]. exists [(OEnc, [0; 3; 5])], 5, [(OPk, [4])]. cbn. auto.
Qed.
