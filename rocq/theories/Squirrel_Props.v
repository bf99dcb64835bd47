(** C55-C58, C77: names, order lemmas and output locations of the Squirrel front end. *)
From Coq Require Import List Arith Bool Lia String Ascii.
From Verif Require Import Smt_Model Squirrel_Model Squirrel_Spec Squirrel_Proofs.
Import ListNotations.
Local Open Scope list_scope.

(** ** C55 *)

(** Symbols without a fixed translation: different symbols, or symbols of different namespaces, get different names. *)
Theorem C55_injective_partial : forall (wide : text -> bool) (k k' : skd) (p p' : path),
  legal_path p -> legal_path p' -> ~ In (path_text p) special -> ~ In (path_text p') special ->
  sanitize wide k (path_text p) = sanitize wide k' (path_text p') -> p = p' /\ same_space k k'.
Proof.
  intros wide k k' p p' H1 H2 H3 H4 E. apply sanitize_inj in E; [|assumption|assumption]. destruct E as [E1 E2].
  split; [apply path_text_inj; assumption|assumption].
Qed.
Print Assumptions C55_injective_partial.

Definition ascii_wide (s : text) : bool := forallb (fun c => byte c <? 128) s.
Definition sym (s : string) : path := mkPath [] (str s).
Example C55_injective_example :
  (legal_path (mkPath [str "Lib"] (str "h")) /\ ~ In (path_text (mkPath [str "Lib"] (str "h"))) special) /\
  sanitize ascii_wide KFunction (path_text (sym "h")) = str "fun_h" /\ sanitize ascii_wide KName (path_text (sym "h")) = str "name_h" /\
  sanitize ascii_wide KFunction (path_text (mkPath [str "Lib"] (str "h"))) = str "fun__base64_TGliJCMkaA" /\
  sanitize ascii_wide KFunction (path_text (sym "h'")) = str "fun__base64_aCc".
Proof.
  split; [|repeat split; reflexivity]. split.
  - split; [constructor; [|constructor]|]; (right; cbn; intuition discriminate).
  - rewrite special_keys. apply look_none. reflexivity.
Qed.

(** They never get a reserved name, and those with a fixed translation always do. *)
Theorem C55_reserved : forall (wide : text -> bool) (k : skd) (s : text), In (sanitize wide k s) reserved <-> In s special.
Proof.
  intros wide k s. split; [|apply special_reserved]. intros H. destruct (in_dec text_eq_dec s special) as [?|N]; [assumption|].
  exfalso. rewrite not_special in H by assumption. pose proof reserved_underscore as R. rewrite Forall_forall in R. exact (R _ H (kind_underscore _ _)).
Qed.
Print Assumptions C55_reserved.

Example C55_reserved_example : sanitize ascii_wide KFunction (str "&&") = str "and" /\ sanitize ascii_wide KMacro (str "output") = str "msg" /\
  sanitize ascii_wide KVariable (str "msg") = str "var_msg".
Proof. repeat split. Qed.

(** The fixed translations are applied to symbols of every kind: two variables get the same name, and a variable gets that of a function. *)
Theorem C55_remapped_refuted : forall (wide : text -> bool),
  exists p p' : path, legal_path p /\ legal_path p' /\ p <> p' /\
    sanitize wide KVariable (path_text p) = sanitize wide KVariable (path_text p') /\
    sanitize wide KVariable (path_text p) = sanitize wide KFunction (path_text p).
Proof.
  intros wide. exists (sym "empty"), (mkPath [] o_slash). unfold legal_path, symbol.
  split; [split; [constructor|right; cbn; intuition discriminate]|].
  split; [split; [constructor|right; cbn; intuition discriminate]|]. repeat split; discriminate.
Qed.
Print Assumptions C55_remapped_refuted.

(** ** C77 *)

(** For ASCII symbols without a fixed translation: exactly when the name is a simple symbol of SMT-LIB. *)
Theorem C77_smt_symbol_partial : forall (wide : text -> bool) (k : skd) (s : text), ascii_only s -> wide s = true -> ~ In s special ->
  (Forall smt_char (sanitize wide k s) <->
   alphanumeric s \/ forall i c, nth_error s i = Some c -> i mod 3 = 2 -> c <> ">"%char /\ c <> "~"%char).
Proof.
  intros wide k s Ha Hw Hs. rewrite not_special by assumption. rewrite Forall_app.
  assert (Hk : Forall smt_char (kind_text k)).
  { apply Forall_forall. intros c Hc. apply smt_charb_spec. destruct k; cbn in Hc; repeat (destruct Hc as [<-|Hc]; [reflexivity|]); contradiction. }
  assert (A : alnum wide s = true <-> alphanumeric s).
  { unfold alnum, alphanumeric. rewrite Hw, andb_true_r, forallb_forall, Forall_forall. unfold ascii_only in Ha. rewrite Forall_forall in Ha.
    split; intros H c Hc; specialize (H c Hc); specialize (Ha c Hc); unfold ascii_alnum, in_range, byte in *;
      rewrite ?orb_true_iff, ?andb_true_iff, ?Nat.leb_le in *; lia. }
  destruct (alnum wide s) eqn:E.
  - split; [intros _; left; apply A; reflexivity|]. intros _. split; [assumption|]. pose proof (proj1 A eq_refl) as H.
    unfold alphanumeric in H. eapply Forall_impl; [|exact H]. intros c Hc. left. exact Hc.
  - assert (N : ~ alphanumeric s) by (intros H; apply A in H; discriminate). rewrite Forall_app, base64_smt by assumption. split.
    + intros [_ [_ H]]. right. exact H.
    + intros [H|H]; [contradiction|]. split; [assumption|]. split; [|exact H].
      apply Forall_forall. intros c Hc. apply smt_charb_spec. cbn in Hc. repeat (destruct Hc as [<-|Hc]; [reflexivity|]); contradiction.
Qed.
Print Assumptions C77_smt_symbol_partial.

(** Some are not, as [#] is a digit of the encoding. *)
Theorem C77_smt_symbol_refuted : forall (wide : text -> bool) (k : skd),
  let s := str "-->" in symbol s /\ ascii_only s /\ ~ In s special /\ In "#"%char (sanitize wide k s) /\ ~ smt_char "#"%char.
Proof.
  intros wide k s. assert (Hs : ~ In s special) by (rewrite special_keys; apply look_none; reflexivity).
  split; [right; cbn; intuition discriminate|]. split; [repeat constructor; cbn; lia|]. split; [exact Hs|]. split; [|intros H; apply smt_charb_spec in H; discriminate].
  rewrite not_special by exact Hs. apply in_or_app. right. assert (alnum wide s = false) as -> by reflexivity. cbn. tauto.
Qed.
Print Assumptions C77_smt_symbol_refuted.

Example C77_smt_symbol_example : sanitize ascii_wide KFunction (str "-->") = str "fun__base64_LS0#" /\ ascii_wide (str "-->") = true /\
  sanitize ascii_wide KFunction (str "++") = str "fun__base64_Kys".
Proof. repeat split. Qed.

(** ** C56 *)

(** [depends] is the strict prefix order of control flows. *)
Theorem C56_depends : forall (A : Type) (eqb : A -> A -> bool), (forall x y, eqb x y = true <-> x = y) -> forall a b : list (item A),
  (depends eqb a b = Some true <-> strict_prefix a b) /\ (depends eqb a b = Some false <-> strict_prefix b a).
Proof. intros A eqb H a b. apply depends_spec. assumption. Qed.
Print Assumptions C56_depends.

Theorem C56_strict_order : forall (A : Type) (eqb : A -> A -> bool), (forall x y, eqb x y = true <-> x = y) -> forall a b c : list (item A),
  depends eqb a a = None /\ (depends eqb a b = Some true <-> depends eqb b a = Some false) /\
  (depends eqb a b = Some true -> depends eqb b c = Some true -> depends eqb a c = Some true).
Proof.
  intros A eqb H a b c. split; [|split].
  - destruct (depends_spec eqb H a a) as [D1 D2]. destruct (depends eqb a a) as [[]|]; [|exfalso|reflexivity].
    + exfalso. pose proof (prefix_length _ _ (proj1 D1 eq_refl)). lia.
    + pose proof (prefix_length _ _ (proj1 D2 eq_refl)). lia.
  - rewrite (proj1 (depends_spec eqb H a b)), (proj2 (depends_spec eqb H b a)). reflexivity.
  - rewrite (proj1 (depends_spec eqb H a b)), (proj1 (depends_spec eqb H b c)), (proj1 (depends_spec eqb H a c)).
    intros (x & r & ->) (y & s & ->). exists x, (r ++ y :: s). rewrite <- app_assoc. reflexivity.
Qed.
Print Assumptions C56_strict_order.

(** A dependency lemma: the instances it orders are executions of which the first begins the second, and it orders all of them. *)
Theorem C56_lt : forall (V : Type) (some : V) (wide : text -> bool) (csort : nat -> option text) (n : nat) (a b : action) (o : order), proper a -> proper b ->
  pair_lemma wide csort n a b = OOk (Some o) -> o_kind o = OLt ->
  exists x y, ((x = a /\ y = b) \/ (x = b /\ y = a)) /\ fst (o_t1 o) = step_text wide x /\ fst (o_t2 o) = step_text wide y /\ closed_order o /\
    says o (fun va vb : list V => List.length va = List.length (a_indices x) /\ List.length vb = List.length (a_indices y) /\
                         strict_prefix (run_action (a_action x) va) (run_action (a_action y) vb)) /\
    (Forall index_name (map j_name (a_indices y)) -> forall va vb : list V, List.length va = List.length (a_indices x) -> List.length vb = List.length (a_indices y) ->
       strict_prefix (run_action (a_action x) va) (run_action (a_action y) vb) -> reaches o va vb).
Proof.
  intros V some wide csort n a b o Ha Hb H K. unfold pair_lemma in H. pose proof (depends_lemma_spec wide csort a b) as D.
  destruct (depends_lemma wide csort a b) as [[o'|]| | |]; try discriminate H.
  2:{ pose proof (mutex_lemma_spec wide csort n a b) as M. rewrite H in M. destruct M as (i & others & _ & _ & K' & _). congruence. }
  injection H as ->. destruct D as (x & y & Hxy & Hp & _ & H1 & H2 & H3). exists x, y.
  assert (proper x /\ proper y) as [Px Py] by (destruct Hxy as [[-> ->]|[-> ->]]; auto).
  destruct (proper_prefix x y Px Py Hp) as [w Hw]. rewrite H1, H2. repeat (split; [auto; fail|]).
  split; [eapply closed_lt; [exists w; exact Hw|exact H1|exact H2|exact H3]|]. split.
  - intros v. rewrite H1, H2. cbn [snd]. rewrite !map_length. repeat (split; [reflexivity|]).
    apply (run_prefix _ _ _ _ (map v (map (var_text wide) w))); [assumption|rewrite !map_length; apply proper_size; assumption|].
    rewrite Hw, !map_app. reflexivity.
  - intros Hn va vb La Lb S. rewrite (proper_size _ Px) in La. rewrite (proper_size _ Py) in Lb.
    pose proof (prefix_values _ _ _ _ Hp La Lb S) as E. unfold reaches. rewrite H1, H2. cbn [snd].
    destruct (assign some (map (var_text wide) (a_indices y)) vb) as [v Hv].
    { apply var_text_nodup; [apply Py|]. rewrite Forall_map in Hn. eapply Forall_impl; [|exact Hn]. intros u Hu. apply Hu. }
    { rewrite map_length, (proper_size _ Py). assumption. }
    exists v. split; [|assumption]. rewrite E, <- Hv, Hw, !map_app. rewrite <- (proper_size _ Px).
    rewrite firstn_app_le by (rewrite !map_length; lia). rewrite firstn_all2; [reflexivity|rewrite !map_length; lia].
Qed.
Print Assumptions C56_lt.

(** A mutual exclusion lemma: the instances it separates diverge at a choice, and it separates all those that diverge by the number of the branch. *)
Theorem C56_mutex_partial : forall (V : Type) (some : V) (wide : text -> bool) (csort : nat -> option text) (n : nat) (a b : action) (o : order), proper a -> proper b ->
  pair_lemma wide csort n a b = OOk (Some o) -> o_kind o = OIncompatible ->
  fst (o_t1 o) = step_text wide a /\ fst (o_t2 o) = step_text wide b /\ closed_order o /\
  says o (fun va vb : list V => List.length va = List.length (a_indices a) /\ List.length vb = List.length (a_indices b) /\
                       diverge (run_action (a_action a) va) (run_action (a_action b) vb)) /\
  (Forall index_name (map j_name (a_indices a)) -> Forall index_name (map j_name (a_indices b)) ->
   forall va vb : list V, List.length va = List.length (a_indices a) -> List.length vb = List.length (a_indices b) ->
     diverge_number (run_action (a_action a) va) (run_action (a_action b) vb) -> reaches o va vb).
Proof.
  intros V some wide csort n a b o Ha Hb H K. unfold pair_lemma in H. pose proof (depends_lemma_spec wide csort a b) as D.
  destruct (depends_lemma wide csort a b) as [[o'|]| | |]; try discriminate H.
  1:{ injection H as ->. destruct D as (x & y & _ & _ & K' & _). congruence. }
  pose proof (mutex_lemma_spec wide csort n a b) as M. rewrite H in M. destruct M as (i & others & C & R & _ & L1 & L2 & H1 & H2 & H3).
  rewrite H1, H2. split; [reflexivity|]. split; [reflexivity|]. split.
  { intros z Hz. rewrite (typed_args_fst _ _ _ _ H3). rewrite H1, H2 in Hz. cbn in Hz. rewrite map_app in Hz |- *. rewrite in_app_iff in Hz |- *.
    destruct Hz as [?|[Hz|?]]; [auto| |auto]. left. rewrite <- (firstn_skipn i (a_indices a)), map_app. apply in_or_app. left. assumption. }
  assert (Len : List.length others = List.length (a_indices b) - i).
  { rewrite <- skipn_length. clear -R. revert R. generalize (map j_name (a_indices a)) (skipn i (a_indices b)). intros names l. revert names others.
    induction l as [|v l IH]; intros names others; cbn; [intros [= <-]; reflexivity|]. destruct (rename_one _ _ _); try discriminate.
    destruct (rename _ _ _) eqn:E; try discriminate. intros [= <-]. cbn. f_equal. eapply IH. eassumption. }
  split.
  - intros v. rewrite H1, H2. cbn [snd]. rewrite !map_length, app_length, firstn_length, Len. split; [reflexivity|]. split; [lia|].
    rewrite !map_app. rewrite <- (firstn_skipn i (a_indices a)) at 1. rewrite !map_app.
    destruct (commun_sound (a_action a) (a_action b) i (map v (map (var_text wide) (firstn i (a_indices a)))) (map v (map (var_text wide) (skipn i (a_indices a))))
                (map v (map (var_text wide) others)) C ltac:(rewrite !map_length, firstn_length; lia)) as [(p & x & y & r & s & G1 & G2 & G3 & G4) _].
    exists p, x, y, r, s. repeat split; auto. congruence.
  - intros Na Nb va vb La Lb Dv. rewrite (proper_size _ Ha) in La. rewrite (proper_size _ Hb) in Lb.
    destruct (commun_complete _ _ _ _ La Lb Dv) as (i' & C' & F). assert (i' = i) by congruence. subst i'. clear C'.
    destruct (rename_ok (skipn i (a_indices b)) (map j_name (a_indices a))) as (r & R1 & R2 & R3 & R4 & R5 & _).
    { rewrite <- skipn_map. apply Forall_forall. intros x Hx. rewrite Forall_forall in Nb. destruct (Nb x) as [[?|?] [? ?]]; [|contradiction|assumption].
      rewrite <- (firstn_skipn i (map j_name (a_indices b))). apply in_or_app. right. assumption. }
    assert (r = others) as ->.
    { pose proof (rename_mono (n + S (List.length (map j_name (a_indices a)) + List.length (skipn i (a_indices b)))) n _ _ _ R ltac:(lia)) as R'.
      rewrite R1 in R' by lia. congruence. }
    assert (NoDup (map (var_text wide) (a_indices a ++ others))) as ND.
    { apply var_text_nodup.
      - rewrite map_app. apply NoDup_app_intro; [apply Ha|assumption|]. intros x Hx Hx'. exact (R5 x Hx' Hx).
      - apply Forall_app. rewrite Forall_map in Na, Nb. split; [eapply Forall_impl; [|exact Na]; intros u Hu; apply Hu|].
        assert (Nb' : Forall (fun v => index_name (j_name v)) (skipn i (a_indices b))).
        { rewrite Forall_forall in Nb |- *. intros u Hu. apply Nb. rewrite <- (firstn_skipn i (a_indices b)). apply in_or_app. right. assumption. }
        clear -R2 Nb'. induction R2 as [|u w l r [_ [k E]] _ IH]; [constructor|]. inversion Nb' as [|? ? N1 N2]; subst. constructor; [|apply IH; assumption].
        rewrite E. apply us_special. apply N1. }
    destruct (assign some _ (va ++ skipn i vb) ND) as [v Hv].
    { rewrite map_length, !app_length, skipn_length, (proper_size _ Ha), Len, (proper_size _ Hb). lia. }
    unfold reaches. rewrite H1, H2. cbn [snd]. exists v. rewrite !map_app in Hv. apply app_inv_len in Hv; [|rewrite !map_length, La; symmetry; apply proper_size; assumption].
    destruct Hv as [V1 V2]. split; [assumption|]. rewrite !map_app, V2. rewrite <- (firstn_skipn i vb) at 2. f_equal.
    rewrite <- F, <- V1, !firstn_map. reflexivity.
Qed.
Print Assumptions C56_mutex_partial.

(** No lemma: neither control flow begins the other, and no instances diverge by the number of a branch. *)
Theorem C56_none : forall (V : Type) (wide : text -> bool) (csort : nat -> option text) (n : nat) (a b : action), proper a -> proper b ->
  pair_lemma wide csort n a b = OOk None ->
  ~ strict_prefix (a_action a) (a_action b) /\ ~ strict_prefix (a_action b) (a_action a) /\
  forall va vb : list V, List.length va = List.length (a_indices a) -> List.length vb = List.length (a_indices b) ->
    ~ diverge_number (run_action (a_action a) va) (run_action (a_action b) vb).
Proof.
  intros V wide csort n a b Ha Hb H. unfold pair_lemma in H. pose proof (depends_lemma_spec wide csort a b) as D.
  destruct (depends_lemma wide csort a b) as [[o'|]| | |]; try discriminate H. destruct D as [D1 D2]. split; [assumption|]. split; [assumption|].
  pose proof (mutex_lemma_spec wide csort n a b) as M. rewrite H in M. intros va vb La Lb Dv.
  rewrite (proper_size _ Ha) in La. rewrite (proper_size _ Hb) in Lb. destruct (commun_complete _ _ _ _ La Lb Dv) as (i & C & _). congruence.
Qed.
Print Assumptions C56_none.

(** Nothing panics, and no error is raised when the sorts of the indices can be converted. *)
Theorem C56_total : forall (wide : text -> bool) (csort : nat -> option text) (a b : action), proper a -> proper b ->
  Forall index_name (map j_name (a_indices a)) -> Forall index_name (map j_name (a_indices b)) ->
  (forall v, In v (a_indices a) \/ In v (a_indices b) -> csort (j_sort v) <> None) ->
  exists n r, forall m, n <= m -> pair_lemma wide csort m a b = OOk r.
Proof.
  intros wide csort a b Ha Hb Na Nb Hs.
  exists (S (List.length (map j_name (a_indices a)) + List.length (a_indices b))). unfold pair_lemma.
  pose proof (depends_lemma_spec wide csort a b) as D. destruct (depends_lemma wide csort a b) as [[o'|]| | |]; try contradiction.
  - eexists. intros m _. reflexivity.
  - unfold mutex_lemma. destruct (mutex_commun_vars _ _) as [i|] eqn:E; [|exists None; reflexivity].
    destruct (commun_sound (a_action a) (a_action b) i (repeat 0 i) [] [] E (repeat_length _ _)) as (_ & L1 & L2).
    rewrite <- (proper_size _ Ha) in L1. rewrite <- (proper_size _ Hb) in L2.
    assert (N : action_eqb a b = false).
    { destruct (action_eqb a b) eqn:F; [|reflexivity]. apply action_eqb_shape in F. rewrite F in E. exfalso. exact (commun_irrefl _ _ E). }
    rewrite N. cbn [andb]. rewrite (proj2 (Nat.ltb_ge _ _) L1), (proj2 (Nat.ltb_ge _ _) L2). cbn [orb].
    destruct (rename_ok (skipn i (a_indices b)) (map j_name (a_indices a))) as (r & R1 & R2 & _).
    { rewrite <- skipn_map. apply Forall_forall. intros x Hx. rewrite Forall_forall in Nb. destruct (Nb x) as [[?|?] [? ?]]; [|contradiction|assumption].
      rewrite <- (firstn_skipn i (map j_name (a_indices b))). apply in_or_app. right. assumption. }
    assert (T : typed_args wide csort (a_indices a ++ r) <> None).
    { apply typed_args_total. intros v Hv. apply in_app_or in Hv. destruct Hv as [Hv|Hv]; [auto|].
      assert (exists u, In u (skipn i (a_indices b)) /\ j_sort v = j_sort u) as (u & Hu & Eu).
      { clear -R2 Hv. induction R2 as [|u w l r [E _] _ IH]; [contradiction|]. destruct Hv as [<-|Hv]; [exists u; split; [left; reflexivity|assumption]|].
        destruct (IH Hv) as (u' & ? & ?). exists u'. split; [right; assumption|assumption]. }
      rewrite Eu. apply Hs. right. rewrite <- (firstn_skipn i (a_indices b)). apply in_or_app. right. assumption. }
    destruct (typed_args wide csort (a_indices a ++ r)) as [args|] eqn:Ta; [|contradiction]. eexists. intros m Hm.
    rewrite R1 by (rewrite skipn_length; lia). rewrite Ta. reflexivity.
  - exfalso. destruct D as (x & y & Hxy & Hp & D). assert (proper x /\ proper y) as [Px Py] by (destruct Hxy as [[-> ->]|[-> ->]]; auto).
    destruct D as [D|D].
    + destruct (proper_prefix x y Px Py Hp) as [w Hw]. rewrite Hw, app_length in D. lia.
    + apply typed_args_total in D; [assumption|]. intros v Hv. apply Hs. destruct Hxy as [[-> ->]|[-> ->]]; auto.
Qed.
Print Assumptions C56_total.

(** The lemmas of a list of actions are those of its pairs of actions other than [init]. *)
Theorem C56_pairs : forall (wide : text -> bool) (csort : nat -> option text) (n : nat) (l : list action) (r : list order),
  order_lemmas wide csort n l = OOk r ->
  (forall o, In o r <-> exists a b, before a b (filter (fun a => negb (is_init a)) l) /\ pair_lemma wide csort n a b = OOk (Some o)) /\
  (forall a b, before a b (filter (fun a => negb (is_init a)) l) -> exists x, pair_lemma wide csort n a b = OOk x).
Proof.
  intros wide csort n l r H. unfold order_lemmas in H. destruct (collect_spec _ _ H) as [C1 C2]. split.
  - intros o. rewrite C1. rewrite in_map_iff. split.
    + intros ([a b] & E & Hab). exists a, b. split; [apply combinations_before; assumption|exact E].
    + intros (a & b & Hab & E). exists (a, b). split; [exact E|apply combinations_before; assumption].
  - intros a b Hab. apply (C2 (pair_lemma wide csort n a b)). apply in_map_iff. exists (a, b). split; [reflexivity|apply combinations_before; assumption].
Qed.
Print Assumptions C56_pairs.

Definition jv (s : string) : jvar := mkJVar (str s) 0.
Definition act (name : string) (l : list (item (list jvar))) : action := mkAction (sym name) l (flat_map item_vars l) 0.
Definition to_index (s : nat) : option text := Some (str "index").
(** [!_i (A(i). if _ then B1(i) else find j, k such that _ in B2(i, j, k))]. *)
Definition exA := act "A" [mkItem (0, [jv "i"]) (0, [])].
Definition exB1 := act "B1" [mkItem (0, [jv "i"]) (0, []); mkItem (0, []) (0, [])].
Definition exB2 := act "B2" [mkItem (0, [jv "i"]) (0, []); mkItem (0, []) (1, [jv "j"; jv "k"])].
Definition exC := act "C" [mkItem (0, [jv "i"]) (0, []); mkItem (0, []) (2, [jv "k"])].
Lemma example_proper : Forall proper [exA; exB1; exB2; exC] /\ Forall (fun a => Forall index_name (map j_name (a_indices a))) [exA; exB1; exB2; exC].
Proof.
  assert (Q : forall s, (existsb forbidden s || if in_dec text_eq_dec s special then true else false) = false -> index_name s).
  { intros s H. apply orb_false_iff in H as [H1 H2]. destruct (in_dec text_eq_dec s special); [discriminate|]. split; [|split; [|assumption]].
    - right. repeat split; intros Hc; assert (existsb forbidden s = true) by (apply existsb_exists; eexists; split; [exact Hc|reflexivity]); congruence.
    - intros ->. discriminate H1. }
  split; [repeat (apply Forall_cons; [split; [reflexivity|cbn; repeat (apply NoDup_cons; [cbn; intuition discriminate|]); apply NoDup_nil]|]); apply Forall_nil|]. repeat (apply Forall_cons; [apply Forall_forall; intros x Hx; apply Q; cbn in Hx; repeat (destruct Hx as [<-|Hx]; [reflexivity|]); contradiction|]). apply Forall_nil.
Qed.
Definition ix (s : string) : text * text := (str s, str "index").
Example C56_example : order_lemmas ascii_wide to_index 5 [exA; exB1; exB2; exC; act "init" []] =
  OOk [mkOrder [ix "var_i"] OLt (str "step_A", [str "var_i"]) (str "step_B1", [str "var_i"]);
       mkOrder [ix "var_i"; ix "var_j"; ix "var_k"] OLt (str "step_A", [str "var_i"]) (str "step_B2", [str "var_i"; str "var_j"; str "var_k"]);
       mkOrder [ix "var_i"; ix "var_k"] OLt (str "step_A", [str "var_i"]) (str "step_C", [str "var_i"; str "var_k"]);
       mkOrder [ix "var_i"; ix "var_j"; ix "var_k"] OIncompatible (str "step_B1", [str "var_i"]) (str "step_B2", [str "var_i"; str "var_j"; str "var_k"]);
       mkOrder [ix "var_i"; ix "var_k"] OIncompatible (str "step_B1", [str "var_i"]) (str "step_C", [str "var_i"; str "var_k"]);
       mkOrder [ix "var_i"; ix "var_j"; ix "var_k"; ix "var__base64_a191"] OIncompatible
         (str "step_B2", [str "var_i"; str "var_j"; str "var_k"]) (str "step_C", [str "var_i"; str "var__base64_a191"])].
Proof. vm_compute. reflexivity. Qed.

(** Instances that diverge by the index chosen in a branch are exclusive, and no lemma says so. *)
Theorem C56_index_choice_refuted : exists (a b : action) (va vb : list nat), proper a /\ proper b /\
  List.length va = List.length (a_indices a) /\ List.length vb = List.length (a_indices b) /\
  diverge (run_action (a_action a) va) (run_action (a_action b) vb) /\
  forall wide csort n, pair_lemma wide csort n a b = OOk None.
Proof.
  exists (act "A" [mkItem (0, []) (0, [jv "i"]); mkItem (0, []) (0, [])]), (act "B" [mkItem (0, []) (0, [jv "i"]); mkItem (1, []) (0, [])]), [1], [2].
  split; [split; [reflexivity|repeat constructor; intros []]|]. split; [split; [reflexivity|repeat constructor; intros []]|].
  split; [reflexivity|]. split; [reflexivity|]. split; [|intros; reflexivity].
  exists [], (mkItem (0, []) (0, [1])), (mkItem (0, []) (0, [2])), [mkItem (0, []) (0, [])], [mkItem (1, []) (0, [])]. repeat split. discriminate.
Qed.
Print Assumptions C56_index_choice_refuted.

(** Control flows are compared with the names of their indices: when they are named apart, no lemma orders the instances. *)
Theorem C56_named_apart_refuted : exists (a b : action) (va vb : list nat), proper a /\ proper b /\
  List.length va = List.length (a_indices a) /\ List.length vb = List.length (a_indices b) /\
  strict_prefix (run_action (a_action a) va) (run_action (a_action b) vb) /\
  forall wide csort n, pair_lemma wide csort n a b = OOk None.
Proof.
  exists (act "A" [mkItem (0, [jv "i"]) (0, [])]), (act "B" [mkItem (0, [jv "j"]) (0, []); mkItem (0, []) (0, [])]), [1], [1].
  split; [split; [reflexivity|repeat constructor; intros []]|]. split; [split; [reflexivity|repeat constructor; intros []]|].
  split; [reflexivity|]. split; [reflexivity|]. split; [|intros; reflexivity].
  exists (mkItem (0, []) (0, [])), []. reflexivity.
Qed.
Print Assumptions C56_named_apart_refuted.

(** ** C57 *)

(** The renaming ends; each index keeps its sort, the new names are distinct and differ from the given ones, and nothing is renamed without need. *)
Theorem C57_fresh_partial : forall (l : list jvar) (names : list text), Forall (fun v => symbol (j_name v) /\ j_name v <> str "$dummy") l ->
  exists n r, forall m, n <= m -> rename m names l = OOk r /\ map j_sort r = map j_sort l /\
    NoDup (map j_name r) /\ (forall x, In x (map j_name r) -> ~ In x names) /\ (forall v, In v r -> symbol (j_name v)) /\
    (NoDup (map j_name l) -> (forall x, In x (map j_name l) -> ~ In x names) -> r = l).
Proof.
  intros l names H. destruct (rename_ok l names) as (r & R1 & R2 & R3 & R4 & R5 & R6).
  { rewrite Forall_map. eapply Forall_impl; [|exact H]. intros v [[?|?] ?]; [contradiction|assumption]. }
  exists (S (List.length names + List.length l)), r. intros m Hm. split; [apply R1; lia|].
  split; [clear -R2; induction R2 as [|u w ? ? [E _] _ IH]; cbn; [reflexivity|rewrite E, IH; reflexivity]|].
  split; [assumption|]. split; [assumption|]. split; [|assumption]. intros v Hv. right. rewrite Forall_map, Forall_forall in R3. exact (R3 v Hv).
Qed.
Print Assumptions C57_fresh_partial.

(** The names bound by a mutual exclusion lemma are distinct. *)
Theorem C57_lemma_partial : forall (wide : text -> bool) (csort : nat -> option text) (n : nat) (a b : action) (o : order), proper a -> proper b ->
  Forall index_name (map j_name (a_indices a)) -> Forall index_name (map j_name (a_indices b)) ->
  mutex_lemma wide csort n a b = OOk (Some o) -> NoDup (map fst (o_args o)).
Proof.
  intros wide csort n a b o Ha Hb Na Nb H. pose proof (mutex_lemma_spec wide csort n a b) as M. rewrite H in M.
  destruct M as (i & others & _ & R & _ & _ & _ & _ & _ & T). rewrite (typed_args_fst _ _ _ _ T).
  destruct (rename_ok (skipn i (a_indices b)) (map j_name (a_indices a))) as (r & R1 & R2 & _ & R4 & R5 & _).
  { rewrite <- skipn_map. apply Forall_forall. intros x Hx. rewrite Forall_forall in Nb. destruct (Nb x) as [[?|?] [? ?]]; [|contradiction|assumption].
    rewrite <- (firstn_skipn i (map j_name (a_indices b))). apply in_or_app. right. assumption. }
  assert (r = others) as ->.
  { pose proof (rename_mono (n + S (List.length (map j_name (a_indices a)) + List.length (skipn i (a_indices b)))) n _ _ _ R ltac:(lia)) as R'.
    rewrite R1 in R' by lia. congruence. }
  apply var_text_nodup.
  - rewrite map_app. apply NoDup_app_intro; [apply Ha|assumption|]. intros x Hx Hx'. exact (R5 x Hx' Hx).
  - apply Forall_app. rewrite Forall_map in Na, Nb. split; [eapply Forall_impl; [|exact Na]; intros u Hu; apply Hu|].
    assert (Nb' : Forall (fun v => index_name (j_name v)) (skipn i (a_indices b))).
    { rewrite Forall_forall in Nb |- *. intros u Hu. apply Nb. rewrite <- (firstn_skipn i (a_indices b)). apply in_or_app. right. assumption. }
    clear -R2 Nb'. induction R2 as [|u w l r [_ [k E]] _ IH]; [constructor|]. inversion Nb' as [|? ? N1 N2]; subst. constructor; [|apply IH; assumption].
    rewrite E. apply us_special. apply N1.
Qed.
Print Assumptions C57_lemma_partial.

Example C57_example : rename 4 (map str ["i"; "i_u"; "j"]%string) [jv "i"; jv "k"; jv "j"] = OOk [jv "i_u_u"; jv "k"; jv "j_u"] /\
  mutex_lemma ascii_wide to_index 4 (act "A" [mkItem (0, []) (0, [jv "i"])]) (act "B" [mkItem (0, []) (1, [jv "i"])]) =
  OOk (Some (mkOrder [(str "var_i", str "index"); (str "var__base64_aV91", str "index")] OIncompatible (str "step_A", [str "var_i"]) (str "step_B", [str "var__base64_aV91"]))).
Proof. split; vm_compute; reflexivity. Qed.

(** An index called [$dummy], which is a legal symbol, cannot be renamed: the new name is rejected. *)
Theorem C57_dummy_refuted : symbol (str "$dummy") /\ forall n s names l, 0 < n -> In (str "$dummy") names -> rename n names (mkJVar (str "$dummy") s :: l) = OPanic.
Proof.
  split; [left; reflexivity|]. intros [|n] s names l Hn H; [lia|]. cbn [rename rename_one j_name].
  rewrite (proj2 (existsb_teqb _ _) H). reflexivity.
Qed.
Print Assumptions C57_dummy_refuted.

(** ** C58 *)

(** The problem number [k] that is run is written under all the numbers up to its own. *)
Theorem C58_location_partial : forall (P : Type) (run : option (list text) -> P -> bool) (d : list text) (l : list P) (r : list (P * option (list text))) (ok : bool),
  run_from_json run (Some d) l = (r, ok) ->
  (forall k p loc, nth_error r k = Some (p, loc) -> nth_error l k = Some p /\ loc = Some (d ++ map dec (seq 0 (S k)))) /\
  (ok = true <-> forall k p, nth_error l k = Some p -> run (Some (d ++ map dec (seq 0 (S k)))) p = true) /\
  (ok = true -> List.length r = List.length l).
Proof.
  intros P run d l. unfold run_from_json.
  enough (G : forall i d r ok, run_all run i (Some d) l = (r, ok) ->
    (forall k p loc, nth_error r k = Some (p, loc) -> nth_error l k = Some p /\ loc = Some (d ++ map dec (seq i (S k)))) /\
    (ok = true <-> forall k p, nth_error l k = Some p -> run (Some (d ++ map dec (seq i (S k)))) p = true) /\ (ok = true -> List.length r = List.length l))
    by (intros r ok; apply G).
  clear d. induction l as [|p l IH]; intros i d r ok; cbn [run_all].
  - intros [= <- <-]. split; [intros [|k] ? ? H; discriminate H|]. split; [split; [intros _ [|k] ? H; discriminate H|reflexivity]|reflexivity].
  - cbn [option_map]. destruct (run (Some (d ++ [dec i])) p) eqn:E.
    + destruct (run_all run (S i) (Some (d ++ [dec i])) l) as [r' ok'] eqn:E'. intros [= <- <-]. destruct (IH _ _ _ _ E') as (I1 & I2 & I3).
      assert (S1 : forall k, d ++ map dec (seq i (S (S k))) = (d ++ [dec i]) ++ map dec (seq (S i) (S k))) by (intros k; rewrite <- app_assoc; reflexivity).
      split; [|split].
      * intros [|k] q loc H; [cbn in H; injection H as <- <-; split; reflexivity|]. rewrite S1. apply I1. exact H.
      * rewrite I2. split.
        -- intros H [|k] q Hq; [cbn in Hq; injection Hq as <-; exact E|]. rewrite S1. apply H. exact Hq.
        -- intros H k q Hq. rewrite <- S1. apply H. exact Hq.
      * intros H. cbn. rewrite I3 by assumption. reflexivity.
    + intros [= <- <-]. split; [|split; [|discriminate]].
      * intros [|[|k]] q loc H; [cbn in H; injection H as <- <-; split; reflexivity|discriminate H|discriminate H].
      * split; [discriminate|]. intros H. rewrite <- E. apply (H 0 p). reflexivity.
Qed.
Print Assumptions C58_location_partial.

(** Different problems have different locations; without a location to write to there is still none. *)
Theorem C58_distinct : forall (P : Type) (run : option (list text) -> P -> bool) (loc : option (list text)) (l : list P) (k k' : nat) (p p' : P) (d d' : list text),
  nth_error (fst (run_from_json run loc l)) k = Some (p, Some d) -> nth_error (fst (run_from_json run loc l)) k' = Some (p', Some d') ->
  loc <> None /\ (d = d' -> k = k').
Proof.
  intros P run [loc|] l k k' p p' d d' H H'.
  - destruct (run_from_json run (Some loc) l) as [r ok] eqn:E. destruct (C58_location_partial P run loc l r ok E) as (L & _).
    destruct (L _ _ _ H) as [_ L1]. destruct (L _ _ _ H') as [_ L2]. assert (d = loc ++ map dec (seq 0 (S k))) as -> by congruence. assert (d' = loc ++ map dec (seq 0 (S k'))) as -> by congruence. split; [discriminate|].
    intros F. apply app_inv_head in F. apply (f_equal (@List.length text)) in F. rewrite !map_length, !seq_length in F. lia.
  - exfalso. revert k H. unfold run_from_json. generalize 0. clear H'. induction l as [|q l IH]; intros i k H; [destruct k; discriminate H|].
    cbn in H. destruct (run None q).
    + specialize (IH (S i)). destruct (run_all run (S i) None l) as [r ok]. destruct k as [|k]; [discriminate H|]. exact (IH k H).
    + destruct k as [|[|k]]; discriminate H.
Qed.
Print Assumptions C58_distinct.

(** The second problem is never written to the location numbered 1. *)
Theorem C58_location_refuted : forall (P : Type) (run : option (list text) -> P -> bool) (d : list text) (p q : P) (l : list P) (loc : option (list text)),
  nth_error (fst (run_from_json run (Some d) (p :: q :: l))) 1 = Some (q, loc) -> loc <> Some (d ++ [dec 1]) /\ loc = Some (d ++ [str "0"; str "1"]).
Proof.
  intros P run d p q l loc H. destruct (run_from_json run (Some d) (p :: q :: l)) as [r ok] eqn:E.
  destruct (C58_location_partial P run d _ r ok E) as (L & _). destruct (L _ _ _ H) as [_ ->].
  change (map dec (seq 0 2)) with [str "0"; str "1"]. split; [|reflexivity]. intros [= F]. apply app_inv_head in F. discriminate F.
Qed.
Print Assumptions C58_location_refuted.

Example C58_example : run_from_json (fun _ _ => true) (Some [str "out"]) [1; 2; 3] =
  ([(1, Some (map str ["out"; "0"]%string)); (2, Some (map str ["out"; "0"; "1"]%string)); (3, Some (map str ["out"; "0"; "1"; "2"]%string))], true) /\
  run_from_json (fun _ p => Nat.eqb p 1) None [1; 2; 3] = ([(1, None); (2, None)], false).
Proof. split; vm_compute; reflexivity. Qed.
