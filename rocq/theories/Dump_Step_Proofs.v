(** Proofs about the meaning of converted queries and steps (C106). *)
From Coq Require Import List Arith Bool String Ascii Lia Permutation Sorted.
From Verif Require Import Syntax_Model Traversal_Spec Semantics_Spec Semantics_Proofs Sort_Model Parser_Model Parser_Infix_Model Parser_Spec Parser_Proofs Source_Model Source_Spec Source_Problem_Spec
  Smt_Model Squirrel_Model Squirrel_Spec Squirrel_Proofs Utils_Model Utils_Spec Convert_Model Convert_Spec Convert_Proofs Meaning_Spec Meaning_Proofs Meaning_Props
  Dump_Model Dump_Spec Dump_Source_Model Dump_Meaning_Spec Dump_Meaning_Proofs.
Import ListNotations.
Local Open Scope list_scope.

(** ** Converted terms have no lets *)
Section Lets.
  Context (wide : text -> bool) (csort : nat -> option text) (names operators : path -> option jfun) (macros : path -> option jmacro).
  Context (env : penv) (code : text -> name).
  Notation conv := (convert wide csort names operators macros).
  Notation ML := (message_lets env code).

  Lemma special_lets f l y k a : Convert_Model.special f l = OOk y -> aget y k = Some a -> (forall b, In b l -> ML b) -> ML a.
  Proof.
    unfold Convert_Model.special. intros E H L. destruct (text_eqb f (str "if")).
    - destruct l as [|c [|u [|v [|? ?]]]]; try discriminate E. injection E as <-. injection H as <-. constructor; apply L; cbn; auto.
    - destruct (get_operation _) as [o|]; injection E as <-; injection H as <-; constructor; exact L.
  Qed.
  Lemma list_lets (R : jterm -> Prop) l m sh k : (forall u x b, R u -> conv sh u = OOk x -> aget x k = Some b -> ML b) -> (forall u, In u l -> R u) ->
    Forall2 (fun t b => exists z, conv sh t = OOk z /\ aget z k = Some b) l m -> forall b, In b m -> ML b.
  Proof.
    intros H HR F. induction F as [|u b l m (z & Ez & Hz) F IH]; intros c I; [destruct I|]. destruct I as [<-|I].
    - eapply H; eauto. apply HR. left. reflexivity.
    - apply IH; auto. intros u' I'. apply HR. right. exact I'.
  Qed.
  Lemma converted_lets t : diff_free t -> forall sh k x a, conv sh t = OOk x -> aget x k = Some a -> ML a.
  Proof.
    induction t as [t IH] using sub_ind'. intros DF sh k x a Ex Ha.
    assert (IHs : forall c u, In c (parts t) -> sub u c -> forall x a, conv sh u = OOk x -> aget x k = Some a -> ML a).
    { intros c u Hc Hu y b. apply (IH c u Hc Hu). intros l Sl. apply (DF l). eapply sub_trans; [exact Sl|]. eapply sub_trans; [exact Hu|]. apply sub_part. exact Hc. }
    clear IH.
    assert (IHl : forall l m, (forall u, In u l -> exists c, In c (parts t) /\ sub u c) ->
              Forall2 (fun t b => exists z, conv sh t = OOk z /\ aget z k = Some b) l m -> forall b, In b m -> ML b).
    { intros l m Hl F. eapply (list_lets (fun u => exists c, In c (parts t) /\ sub u c)); [|exact Hl|exact F]. intros u y b (c & Hc & Hu). eapply IHs; eauto. }
    destruct t as [f args|p|p args|p args ts|p args|v|x1 d b|l|i b|l|vars c s f|q vars b].
    - destruct f as [|p| | | | | | | | | |]; try discriminate Ex. rewrite conv_app in Ex.
      destruct (args_get _ _ _ _ _ _ Ex Ha) as (m & y & F & Es & Hy). eapply special_lets; [exact Es|exact Hy|]. eapply IHl; [|exact F].
      intros u Iu. destruct (takes_tuple (operators p)).
      + destruct args as [|[ | | | | | | |es| | | | ] args]; cbn [sel] in Iu; try (exists u; split; [right; exact Iu|constructor]; fail); try (destruct Iu; fail).
        exists (JTuple es). split; [right; left; reflexivity|apply sub_part; exact Iu].
      + assert (sel false args = args) as Esel by (destruct args as [|[] ?]; reflexivity). rewrite Esel in Iu. exists u. split; [right; exact Iu|constructor].
    - cbn [convert] in Ex. destruct (operators p) as [g|]; [|discriminate]. cbn in Ex. destruct (f_args g); [|discriminate]. injection Ex as <-. injection Ha as <-.
      constructor. intros b [].
    - rewrite conv_name in Ex. destruct (args_get _ _ _ _ _ _ Ex Ha) as (m & y & F & Es & Hy). eapply special_lets; [exact Es|exact Hy|]. eapply IHl; [|exact F].
      intros u Iu. destruct (takes_tuple (names p)).
      + destruct args as [|[ | | | | | | |es| | | | ] args]; cbn [sel] in Iu; try (exists u; split; [exact Iu|constructor]; fail); try (destruct Iu; fail).
        exists (JTuple es). split; [left; reflexivity|apply sub_part; exact Iu].
      + assert (sel false args = args) as Esel by (destruct args as [|[] ?]; reflexivity). rewrite Esel in Iu. exists u. split; [exact Iu|constructor].
    - rewrite conv_macro in Ex. destruct (macros p) as [mm|] eqn:Em; [|discriminate].
      destruct (args_get _ _ _ _ _ _ Ex Ha) as (m & y & F & Es & Hy). injection Es as <-. injection Hy as <-.
      assert (A : forall b, In b m -> ML b).
      { intros b Ib. assert (Q : forall u, In u (macro_args mm args ts) -> (exists c, In c (parts (JMacro p args ts)) /\ sub u c) \/ exists v, u = JVar v).
        { intros u Iu. destruct mm as [| | |ins]; cbn [macro_args] in Iu.
          - destruct Iu as [<-|[]]. left. exists ts. split; [left; reflexivity|constructor].
          - apply in_app_iff in Iu as [Iu|[<-|[]]]; left; [exists u; split; [right; exact Iu|constructor]|exists ts; split; [left; reflexivity|constructor]].
          - apply in_app_iff in Iu as [Iu|[<-|[]]]; left; [exists u; split; [right; exact Iu|constructor]|exists ts; split; [left; reflexivity|constructor]].
          - apply in_app_iff in Iu as [Iu|Iu]; [left; exists u; split; [right; exact Iu|constructor]|]. apply in_app_iff in Iu as [Iu|[<-|[]]].
            + right. apply in_map_iff in Iu as (v & <- & _). eauto.
            + left. exists ts; split; [left; reflexivity|constructor]. }
        eapply (list_lets (fun u => (exists c, In c (parts (JMacro p args ts)) /\ sub u c) \/ exists v, u = JVar v)); [|exact Q|exact F|exact Ib].
        intros u y b' [(c & Hc & Hu)|(v & ->)] Ey Hb; [eapply IHs; eauto|]. injection Ey as <-. injection Hb as <-. constructor. }
      destruct mm; cbn [macro_app]; constructor; exact A.
    - cbn [convert] in Ex. destruct (args_get _ _ _ _ _ _ Ex Ha) as (m & y & F & Es & Hy). injection Es as <-. injection Hy as <-.
      constructor. eapply IHl; [|exact F]. intros u Iu. exists u. split; [exact Iu|constructor].
    - injection Ex as <-. injection Ha as <-. constructor.
    - discriminate Ex.
    - rewrite conv_tuple in Ex. destruct (tfold_get _ _ _ _ _ _ Ex Ha) as (e1 & m & He & F & ->). injection He as <-.
      assert (A : forall b, In b m -> ML b) by (eapply IHl; [|exact F]; intros u Iu; exists u; split; [exact Iu|constructor]).
      assert (B : ML (AApp n_empty [])) by (constructor; intros b []). clear - A B. revert B. generalize (AApp n_empty []). induction m as [|b m IH]; intros e B; [exact B|]. cbn [fold_left].
      apply IH; [intros c I; apply A; right; exact I|]. constructor. intros c [<-|[<-|[]]]; [apply A; left; reflexivity|exact B].
    - cbn [convert] in Ex. destruct (rbind_get _ _ _ _ _ Ex Ha) as (s1 & u & y & E1 & Hu & Ey & Hy). injection Ey as <-. injection Hy as <-.
      destruct (iter_snd_get _ _ _ _ _ E1 Hu) as (s2 & u2 & E2 & Hu2 & ->). constructor. intros c [<-|[]].
      assert (B : ML u2) by (eapply (IHs b b); eauto; [left; reflexivity|constructor]). clear - B. induction (i - 1) as [|j IH]; [exact B|]. cbn [Nat.iter nat_rect]. constructor. intros c [<-|[]]. exact IH.
    - exfalso. apply (DF l). constructor.
    - cbn [convert] in Ex. destruct (rbind_get _ _ _ _ _ Ex Ha) as (sc & c' & y1 & Ec & Hc & E1 & H1).
      destruct (rbind_get _ _ _ _ _ E1 H1) as (ss & s' & y2 & Es & Hs & E2 & H2).
      destruct (rbind_get _ _ _ _ _ E2 H2) as (sf & f' & y3 & Ef & Hf & E3 & H3).
      destruct (rbind_get _ _ _ _ _ E3 H3) as (sv & vs & y4 & Ev & Hv & E4 & H4). injection E4 as <-. injection H4 as <-.
      constructor; [eapply (IHs c c)|eapply (IHs s s)|eapply (IHs f f)]; eauto; try constructor; cbn; apply in_app_iff; cbn; auto.
    - cbn [convert] in Ex.
      assert (Q : exists k0, rbind (conv sh b) (fun b' => rbind (binding wide csort vars) (fun vs => rpure (AQuant k0 vs b'))) = OOk x) by (destruct q; try discriminate Ex; eauto).
      destruct Q as (k0 & Er). destruct (rbind_get _ _ _ _ _ Er Ha) as (sb & b' & y1 & Eb & Hb & E1 & H1).
      destruct (rbind_get _ _ _ _ _ E1 H1) as (sv & vs & y2 & Ev & Hv & E2 & H2). injection E2 as <-. injection H2 as <-.
      constructor. eapply (IHs b b); eauto; [|constructor]. cbn. apply in_app_iff. cbn. auto.
  Qed.
End Lets.

Lemma nodup_parts {A} (l l' : list A) : NoDup (l ++ l') -> NoDup l /\ NoDup l' /\ forall a, In a l -> ~ In a l'.
Proof.
  induction l as [|b l IH]; cbn; intros H; [split; [constructor|]; split; [exact H|intros a []]|]. inversion H as [|? ? N1 N2]; subst. destruct (IH N2) as (A1 & A2 & A3).
  rewrite in_app_iff in N1. split; [constructor; tauto|]. split; [exact A2|]. intros a [<-|I]; [tauto|auto].
Qed.
Lemma choose {A B} (P : nat -> A -> B -> Prop) l : forall k, (forall j a, nth_error l j = Some a -> exists b, P (k + j) a b) ->
  exists m, List.length m = List.length l /\ forall j a b, nth_error l j = Some a -> nth_error m j = Some b -> P (k + j) a b.
Proof.
  induction l as [|a l IH]; intros k H.
  - exists []. split; [reflexivity|]. intros [|j] ? ? Hj; discriminate.
  - destruct (H 0 a eq_refl) as (b & Hb). destruct (IH (Datatypes.S k)) as (m & Lm & Hm).
    { intros j a' Hj. destruct (H (Datatypes.S j) a' Hj) as (b' & Hb'). exists b'. rewrite Nat.add_succ_r in Hb'. exact Hb'. }
    exists (b :: m). split; [cbn; congruence|]. intros [|j] a' b' Ha Hb'; cbn [nth_error] in Ha, Hb'.
    + injection Ha as <-. injection Hb' as <-. exact Hb.
    + rewrite Nat.add_succ_r. apply (Hm j a' b' Ha Hb').
Qed.
Lemma F2_nth {A B} (R : A -> B -> Prop) l m : Forall2 R l m -> forall j b, nth_error m j = Some b -> exists a, nth_error l j = Some a /\ R a b.
Proof. induction 1 as [|a b l m H F IH]; intros [|j] b' Hb; try discriminate; cbn in *; [injection Hb as <-; eauto|eauto]. Qed.
Lemma F2_nth' {A B} (R : A -> B -> Prop) l m : Forall2 R l m -> forall j a, nth_error l j = Some a -> exists b, nth_error m j = Some b /\ R a b.
Proof. induction 1 as [|a b l m H F IH]; intros [|j] b' Hb; try discriminate; cbn in *; [injection Hb as <-; eauto|eauto]. Qed.
Lemma F2_in {A B} (R : A -> B -> Prop) l m : Forall2 R l m -> forall a, In a l -> exists b, In b m /\ R a b.
Proof. induction 1 as [|a b l m H F IH]; intros a' []; [subst; exists b; cbn; auto|]. destruct (IH a' H0) as (b' & ? & ?). exists b'. cbn. auto. Qed.
Lemma F2_in' {A B} (R : A -> B -> Prop) l m : Forall2 R l m -> forall b, In b m -> exists a, In a l /\ R a b.
Proof. induction 1 as [|a b l m H F IH]; intros b' []; [subst; exists a; cbn; auto|]. destruct (IH b' H0) as (a' & ? & ?). exists a'. cbn. auto. Qed.
Lemma F2_from {A B} (R : A -> B -> Prop) l : forall m, List.length l = List.length m -> (forall j a b, nth_error l j = Some a -> nth_error m j = Some b -> R a b) -> Forall2 R l m.
Proof.
  induction l as [|a l IH]; intros [|b m] L H; try discriminate; constructor; [apply (H 0); reflexivity|]. apply IH; [cbn in L; congruence|]. intros j a' b'. apply (H (Datatypes.S j)).
Qed.
Lemma F2_len {A B} (R : A -> B -> Prop) l m : Forall2 R l m -> List.length l = List.length m.
Proof. induction 1; cbn; congruence. Qed.
Lemma F2_rev {A B} (R : A -> B -> Prop) l m : Forall2 R l m -> Forall2 R (rev l) (rev m).
Proof. induction 1 as [|a b l m H F IH]; cbn; [constructor|]. apply Forall2_app; [exact IH|repeat constructor; exact H]. Qed.
(** ** Names in scope *)
Lemma bind_out {M : structure} l : forall (sc : scope M) ds x, ~ In x (map fst l) -> bind_names sc l ds x = sc x.
Proof.
  induction l as [|[y s] l IH]; intros sc [|d ds] x N; try reflexivity. cbn [bind_names]. rewrite IH by (intros I; apply N; right; exact I).
  unfold bind_name. destruct (Nat.eq_dec x y) as [->|_]; [destruct N; left; reflexivity|reflexivity].
Qed.
Lemma bind_at {M : structure} l : forall (sc : scope M) ds k x s d, NoDup (map fst l) -> nth_error l k = Some (x, s) -> nth_error ds k = Some d -> bind_names sc l ds x = Some (s, d).
Proof.
  induction l as [|[y s0] l IH]; intros sc ds k x s d N Hl Hd; [destruct k; discriminate|]. destruct ds as [|d0 ds]; [destruct k; discriminate|]. inversion N as [|? ? N1 N2]; subst.
  destruct k as [|k]; cbn [nth_error] in Hl, Hd; cbn [bind_names].
  - injection Hl as -> ->. injection Hd as ->. rewrite bind_out by exact N1. unfold bind_name. destruct (Nat.eq_dec x x); [reflexivity|congruence].
  - eapply IH; eauto.
Qed.
Lemma variable_in wide y : sanitize wide KVariable y <> str "in".
Proof.
  destruct (in_dec text_eq_dec y Squirrel_Spec.special) as [I|N].
  - apply (special_reserved wide KVariable) in I. intros E. rewrite E in I. cbv in I. intuition discriminate.
  - rewrite (not_special wide KVariable y N). discriminate.
Qed.

(** The parameters of a step and its input have distinct names. *)
Lemma step_nodup wide table d names operators macros systems s code (Inj : forall a b : text, code a = code b :> name -> a = b) x t :
  proper_step wide table d names operators macros systems s x t -> (exists vs, step_inputs d x vs) -> code (str "in") = 5 ->
  NoDup (map (fun v => code (sanitize wide KVariable (j_name v))) (a_indices (x_action x)) ++ [5]).
Proof.
  intros [_ _ _ P4 _ _] (vs & Hvs) Hin. destruct (P4 vs Hvs) as (N & Apart). rewrite map_app in N. apply nodup_parts in N as (N1 & _ & _).
  apply (Permutation_NoDup (l := 5 :: map (fun v => code (sanitize wide KVariable (j_name v))) (a_indices (x_action x)))); [apply Permutation_cons_append|]. constructor.
  - intros I. apply in_map_iff in I as (v & E & _). rewrite <- Hin in E. apply Inj in E. exact (variable_in wide _ E).
  - assert (A : forall v w, In v (a_indices (x_action x)) -> In w (a_indices (x_action x)) -> code (sanitize wide KVariable (j_name v)) = code (sanitize wide KVariable (j_name w)) -> j_name v = j_name w).
    { intros v w Iv Iw E. apply Inj in E. apply Apart; [left|left|exact E]; rewrite map_app; apply in_app_iff; left; apply in_map; assumption. }
    clear - N1 A. induction (a_indices (x_action x)) as [|v l IH]; cbn in *; [constructor|]. inversion N1 as [|? ? A1 A2]; subst. constructor.
    + intros I. apply in_map_iff in I as (w & E & Iw). apply A1. rewrite <- (A w v); [apply in_map; exact Iw|right; exact Iw|left; reflexivity|exact E].
    + apply IH; [exact A2|]. intros; apply A; auto.
Qed.

Section Steps.
  Context (wide : text -> bool) (table : nat -> jsort) (d : dump) (csort : nat -> option text) (names operators : path -> option jfun) (macros : path -> option jmacro).
  Context (i : nat) (systems : list text) (s : text).
  Hypothesis Hsorted : StronglySorted lex systems.
  Hypothesis Hi : nth_error systems i = Some s.
  Hypothesis Hsort : forall n t, csort n = Some t <-> sort_name wide d (table n) t.
  Hypothesis Hmac : forall p m, macros p = Some m <-> exists a, last_entry (d_macros d) p a /\
       m = match a with DProtocol => MProtocol | DStructured => MStructured | DState _ _ _ => MState | DGlobal ins _ _ _ => MGlobal ins end.
  Notation conv := (convert wide csort names operators macros).
  Notation san := (sanitize wide KVariable).
  Definition term_of (t : jterm) (b : aterm) : Prop := exists y, conv (Any tt) t = OOk y /\ aget y i = Some b.

  Context {M : structure} (env : penv) (qsem : qkind -> list sort -> (list (D M) -> list (D M)) -> D M)
    (mval : callee -> realm -> list (D M) -> list (D M) -> D M) (code : text -> name).
  Hypothesis Inj : forall a b, code a = code b -> a = b.
  Hypothesis Ext : extensional M qsem.
  Notation T := (reading env qsem mval code).
  Context (S : source (D M * D M)).
  Hypothesis AG : agree wide csort names operators macros S T.
  Notation jv := (jvalue (global_inputs macros) S).

  Lemma term_value t b : systems_of systems t -> no_diff_tuple names operators t -> proper_term wide names operators macros (side s t) -> term_of t b ->
    message_lets env code b /\ forall e e', (forall y, variable_of macros (side s t) y -> e' (san y) = e y) -> avalue T e' b = jv e (side s t).
  Proof.
    intros H1 H2 PR (y & Ex & Hb). split.
    - pose proof (conv_good wide csort names operators macros systems Hsorted t (Any tt) (or_introl eq_refl) H1 H2) as G. rewrite Ex in G. destruct G as (_ & G).
      assert (i < List.length systems) as Li by (apply nth_error_Some; congruence). destruct (G i Li) as (a & Ha & Es).
      assert (nth i systems [] = s) as En by (apply nth_error_nth; exact Hi). rewrite En in Es. assert (a = b) as -> by congruence.
      eapply (converted_lets wide csort names operators macros env code (side s t)); [|exact Es|reflexivity].
      + apply (side_free systems); [exact (sys_nodup _ Hsorted)|exact (nth_error_In _ _ Hi)|exact H1].
      Unshelve. exact 0.
    - intros e e' Me. destruct (C88_meaning_partial _ _ _ _ _ _ _ _ _ _ _ S T e e' Hsorted H1 H2 Ex Hi AG PR Me) as (a & Ha & E). congruence.
  Qed.

  Definition positions (c : jaction) : list jvar := flat_map (fun i => snd (i_par i) ++ snd (i_sum i)) (a_action (x_action c)).
  Lemma input_sub c u : sub u (input_term c) -> u = input_term c \/ u = JAction (a_name (x_action c)) (map JVar (positions c)) \/ exists v, In v (positions c) /\ u = JVar v.
  Proof.
    intros H. inversion H as [|t c1 I1 S1]; subst; [auto|]. right. destruct I1 as [<-|[]].
    inversion S1 as [|t c2 I2 S2]; subst; [auto|]. right. cbn [parts] in I2. apply in_map_iff in I2 as (v & <- & Iv). exists v. split; [exact Iv|].
    inversion S2 as [|t c3 I3 S3]; subst; [reflexivity|destruct I3].
  Qed.
  Lemma input_side c : side s (input_term c) = input_term c.
  Proof. unfold input_term. cbn [side map]. rewrite map_map. reflexivity. Qed.
  Lemma input_systems c : systems_of systems (input_term c).
  Proof. intros l H. apply input_sub in H as [H|[H|(v & _ & H)]]; discriminate H. Qed.
  Lemma input_diff c : no_diff_tuple names operators (input_term c).
  Proof. split; intros p l args H; apply input_sub in H as [H|[H|(v & _ & H)]]; discriminate H. Qed.
  Section Input.
  Hypothesis Hinput : macros (mkPath [] (str "input")) = Some MProtocol \/ macros (mkPath [] (str "input")) = Some MStructured.
  Lemma input_variable c y : variable_of macros (input_term c) y -> In y (map j_name (positions c)).
  Proof.
    intros [(v & H & ->)|(p & args & ts & l & H & G & I)].
    - apply input_sub in H as [H|[H|(w & Iw & H)]]; try discriminate H. injection H as ->. apply in_map. exact Iw.
    - apply input_sub in H as [H|[H|(w & Iw & H)]]; try discriminate H. assert (p = mkPath [] (str "input")) as -> by (unfold input_term in H; congruence). unfold global_inputs in G. destruct Hinput as [X|X]; rewrite X in G; discriminate G.
  Qed.
  Lemma input_proper c : (forall x y, In x (map j_name (positions c)) -> In y (map j_name (positions c)) -> san x = san y -> x = y) ->
    proper_term wide names operators macros (side s (input_term c)).
  Proof.
    intros A. rewrite input_side. split.
    - intros p args H. apply input_sub in H as [H|[H|(v & _ & H)]]; discriminate H.
    - intros p args H. apply input_sub in H as [H|[H|(v & _ & H)]]; discriminate H.
    - intros j b H. apply input_sub in H as [H|[H|(v & _ & H)]]; discriminate H.
    - intros p args ts H _. apply input_sub in H as [H|[H|(v & _ & H)]]; try discriminate H. injection H as _ -> _. reflexivity.
    - intros x y Hx Hy. apply A; apply input_variable; assumption.
  Qed.
  Lemma input_shape c b : term_of (input_term c) b -> exists m, b = AApp (str "input") m.
  Proof.
    intros (y & E & Hb). unfold input_term in E. cbn [convert] in E. destruct Hinput as [X|X]; rewrite X in E; cbn [mapR andthen] in E.
    - match type of E with andthen ?o _ = _ => destruct o as [z| | |] end; cbn [andthen] in E; try discriminate E. destruct (applied_get _ _ _ _ _ E Hb) as (m & _ & ->). exists m. reflexivity.
    - match type of E with andthen ?o _ = _ => destruct o as [z| | |] end; cbn [andthen] in E; try discriminate E. destruct (applied_get _ _ _ _ _ E Hb) as (m & _ & ->). exists m. reflexivity.
  Qed.
  End Input.

  (** ** Lets *)
  Definition lets_env (ds : list ((text * text) * aterm)) (e : text -> D M * D M) : text -> D M * D M :=
    fold_left (fun e b => assign [fst (fst b)] [avalue T e (snd b)] e) ds e.
  Lemma lets_value ds : forall e b, avalue T e (lets ds b) = avalue T (lets_env ds e) b.
  Proof. induction ds as [|[x a] ds IH]; intros e b; [reflexivity|]. cbn [lets lets_env fold_left]. cbn [avalue]. rewrite IH. reflexivity. Qed.
  Lemma lets_message ds b : message_lets env code b ->
    (forall x ty a, In (x, ty, a) ds -> sort_named env (code ty) = SMessage /\ exists f fc ss m, a = AApp f m /\ (forall r, denotes env (code f) r = Some fc) /\ fc_kind fc = SgFixed ss SMessage /\
       fc_name fc = None /\ message_lets env code a) -> message_lets env code (lets ds b).
  Proof.
    intros Hb H. induction ds as [|[[x ty] a] ds IH]; [exact Hb|]. cbn [lets]. destruct (H x ty a (or_introl eq_refl)) as (E & f & fc & ss & m & -> & Hd & Hk & Hn & Ma).
    inversion Ma as [|? ? Hm| | | | | |]; subst. eapply ml_let; eauto. apply IH. intros x1 ty1 a1 I1. apply (H x1 ty1 a1). right. exact I1.
  Qed.

  (** The inputs are defined by the lets, the other names are as they were. *)
  Lemma lets_match (U : text -> Prop) (Pos : text -> Prop) (e : text -> D M * D M) (all : list text) :
    (forall y, Pos y -> U y /\ ~ In y all) -> (forall y z, U y -> U z -> san y = san z -> y = z) -> (forall y, In y all -> U y) ->
    forall vs ds, incl (map j_name vs) all ->
      Forall2 (fun v b => fst (fst b) = san (j_name v) /\ forall e', (forall y, Pos y -> e' (san y) = e y) -> avalue T e' (snd b) = e (j_name v)) vs ds ->
      forall e0, (forall y, U y -> ~ In y (map j_name vs) -> e0 (san y) = e y) -> forall y, U y -> lets_env ds e0 (san y) = e y.
  Proof.
    intros HP HU HA vs ds Hin F. induction F as [|v b vs ds (En & Hv) F IH]; intros e0 H0 y Uy; [apply H0; auto|].
    cbn [lets_env fold_left]. apply IH; [intros z Iz; apply Hin; right; exact Iz| |exact Uy]. intros z Uz Nz. cbn [assign]. rewrite En.
    destruct (list_eq_dec ascii_dec (san z) (san (j_name v))) as [E|N].
    - apply HU in E; [|exact Uz|apply HA, Hin; left; reflexivity]. subst z. apply Hv. intros w Pw. destruct (HP w Pw) as [Uw Nw]. apply H0; [exact Uw|].
      intros I. apply Nw, Hin. exact I.
    - apply H0; [exact Uz|]. intros [<-|I]; [apply N; reflexivity|contradiction].
  Qed.

  Lemma nth_names {A B} (f : A -> B) l : NoDup (map f l) -> forall j k a b, nth_error l j = Some a -> nth_error l k = Some b -> f a = f b -> j = k.
  Proof.
    intros N j k a b Hj Hk E. pose proof (map_nth_error f j l Hj) as Ej. pose proof (map_nth_error f k l Hk) as Ek. rewrite E in Ej.
    apply (proj1 (NoDup_nth_error (map f l)) N); [apply nth_error_Some; congruence|congruence].
  Qed.
  (** The number of a name in a list. *)
  Fixpoint find_name (y : text) (l : list jvar) : option nat :=
    match l with [] => None | v :: l' => if list_eq_dec ascii_dec (j_name v) y then Some 0 else option_map Datatypes.S (find_name y l') end.
  Lemma find_none y l : find_name y l = None <-> ~ In y (map j_name l).
  Proof.
    induction l as [|v l IH]; cbn; [tauto|]. destruct (list_eq_dec ascii_dec (j_name v) y) as [E|N].
    - split; [discriminate|]. intros H. destruct H. auto.
    - destruct (find_name y l) eqn:Ef; cbn; split; try discriminate; try tauto.
      + intros H. exfalso. assert (~ (Some n = @None nat)) by discriminate. tauto.
  Qed.
  Lemma find_at l : NoDup (map j_name l) -> forall k v, nth_error l k = Some v -> find_name (j_name v) l = Some k.
  Proof.
    induction l as [|w l IH]; intros N [|k] v H; try discriminate; cbn [find_name].
    - injection H as ->. destruct (list_eq_dec ascii_dec (j_name v) (j_name v)); [reflexivity|congruence].
    - cbn in N. inversion N as [|? ? N1 N2]; subst. destruct (list_eq_dec ascii_dec (j_name w) (j_name v)) as [E|_].
      + destruct N1. rewrite E. apply in_map. eapply nth_error_In; exact H.
      + rewrite (IH N2 k v H). reflexivity.
  Qed.

  Lemma jvalue_input c e e' : global_inputs macros (mkPath [] (str "input")) = None -> (forall v, In v (positions c) -> e (j_name v) = e' (j_name v)) -> jv e (input_term c) = jv e' (input_term c).
  Proof.
    intros G H. unfold input_term. cbn [jvalue map]. rewrite G. f_equal. cbn [jvalue]. f_equal. rewrite !map_map. apply map_ext_in. intros v Iv. cbn [jvalue]. apply H. exact Iv.
  Qed.

  Lemma environment_exists x vs cs params (rho : Semantics_Spec.env M) : NoDup (map j_name (a_indices (x_action x) ++ vs)) ->
    (forall v, In v vs -> global_inputs macros (mkPath [] (str "input")) = None) ->
    (forall j c v, nth_error cs j = Some c -> In v (positions c) -> In v (a_indices (x_action x))) ->
    exists e, environment wide macros env code S x vs cs params rho e.
  Proof.
    intros N G P. rewrite map_app in N. destruct (nodup_parts _ _ N) as (N1 & N2 & N3).
    set (e0 := fun y => match find_name y (a_indices (x_action x)) with
      | Some k => match nth_error params k with Some w => stands (vsort w) (rho (vid w)) | None => constant env code (san y) end
      | None => constant env code (san y) end).
    set (e := fun y => match find_name y (rev vs) with Some j => match nth_error cs j with Some c => jv e0 (input_term c) | None => e0 y end | None => e0 y end).
    assert (Nr : NoDup (map j_name (rev vs))) by (rewrite map_rev; apply NoDup_rev; exact N2).
    assert (R : forall y, In y (map j_name (rev vs)) <-> In y (map j_name vs)) by (intros y; rewrite map_rev, <- in_rev; tauto).
    assert (E0 : forall y, ~ In y (map j_name vs) -> e y = e0 y).
    { intros y Ny. unfold e. rewrite (proj2 (find_none y (rev vs))); [reflexivity|]. rewrite R. exact Ny. }
    exists e. split.
    - intros k v w Hv Hw. rewrite E0; [|intros I; apply (N3 (j_name v)); [apply in_map; eapply nth_error_In; exact Hv|exact I]].
      unfold e0. rewrite (find_at _ N1 k v Hv), Hw. reflexivity.
    - intros j v c Hv Hc. transitivity (jv e0 (input_term c)); [unfold e; rewrite (find_at _ Nr j v Hv), Hc; reflexivity|].
      apply jvalue_input; [apply (G v); apply in_rev; eapply nth_error_In; exact Hv|]. intros w Iw. symmetry. apply E0. intros I. apply (N3 (j_name w)); [|exact I].
      apply in_map. eapply P; eauto.
    - intros y Ny. rewrite map_app, in_app_iff in Ny. rewrite E0 by tauto. unfold e0. rewrite (proj2 (find_none y (a_indices (x_action x)))) by tauto. reflexivity.
  Qed.

  Lemma step_value x t b j st params :
    proper_step wide table d names operators macros systems s x t -> prepared wide table d term_of x t b ->
    map fst (st_args st) = map (fun v => code (san (j_name v))) (a_indices (x_action x)) -> map vsort params = map snd (st_args st) ->
    code (str "in") = 5 -> (forall r, denotes env (code (str "input")) r = Some (mkFc (Fmacro MInput) (SgFixed [SStep] SMessage) None None)) ->
    sort_named env (code (str "Message")) = SMessage ->
    exists vs cs, step_inputs d x vs /\ List.length cs = List.length vs /\
      (forall j c, nth_error cs j = Some c -> last_entry (map (fun x => (a_name (x_action x), x)) (d_actions d)) (a_name (x_action c)) c /\
         a_action (x_action c) = firstn j (a_action (x_action x)) /\ j <= List.length (a_action (x_action x))) /\
      forall rho : Semantics_Spec.env M, (exists e, environment wide macros env code S x vs cs params rho e) /\
        forall e, environment wide macros env code S x vs cs params rho e ->
          Parser_Spec.value env qsem mval (to_term code b) RSymbolic (in_step j st [] (map (fun v => rho (vid v)) params) []) = fst (jv e (side s t)).
  Proof.
    intros [P1 P2 P3 P4 P5 P6] (vs & ds & body & Hvs & Hbody & -> & Fds & Hds) Hn Hs Hin Hinput HMsg.
    destruct (P4 vs Hvs) as (N & Apart).
    destruct (choose (fun j e c => last_entry (map (fun x => (a_name (x_action x), x)) (d_actions d)) (a_name (x_action c)) c /\
          a_action (x_action c) = firstn j (a_action (x_action x)) /\ j <= List.length (a_action (x_action x)) /\ term_of (input_term c) (snd e)) ds 0 Hds) as (cs & Lcs & Hcs).
    assert (Lds : List.length ds = List.length vs) by (rewrite <- (F2_len _ _ _ Fds), rev_length; reflexivity).
    assert (Inp : forall v, In v vs -> macros (mkPath [] (str "input")) = Some MProtocol \/ macros (mkPath [] (str "input")) = Some MStructured).
    { intros v Iv. destruct (P6 vs v Hvs Iv) as (_ & m & Lm & [->| ->]); [left|right]; apply Hmac; eexists; (split; [exact Lm|reflexivity]). }
    assert (Hc : forall j c, nth_error cs j = Some c -> exists e, nth_error ds j = Some e).
    { intros k c Hk. destruct (nth_error ds k) as [e|] eqn:E; [eauto|]. apply nth_error_None in E. assert (k < List.length cs) by (apply nth_error_Some; congruence). lia. }
    assert (Pos : forall j c v, nth_error cs j = Some c -> In v (positions c) -> In v (a_indices (x_action x))).
    { intros k c v Hk Iv. destruct (Hc k c Hk) as (e & He). destruct (Hcs k e c He Hk) as (_ & Ea & _). unfold positions in Iv. rewrite Ea in Iv.
      apply in_flat_map in Iv as (it & Iit & Iv). apply (P5 it v); [|exact Iv]. rewrite <- (firstn_skipn k (a_action (x_action x))). apply in_app_iff. left. exact Iit. }
    exists vs, cs. split; [exact Hvs|]. split; [congruence|]. split.
    { intros k c Hk. destruct (Hc k c Hk) as (e & He). destruct (Hcs k e c He Hk) as (A1 & A2 & A3 & _). auto. }
    intros rho. split.
    { apply environment_exists; [exact N| |exact Pos]. intros v Iv. unfold global_inputs. destruct (Inp v Iv) as [X|X]; rewrite X; reflexivity. }
    intros e [En1 En2 En3].
    destruct (term_value t body P1 P2 P3 Hbody) as (Mb & Vb).
    set (sc := in_step j st [] (map (fun v => rho (vid v)) params) []).
    set (e0 := fun y => by_realm (fun r => Parser_Spec.value env qsem mval (TVar (code y)) r sc)).
    assert (N5 : forall y, code (san y) <> 5) by (intros y E; rewrite <- Hin in E; apply Inj in E; exact (variable_in wide y E)).
    assert (Nst : NoDup (map fst (st_args st ++ [(5, SMessage)]))).
    { rewrite map_app, Hn. cbn [map fst]. eapply step_nodup; [exact Inj|split; eassumption|eauto|exact Hin]. }
    assert (Idx : forall k v, nth_error (a_indices (x_action x)) k = Some v -> e0 (san (j_name v)) = e (j_name v)).
    { intros k v Hk. assert (L : List.length params = List.length (a_indices (x_action x))).
      { transitivity (List.length (st_args st)); [|transitivity (List.length (map fst (st_args st))); [rewrite map_length; reflexivity|rewrite Hn, map_length; reflexivity]].
        transitivity (List.length (map vsort params)); [rewrite map_length; reflexivity|rewrite Hs, map_length; reflexivity]. }
      destruct (nth_error params k) as [w|] eqn:Ew; [|apply nth_error_None in Ew; assert (k < List.length (a_indices (x_action x))) by (apply nth_error_Some; congruence); lia].
      rewrite (En1 k v w Hk Ew). unfold e0, stands. apply by_ext. intros r. cbn [Parser_Spec.value].
      assert (Ea : nth_error (st_args st) k = Some (code (san (j_name v)), vsort w)).
      { pose proof (map_nth_error (fun v => code (san (j_name v))) k _ Hk) as A1. rewrite <- Hn in A1. pose proof (map_nth_error vsort k _ Ew) as A2. rewrite Hs in A2.
        destruct (nth_error (st_args st) k) as [[a1 a2]|] eqn:Es.
        - rewrite (map_nth_error fst k _ Es) in A1. rewrite (map_nth_error snd k _ Es) in A2. cbn in A1, A2. congruence.
        - apply nth_error_None in Es. assert (k < List.length (map fst (st_args st))) by (apply nth_error_Some; congruence). rewrite map_length in *. lia. }
      assert (Sc : sc (code (san (j_name v))) = Some (vsort w, rho (vid w))).
      { unfold sc, in_step. apply (bind_at _ _ _ k); [exact Nst| |].
        - rewrite nth_error_app1; [exact Ea|apply nth_error_Some; congruence].
        - rewrite nth_error_app1; [exact (map_nth_error (fun v => rho (vid v)) k _ Ew)|rewrite map_length; apply nth_error_Some; congruence]. }
      rewrite Sc. reflexivity. }
    set (U := fun y => In y (map j_name (a_indices (x_action x) ++ vs)) \/ variable_of macros (side s t) y).
    assert (Base : forall y, U y -> ~ In y (map j_name vs) -> e0 (san y) = e y).
    { intros y Uy Ny. destruct (in_dec text_eq_dec y (map j_name (a_indices (x_action x)))) as [I|Ni].
      - apply in_map_iff in I as (v & <- & Iv). apply In_nth_error in Iv as (k & Hk). exact (Idx k v Hk).
      - rewrite En3 by (rewrite map_app, in_app_iff; tauto). unfold e0, constant. apply by_ext. intros r. cbn [Parser_Spec.value].
        assert (Sc : sc (code (san y)) = None).
        { unfold sc, in_step. rewrite bind_out; [reflexivity|]. rewrite app_nil_r, map_app, Hn. cbn [map fst]. rewrite in_app_iff. intros [I|[E|[]]]; [|exact (N5 y (eq_sym E))].
          apply in_map_iff in I as (v & E & Iv). apply Inj in E. apply Ni. rewrite <- (Apart (j_name v) y); [apply in_map; exact Iv|left; rewrite map_app; apply in_app_iff; left; apply in_map; exact Iv|exact Uy|exact E]. }
        rewrite Sc. reflexivity. }
    assert (Defs : forall k v b0, nth_error (rev vs) k = Some v -> nth_error ds k = Some b0 -> message_lets env code (snd b0) /\ (exists m, snd b0 = AApp (str "input") m) /\
              forall e', (forall y, In y (map j_name (a_indices (x_action x))) -> e' (san y) = e y) -> avalue T e' (snd b0) = e (j_name v)).
    { intros k v b0 Hv Hb. assert (Iv : In v vs) by (apply in_rev; eapply nth_error_In; exact Hv). pose proof (Inp v Iv) as Hi0.
      destruct (nth_error cs k) as [c|] eqn:Ec; [|apply nth_error_None in Ec; assert (k < List.length ds) by (apply nth_error_Some; congruence); lia].
      destruct (Hcs k b0 c Hb Ec) as (_ & _ & _ & Ht).
      assert (Ip : forall z, In z (map j_name (positions c)) -> In z (map j_name (a_indices (x_action x)))).
      { intros z I. apply in_map_iff in I as (w & <- & Iw). apply in_map. exact (Pos k c w Ec Iw). }
      assert (PR : proper_term wide names operators macros (side s (input_term c))).
      { apply (input_proper Hi0). intros z1 z2 I1 I2. apply Apart; left; rewrite map_app; apply in_app_iff; left; apply Ip; assumption. }
      destruct (term_value (input_term c) (snd b0) (input_systems c) (input_diff c) PR Ht) as (Md & Vd). split; [exact Md|]. split; [exact (input_shape Hi0 c _ Ht)|].
      intros e' He'. rewrite (En2 k v c Hv Ec). rewrite <- (input_side c). apply Vd. intros y Vy. rewrite input_side in Vy. apply He', Ip. exact (input_variable Hi0 c y Vy). }
    assert (MB : message_lets env code (lets (rev ds) body)).
    { apply lets_message; [exact Mb|]. intros y ty a I. apply in_rev in I. apply In_nth_error in I as (k & Hk). destruct (F2_nth _ _ _ Fds k _ Hk) as (v & Hv & (_ & Hty)).
      destruct (Defs k v _ Hv Hk) as (Md & (m & Em) & _). cbn [snd fst] in *. split.
      - assert (Iv : In v vs) by (apply in_rev; eapply nth_error_In; exact Hv). destruct (P6 vs v Hvs Iv) as (Sv & _). apply Hsort in Sv, Hty. assert (ty = str "Message") as -> by congruence. exact HMsg.
      - eexists _, _, _, _. split; [exact Em|]. split; [exact Hinput|]. split; [reflexivity|]. split; [reflexivity|exact Md]. }
    rewrite <- (Vb e (lets_env (rev ds) e0)).
    - rewrite <- lets_value. rewrite (read_value env qsem mval code Inj Ext _ MB e0 sc); [reflexivity|]. intros y. reflexivity.
    - intros y Vy. eapply (lets_match U (fun y => In y (map j_name (a_indices (x_action x)))) e (map j_name vs)) with (vs := vs).
      + intros z Iz. split; [left; rewrite map_app; apply in_app_iff; left; exact Iz|]. rewrite map_app in N. apply nodup_parts in N as (_ & _ & N3). exact (N3 z Iz).
      + exact Apart.
      + intros z Iz. left. rewrite map_app. apply in_app_iff. right. exact Iz.
      + apply incl_refl.
      + rewrite <- (rev_involutive vs). apply F2_rev. apply F2_from; [exact (F2_len _ _ _ Fds)|]. intros k v b0 Hv Hb.
        destruct (F2_nth _ _ _ Fds k _ Hb) as (v' & Hv' & (En & _)). assert (v' = v) as -> by congruence. split; [exact En|]. exact (proj2 (proj2 (Defs k v b0 Hv Hb))).
      + exact Base.
      + right. exact Vy.
  Qed.
End Steps.
