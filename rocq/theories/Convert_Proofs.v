From Coq Require Import List Arith Bool Lia String Ascii Permutation Sorted.
From Verif Require Import Syntax_Model Parser_Infix_Model Smt_Model Squirrel_Model Squirrel_Proofs Utils_Model Utils_Spec Utils_Proofs
  Convert_Model Convert_Spec.
Import ListNotations.
Local Open Scope list_scope.

Section Ind.
  Variable P : jterm -> Prop.
  Hypothesis Happ : forall f args, P f -> Forall P args -> P (JApp f args).
  Hypothesis Hfun : forall p, P (JFun p).
  Hypothesis Hname : forall p args, Forall P args -> P (JName p args).
  Hypothesis Hmacro : forall p args ts, Forall P args -> P ts -> P (JMacro p args ts).
  Hypothesis Haction : forall p args, Forall P args -> P (JAction p args).
  Hypothesis Hvar : forall v, P (JVar v).
  Hypothesis Hlet : forall x d b, P x -> P d -> P b -> P (JLet x d b).
  Hypothesis Htuple : forall l, Forall P l -> P (JTuple l).
  Hypothesis Hproj : forall i b, P b -> P (JProj i b).
  Hypothesis Hdiff : forall l, Forall (fun d => P (snd d)) l -> P (JDiff l).
  Hypothesis Hfind : forall vars c a b, Forall P vars -> P c -> P a -> P b -> P (JFind vars c a b).
  Hypothesis Hquant : forall q vars b, Forall P vars -> P b -> P (JQuant q vars b).
  Fixpoint jterm_ind' (t : jterm) : P t :=
    let all := fix all (l : list jterm) : Forall P l :=
      match l with [] => Forall_nil _ | x :: l' => Forall_cons x (jterm_ind' x) (all l') end in
    match t with
    | JApp f args => Happ f args (jterm_ind' f) (all args)
    | JFun p => Hfun p
    | JName p args => Hname p args (all args)
    | JMacro p args ts => Hmacro p args ts (all args) (jterm_ind' ts)
    | JAction p args => Haction p args (all args)
    | JVar v => Hvar v
    | JLet x d b => Hlet x d b (jterm_ind' x) (jterm_ind' d) (jterm_ind' b)
    | JTuple l => Htuple l (all l)
    | JProj i b => Hproj i b (jterm_ind' b)
    | JDiff l => Hdiff l ((fix alld (l : list (text * jterm)) : Forall (fun d => P (snd d)) l :=
        match l with [] => Forall_nil _ | (k, x) :: l' => Forall_cons (k, x) (jterm_ind' x) (alld l') end) l)
    | JFind vars c a b => Hfind vars c a b (all vars) (jterm_ind' c) (jterm_ind' a) (jterm_ind' b)
    | JQuant q vars b => Hquant q vars b (all vars) (jterm_ind' b)
    end.
End Ind.

(** ** Sorting *)

Lemma byte_inj c d : byte c = byte d -> c = d.
Proof. intros H. rewrite <- (ascii_nat_embedding c), <- (ascii_nat_embedding d). f_equal. exact H. Qed.
Lemma leb_lex a b : text_leb a b = true <-> a = b \/ lex a b.
Proof.
  revert b. induction a as [|c a IH]; intros [|d b]; cbn [text_leb].
  - split; auto.
  - split; auto using lex.
  - split; [discriminate|]. intros [H|H]; [discriminate|inversion H].
  - rewrite orb_true_iff, andb_true_iff, Nat.ltb_lt, Nat.eqb_eq, IH. split.
    + intros [H|(H & [->|L])]; [right; apply lex_head; exact H|left; f_equal; apply byte_inj; exact H|].
      apply byte_inj in H. subst d. right. apply lex_tail. exact L.
    + intros [[= <- <-]|H]; [right; auto|]. inversion H; subst; [left; assumption|right; auto].
Qed.
Lemma lex_total a b : text_leb a b = false -> lex b a.
Proof.
  revert b. induction a as [|c a IH]; intros [|d b]; cbn [text_leb]; intros H; try discriminate; [constructor|].
  apply orb_false_iff in H. destruct H as (H1 & H2). apply Nat.ltb_ge in H1.
  destruct (Nat.eqb (byte c) (byte d)) eqn:E; cbn in H2.
  - apply Nat.eqb_eq, byte_inj in E. subst d. apply lex_tail. auto.
  - apply Nat.eqb_neq in E. apply lex_head. unfold byte in *. lia.
Qed.
Lemma lex_trans a b c : lex a b -> lex b c -> lex a c.
Proof.
  intros H. revert c. induction H; intros k Hk; inversion Hk; subst; try (constructor; lia); try (constructor; fail); auto using lex.
Qed.
Lemma lex_irr a : ~ lex a a.
Proof. induction a as [|c a IH]; intros H; inversion H; subst; [lia|auto]. Qed.

Definition weak a b : Prop := a = b \/ lex a b.
Lemma insert_key_perm {A} (x : text * A) l : Permutation (insert_key x l) (x :: l).
Proof. induction l as [|y l IH]; cbn; [reflexivity|]. destruct (text_leb _ _); [reflexivity|]. rewrite IH. apply perm_swap. Qed.
Lemma sort_keys_perm {A} (l : list (text * A)) : Permutation (sort_keys l) l.
Proof. induction l as [|x l IH]; cbn; [reflexivity|]. rewrite insert_key_perm, IH. reflexivity. Qed.
Lemma insert_key_sorted {A} (x : text * A) l : StronglySorted weak (map fst l) -> StronglySorted weak (map fst (insert_key x l)).
Proof.
  induction l as [|y l IH]; cbn [insert_key map]; intros H; [repeat constructor|].
  inversion H as [|? ? Hs Hf]; subst. destruct (text_leb (fst x) (fst y)) eqn:E.
  - apply leb_lex in E. constructor; [exact H|]. constructor; [exact E|]. rewrite Forall_forall in *. intros z Hz. specialize (Hf z Hz).
    destruct E as [->|E]; [exact Hf|]. destruct Hf as [<-|Hf]; [right; exact E|right; eapply lex_trans; eauto].
  - apply lex_total in E. cbn [map]. constructor; [auto|]. rewrite Forall_forall in *. intros z Hz.
    apply (Permutation_in _ (Permutation_map fst (insert_key_perm x l))) in Hz. cbn in Hz.
    destruct Hz as [<-|Hz]; [right; exact E|auto].
Qed.
Lemma sort_keys_sorted {A} (l : list (text * A)) : StronglySorted weak (map fst (sort_keys l)).
Proof. induction l as [|x l IH]; cbn [sort_keys]; [constructor|]. apply insert_key_sorted. exact IH. Qed.

Lemma sorted_unique l m : Permutation l m -> StronglySorted weak l -> StronglySorted lex m -> l = m.
Proof.
  revert m. induction l as [|a l IH]; intros m Hp Hl Hm.
  - apply Permutation_nil in Hp. congruence.
  - destruct m as [|b m]; [apply Permutation_sym, Permutation_nil in Hp; discriminate|].
    inversion Hl as [|? ? Hl' Fl]; subst. inversion Hm as [|? ? Hm' Fm]; subst.
    assert (a = b) as <-.
    { assert (Hb : In b (a :: l)) by (apply (Permutation_in _ (Permutation_sym Hp)); left; reflexivity).
      assert (Ha : In a (b :: m)) by (apply (Permutation_in _ Hp); left; reflexivity).
      destruct Hb as [E|Hb]; [exact E|]. destruct Ha as [E|Ha]; [auto|]. rewrite Forall_forall in Fl, Fm.
      destruct (Fl b Hb) as [E|L1]; [exact E|]. specialize (Fm a Ha). destruct (lex_irr a). eapply lex_trans; eauto. }
    f_equal. apply IH; auto. eapply Permutation_cons_inv. exact Hp.
Qed.

Lemma sort_keys_map {A B} (g : A -> B) (l : list (text * A)) :
  sort_keys (map (fun d => (fst d, g (snd d))) l) = map (fun d => (fst d, g (snd d))) (sort_keys l).
Proof.
  assert (H : forall x (l : list (text * A)), insert_key (fst x, g (snd x)) (map (fun d => (fst d, g (snd d))) l) =
                     map (fun d => (fst d, g (snd d))) (insert_key x l)).
  { intros x m. induction m as [|y m IH]; cbn; [reflexivity|]. destruct (text_leb (fst x) (fst y)); cbn; [reflexivity|]. rewrite IH. reflexivity. }
  induction l as [|x l IH]; cbn [sort_keys map]; [reflexivity|]. rewrite IH, H. reflexivity.
Qed.

(** ** The monad *)

Section Monad.
  Context (n : nat).
  (** Alternative [i] of [r] is what [r' i] gives. *)
  Definition Good {U} (r : outcome (aoov U)) (r' : nat -> outcome (aoov U)) : Prop :=
    match r with
    | OOk x => covers n x /\ forall i, i < n -> exists a, aget x i = Some a /\ r' i = OOk (Any a)
    | OErr => True
    | _ => False
    end.

  Lemma good_pure {U} (x : U) r' : (forall i, i < n -> r' i = OOk (Any x)) -> Good (rpure x) r'.
  Proof. intros H. split; [exact I|]. intros i Hi. exists x. split; auto. Qed.
  Lemma good_ext {U} (r : outcome (aoov U)) r1 r2 : (forall i, i < n -> r1 i = r2 i) -> Good r r1 -> Good r r2.
  Proof.
    intros H G. destruct r as [x| | |]; cbn in *; auto. destruct G as (Hc & G). split; [exact Hc|]. intros i Hi.
    destruct (G i Hi) as (a & Ha & E). exists a. split; [exact Ha|]. rewrite <- H; auto.
  Qed.

  Lemma mapR_all {A B} (f : A -> outcome B) l :
    (forall a, In a l -> match f a with OOk _ | OErr => True | _ => False end) ->
    match mapR f l with OOk l' => Forall2 (fun a b => f a = OOk b) l l' | OErr => True | _ => False end.
  Proof.
    induction l as [|a l IH]; cbn; intros H; [constructor|].
    pose proof (H a (or_introl eq_refl)) as Ha. destruct (f a) as [b| | |] eqn:E; cbn; auto.
    specialize (IH (fun x Hx => H x (or_intror Hx))). fold (mapR f). destruct (mapR f l); cbn; auto.
  Qed.

  Lemma good_bind {U V} (r : outcome (aoov U)) r' (f : U -> outcome (aoov V)) (f' : U -> nat -> outcome (aoov V)) :
    Good r r' -> (forall u, Good (f u) (f' u)) -> Good (rbind r f) (fun i => rbind (r' i) (fun u => f' u i)).
  Proof.
    intros Hr Hf. unfold rbind at 1. destruct r as [x| | |]; cbn [andthen Good] in *; auto. destruct Hr as (Hc & Hr).
    destruct x as [l|e|j e]; cbn in Hc; [| |destruct Hc].
    - match goal with |- context [mapR ?F ?L] => pose proof (mapR_all F L) as HM; destruct (mapR F L) as [l'| | |] eqn:EL end;
        cbn [andthen Good] in *; auto.
      + assert (HM' : Forall2 (fun (p : nat * U) (b : V) => andthen (f (snd p)) (fun y => lift (owned_get y (fst p))) = OOk b)
                        (combine (seq 0 (List.length l)) l) l').
        { apply HM. intros [i u] Hin. cbn. specialize (Hf u). destruct (f u) as [y| | |]; cbn in *; auto.
          destruct Hf as (Hy & _). apply in_combine_l, in_seq in Hin. destruct (covers_get n y i) as (z & Ez); [exact Hy|lia|].
          unfold owned_get. rewrite Ez. exact I. }
        clear HM. split.
        { cbn. rewrite <- (F2_len _ _ _ HM'), combine_length, seq_length. lia. }
        intros i Hi. destruct (nth_error_in_range l i ltac:(lia)) as (u & Hu).
        destruct (F2_nth _ _ _ HM' i (0 + i, u) (combine_seq_nth l 0 i u Hu)) as (b & Hb & Hb'). cbn [fst snd] in Hb'.
        exists b. split; [exact Hb|]. destruct (Hr i Hi) as (a & Ha & Er). cbn in Ha. rewrite Hu in Ha. injection Ha as <-.
        rewrite Er. unfold rbind. cbn [andthen]. specialize (Hf u). destruct (f u) as [y| | |]; cbn in Hb', Hf; try discriminate.
        destruct Hf as (_ & Hf). destruct (Hf i Hi) as (a & Ha & Ef). unfold owned_get in Hb'. cbn [Nat.add] in Hb'. rewrite Ha in Hb'.
        cbn in Hb'. injection Hb' as <-. rewrite Ef. reflexivity.
      + apply HM. intros [i u] Hin. cbn. specialize (Hf u). destruct (f u) as [y| | |]; cbn in *; auto.
        destruct Hf as (Hy & _). apply in_combine_l, in_seq in Hin. destruct (covers_get n y i) as (z & Ez); [exact Hy|lia|].
        unfold owned_get. rewrite Ez. exact I.
      + apply HM. intros [i u] Hin. cbn. specialize (Hf u). destruct (f u) as [y| | |]; cbn in *; auto.
        destruct Hf as (Hy & _). apply in_combine_l, in_seq in Hin. destruct (covers_get n y i) as (z & Ez); [exact Hy|lia|].
        unfold owned_get. rewrite Ez. exact I.
    - specialize (Hf e). destruct (f e) as [y| | |]; cbn [andthen Good] in *; auto. destruct Hf as (Hy & Hf).
      assert (G : Good (OOk y) (fun i => rbind (r' i) (fun u => f' u i))).
      { split; [exact Hy|]. intros i Hi. destruct (Hf i Hi) as (a & Ha & E). exists a. split; [exact Ha|].
        destruct (Hr i Hi) as (b & Hb & Er). cbn in Hb. injection Hb as <-. rewrite Er. unfold rbind. cbn [andthen]. rewrite E. reflexivity. }
      destruct y; [exact G|exact G|destruct Hy].
  Qed.

  (** Lists. *)
  Definition GoodL {U} (r : outcome (list (aoov U))) (r' : nat -> outcome (list (aoov U))) : Prop :=
    match r with
    | OOk l => Forall (covers n) l /\ forall i, i < n -> exists l', Forall2 (fun x y => aget x i = Some y) l l' /\ r' i = OOk (map Any l')
    | OErr => True
    | _ => False
    end.
  Lemma goodL_ext {U} (r : outcome (list (aoov U))) r1 r2 : (forall i, i < n -> r1 i = r2 i) -> GoodL r r1 -> GoodL r r2.
  Proof.
    intros H G. destruct r as [x| | |]; cbn in *; auto. destruct G as (Hc & G). split; [exact Hc|]. intros i Hi.
    destruct (G i Hi) as (a & Ha & E). exists a. split; [exact Ha|]. rewrite <- H; auto.
  Qed.
  Lemma goodL_nil {U} : GoodL (OOk ([] : list (aoov U))) (fun _ => OOk []).
  Proof. split; [constructor|]. intros i Hi. exists []. split; [constructor|reflexivity]. Qed.
  Lemma goodL_cons {U} (r : outcome (aoov U)) r' s s' : Good r r' -> GoodL s s' ->
    GoodL (andthen r (fun b => andthen s (fun bs => OOk (b :: bs)))) (fun i => andthen (r' i) (fun b => andthen (s' i) (fun bs => OOk (b :: bs)))).
  Proof.
    intros Hr Hs. destruct r as [x| | |]; cbn in *; auto. destruct s as [l| | |]; cbn in *; auto.
    destruct Hr as (Hc & Hr), Hs as (Hcs & Hs). split; [constructor; auto|]. intros i Hi.
    destruct (Hr i Hi) as (a & Ha & E). destruct (Hs i Hi) as (m & Hm & E'). exists (a :: m). split; [constructor; auto|].
    rewrite E. cbn. rewrite E'. reflexivity.
  Qed.
  Lemma goodL_map {A U} (f : A -> outcome (aoov U)) (f' : nat -> A -> outcome (aoov U)) l :
    Forall (fun a => Good (f a) (fun i => f' i a)) l -> GoodL (mapR f l) (fun i => mapR (f' i) l).
  Proof. induction 1 as [|a l Ha _ IH]; [apply goodL_nil|]. apply (goodL_cons (f a) (fun i => f' i a)); assumption. Qed.
  Lemma goodL_app {U} (r : outcome (list (aoov U))) r' s s' : GoodL r r' -> GoodL s s' ->
    GoodL (andthen r (fun l => andthen s (fun m => OOk (l ++ m)))) (fun i => andthen (r' i) (fun l => andthen (s' i) (fun m => OOk (l ++ m)))).
  Proof.
    intros Hr Hs. destruct r as [x| | |]; cbn in *; auto. destruct s as [l| | |]; cbn in *; auto.
    destruct Hr as (Hc & Hr), Hs as (Hcs & Hs). split; [apply Forall_app; auto|]. intros i Hi.
    destruct (Hr i Hi) as (a & Ha & E). destruct (Hs i Hi) as (m & Hm & E'). exists (a ++ m). split; [apply Forall2_app; auto|].
    rewrite E. cbn. rewrite E'. cbn. rewrite map_app. reflexivity.
  Qed.

  Lemma mapO_any {U} (l : list U) k : mapO (fun x => aget x k) (map Any l) = Some l.
  Proof. induction l as [|a l IH]; cbn in *; [reflexivity|]. rewrite IH. reflexivity. Qed.
  Lemma transpose_any {U} (l : list U) : transpose_iter (map Any l) = Some (Any l).
  Proof.
    unfold transpose_iter.
    assert (E : forall m : list U, merge_all (Any tt) (map shape_of (map Any m)) = Some (Any tt)).
    { induction m as [|a m IH]; [reflexivity|exact IH]. }
    rewrite E. unfold owned_get. rewrite mapO_any. reflexivity.
  Qed.

  Lemma good_transposed {U V} (r : outcome (list (aoov U))) r' (f : list U -> outcome (aoov V)) (f' : list U -> nat -> outcome (aoov V)) :
    GoodL r r' -> (forall l, Good (f l) (f' l)) ->
    Good (andthen r (fun l => transposed l f)) (fun i => andthen (r' i) (fun l => transposed l (fun u => f' u i))).
  Proof.
    intros Hr Hf. destruct r as [l| | |]; cbn [andthen GoodL Good] in *; auto. destruct Hr as (Hc & Hr).
    unfold transposed. destruct (transpose_pointwise n l Hc) as (x & Ex & Hx & Hp). rewrite Ex. cbn [lift].
    eapply good_ext; [|apply good_bind with (r' := fun i => andthen (r' i) (fun l => lift (transpose_iter l))); [|exact Hf]].
    - intros i Hi. destruct (Hr i Hi) as (l' & _ & E). rewrite E. reflexivity.
    - split; [exact Hx|]. intros i Hi. destruct (Hr i Hi) as (l' & Hl' & E). destruct (Hp i Hi) as (l2 & El2 & F2).
      exists l2. split; [exact El2|]. rewrite E. cbn [andthen]. rewrite transpose_any. cbn. do 2 f_equal.
      clear - Hl' F2. revert l2 F2. induction Hl' as [|x y m m' Hxy _ IH]; intros l2 F2; inversion F2; subst; [reflexivity|].
      f_equal; [congruence|auto].
  Qed.
End Monad.

(** ** Subterms *)

Lemma sub_trans u v t : sub u v -> sub v t -> sub u t.
Proof. intros H. induction 1; [exact H|]. econstructor; eauto. Qed.
Lemma sub_part c t : In c (parts t) -> sub c t.
Proof. intros H. econstructor; [exact H|constructor]. Qed.

Lemma parts_ind (Q : jterm -> Prop) : (forall t, (forall c, In c (parts t) -> Q c) -> Q t) -> forall t, Q t.
Proof.
  intros H. induction t using jterm_ind'; apply H; cbn [parts]; intros u Hu; repeat rewrite Forall_forall in *;
    cbn [In] in Hu; try rewrite in_app_iff in Hu; cbn [In] in Hu.
  - destruct Hu as [<-|Hu]; auto.
  - destruct Hu.
  - auto.
  - destruct Hu as [<-|Hu]; auto.
  - auto.
  - destruct Hu.
  - destruct Hu as [<-|[<-|[<-|[]]]]; auto.
  - auto.
  - destruct Hu as [<-|[]]; auto.
  - apply in_map_iff in Hu. destruct Hu as (d & <- & Hd). auto.
  - destruct Hu as [Hu|[<-|[<-|[<-|[]]]]]; auto.
  - destruct Hu as [Hu|[<-|[]]]; auto.
Qed.
Lemma sub_ind' (P : jterm -> Prop) : (forall t, (forall c u, In c (parts t) -> sub u c -> P u) -> P t) -> forall t, P t.
Proof.
  intros H t. assert (A : forall u, sub u t -> P u); [|apply A; constructor].
  induction t as [t IH] using parts_ind. intros u Hu. apply H. intros c v Hc Hv.
  assert (Hvt : exists d, In d (parts t) /\ sub v d).
  { inversion Hu as [|? d Hd Hud]; subst.
    - eauto.
    - exists d. split; [exact Hd|]. eapply sub_trans; [|exact Hud]. econstructor; eauto. }
  destruct Hvt as (d & Hd & Hvd). exact (IH d Hd v Hvd).
Qed.

Lemma mapR_map {A B C} (f : B -> outcome C) (g : A -> B) l : mapR f (map g l) = mapR (fun a => f (g a)) l.
Proof. induction l as [|a l IH]; cbn in *; [reflexivity|]. fold (mapR f) in *. fold (mapR (fun a => f (g a))) in *. rewrite IH. reflexivity. Qed.
Lemma mapR_app {A B} (f : A -> outcome B) l m :
  mapR f (l ++ m) = andthen (mapR f l) (fun x => andthen (mapR f m) (fun y => OOk (x ++ y))).
Proof.
  induction l as [|a l IH]; cbn in *; fold (mapR f) in *.
  - destruct (mapR f m); reflexivity.
  - rewrite IH. destruct (f a); cbn; try reflexivity. destruct (mapR f l); cbn; try reflexivity. destruct (mapR f m); reflexivity.
Qed.

Definition tfold (conv : jterm -> outcome (aoov aterm)) :=
  fix fold (acc : aoov aterm) (l : list jterm) :=
    match l with
    | [] => OOk acc
    | t :: l' => andthen (conv t) (fun x => andthen (applied n_pair [x; acc]) (fun acc' => fold acc' l'))
    end.

Definition sel (tk : bool) (args : list jterm) : list jterm :=
  match args with JTuple es :: _ => if tk then es else args | _ => args end.

Lemma takes_one f : takes_tuple f = true <-> one_tuple f.
Proof.
  unfold takes_tuple, one_tuple. destruct f as [g|]; cbn.
  - split.
    + destruct (f_args g) as [|[ts|s] [|? ?]] eqn:E; intros H; try discriminate. exists g, ts. auto.
    + intros (g' & ts & [= <-] & E). rewrite E. reflexivity.
  - split; [discriminate|]. intros (g & ts & H & _). discriminate.
Qed.

Lemma sel_side tk s args : (tk = true -> forall l r, args <> JDiff l :: r) -> sel tk (map (side s) args) = map (side s) (sel tk args).
Proof.
  intros H. destruct args as [|a args]; [reflexivity|]. destruct a; try (destruct tk; reflexivity).
  destruct tk; [exfalso; eapply H; reflexivity|].
  cbn [map sel]. generalize (side s (JDiff l)).
  intros j. destruct j; reflexivity.
Qed.

Section Conversion.
  Context (wide : text -> bool) (csort : nat -> option text)
    (names operators : path -> option jfun) (macros : path -> option jmacro).
  Notation conv := (convert wide csort names operators macros).

  Lemma conv_tuple sh l : conv sh (JTuple l) = tfold (conv sh) (Any (AApp n_empty [])) l.
  Proof. reflexivity. Qed.
  Lemma conv_app sh p args : conv sh (JApp (JFun p) args) =
    andthen (mapR (conv sh) (sel (takes_tuple (operators p)) args)) (fun l => transposed l (special (op_text wide p))).
  Proof. destruct args as [|[] ?]; try reflexivity. cbn [convert sel]. destruct (takes_tuple _); reflexivity. Qed.
  Lemma conv_name sh p args : conv sh (JName p args) =
    andthen (mapR (conv sh) (sel (takes_tuple (names p)) args)) (fun l => transposed l (special (name_text wide p))).
  Proof. destruct args as [|[] ?]; try reflexivity. cbn [convert sel]. destruct (takes_tuple _); reflexivity. Qed.
  Lemma conv_vars sh l : mapR (conv sh) (map JVar l) = OOk (map (fun v => Any (variable wide v)) l).
  Proof. induction l as [|v l IH]; [reflexivity|]. cbn [map mapR]. fold (mapR (conv sh)). rewrite IH. reflexivity. Qed.
  (** The terms a macro is applied to and the result. *)
  Definition macro_args (m : jmacro) (args : list jterm) (ts : jterm) : list jterm :=
    match m with
    | MProtocol => [ts]
    | MStructured | MState => args ++ [ts]
    | MGlobal _ => args ++ map JVar (macro_inputs m) ++ [ts]
    end.
  Definition macro_app (m : jmacro) (f : text) (l : list aterm) : aterm :=
    match m with MGlobal _ => AMacro f l | _ => AApp f l end.
  Lemma conv_macro sh p args ts : conv sh (JMacro p args ts) =
    match macros p with
    | None => OErr
    | Some m => andthen (mapR (conv sh) (macro_args m args ts)) (fun l => transposed l (fun l => rpure (macro_app m (macro_text wide p) l)))
    end.
  Proof.
    cbn [convert]. destruct (macros p) as [[| | |inputs]|]; [| | | |reflexivity]; unfold macro_args.
    - cbn. destruct (conv sh ts); reflexivity.
    - rewrite mapR_app. destruct (mapR (conv sh) args); cbn [andthen]; try reflexivity. cbn. destruct (conv sh ts); reflexivity.
    - rewrite mapR_app. destruct (mapR (conv sh) args); cbn [andthen]; try reflexivity. cbn. destruct (conv sh ts); reflexivity.
    - rewrite !mapR_app, conv_vars. destruct (mapR (conv sh) args); cbn [andthen]; try reflexivity.
      cbn. destruct (conv sh ts); reflexivity.
  Qed.
  Lemma conv_diff sh l : conv sh (JDiff l) =
    rbind (lift (abind (to_aoov sh) (fun _ => Some (All
      (map (fun d => conv (match sh with Any _ => All (List.length l) | _ => sh end) (snd d)) (sort_keys l)))))) (fun r => r).
  Proof.
    cbn [convert].
    match goal with |- context [sort_keys (map ?F l)] => replace (sort_keys (map F l)) with
      (sort_keys (map (fun d => (fst d, conv (match sh with Any _ => All (List.length l) | _ => sh end) (snd d))) l)) end.
    2: { f_equal. apply map_ext. intros [k t]. reflexivity. }
    rewrite sort_keys_map, map_map. reflexivity.
  Qed.

  Lemma special_good n f l : Good n (special f l) (fun _ => special f l).
  Proof.
    unfold special. destruct (text_eqb f _).
    - destruct l as [|a [|b [|c [|? ?]]]]; try exact I. apply good_pure. reflexivity.
    - destruct (get_operation _); apply good_pure; reflexivity.
  Qed.

  Lemma typed_var_any v : typed_var wide csort v = OErr \/ exists s, csort (j_sort v) = Some s /\ typed_var wide csort v = rpure (var_text wide v, s).
  Proof.
    unfold typed_var, convert_sort, convert_type. destruct (csort (j_sort v)) as [s|]; [|left; reflexivity].
    right. exists s. split; reflexivity.
  Qed.
  Lemma binding_any vars : binding wide csort vars = OErr \/
    exists vs ss, vars = map JVar vs /\ map (fun v => csort (j_sort v)) vs = map Some ss /\
      binding wide csort vars = rpure (combine (map (var_text wide) vs) ss).
  Proof.
    unfold binding.
    assert (H : mapR (fun t => match t with JVar v => typed_var wide csort v | _ => OErr end) vars = OErr \/
      exists vs ss, vars = map JVar vs /\ map (fun v => csort (j_sort v)) vs = map Some ss /\
        mapR (fun t => match t with JVar v => typed_var wide csort v | _ => OErr end) vars = OOk (map Any (combine (map (var_text wide) vs) ss))).
    { induction vars as [|t vars IH]; [right; exists [], []; auto|]. cbn [mapR].
      fold (mapR (fun t => match t with JVar v => typed_var wide csort v | _ => OErr end)).
      destruct t; try (left; reflexivity). destruct (typed_var_any v) as [->|(s & Hs & ->)]; [left; reflexivity|].
      destruct IH as [->|(vs & ss & -> & E & ->)]; [left; reflexivity|]. right. exists (v :: vs), (s :: ss).
      split; [reflexivity|]. split; [|reflexivity]. cbn [map]. rewrite Hs, E. reflexivity. }
    destruct H as [->|(vs & ss & -> & E & ->)]; [left; reflexivity|]. right. exists vs, ss. split; [reflexivity|]. split; [exact E|].
    cbn [andthen]. rewrite transpose_any. reflexivity.
  Qed.
  Lemma binding_side s vars x : binding wide csort vars = OOk x -> map (side s) vars = vars.
  Proof.
    intros H. destruct (binding_any vars) as [E|(vs & ss & -> & _)]; [congruence|]. rewrite map_map. reflexivity.
  Qed.
  Lemma binding_good n systems vars :
    Good n (binding wide csort vars) (fun i => binding wide csort (map (side (nth i systems [])) vars)).
  Proof.
    destruct (binding wide csort vars) as [x| | |] eqn:E;
      destruct (binding_any vars) as [E'|(vs & ss & _ & _ & E')]; rewrite E in E'; try discriminate E'; [|exact I].
    injection E' as ->. split; [exact I|]. intros i Hi. eexists. split; [reflexivity|]. rewrite (binding_side _ _ _ E). exact E.
  Qed.

  Context (systems : list text).
  Hypothesis Hsorted : StronglySorted lex systems.
  Notation n := (List.length systems).
  Notation sys i := (nth i systems []).
  Definition okshape (sh : Utils_Model.shape) : Prop := sh = Any tt \/ sh = All n.

  Lemma systems_part t c : systems_of systems t -> In c (parts t) -> systems_of systems c.
  Proof. intros H Hc l Hl. apply H. econstructor; eauto. Qed.
  Lemma nodiff_part t c : no_diff_tuple names operators t -> In c (parts t) -> no_diff_tuple names operators c.
  Proof. intros (H1 & H2) Hc. split; intros p l args Hs; [eapply H1|eapply H2]; econstructor; eauto. Qed.
  Lemma systems_sub t c : systems_of systems t -> sub c t -> systems_of systems c.
  Proof. intros H Hc l Hl. apply H. eapply sub_trans; eauto. Qed.
  Lemma nodiff_sub t c : no_diff_tuple names operators t -> sub c t -> no_diff_tuple names operators c.
  Proof. intros (H1 & H2) Hc. split; intros p l args Hs; [eapply H1|eapply H2]; eapply sub_trans; eauto. Qed.

  Lemma sys_nodup : NoDup systems.
  Proof.
    clear - Hsorted. induction Hsorted as [|a l Hs IH Hf]; constructor; auto.
    intros Hin. rewrite Forall_forall in Hf. exact (lex_irr a (Hf a Hin)).
  Qed.
  Lemma sorted_keys (l : list (text * jterm)) : Permutation (map fst l) systems -> map fst (sort_keys l) = systems.
  Proof.
    intros H. apply sorted_unique; [|apply sort_keys_sorted|exact Hsorted].
    rewrite <- H. apply Permutation_map, sort_keys_perm.
  Qed.
  Lemma side_diff s l t : NoDup (map fst l) -> In (s, t) l -> side s (JDiff l) = side s t.
  Proof.
    intros Hn Hin. cbn [side]. induction l as [|[k u] l IH]; [destruct Hin|]. cbn in Hn. inversion Hn as [|? ? Hk Hn']; subst.
    destruct Hin as [[= -> ->]|Hin].
    - destruct (list_eq_dec ascii_dec s s); congruence.
    - destruct (list_eq_dec ascii_dec k s) as [->|]; [|auto]. destruct Hk. apply (in_map fst) in Hin. exact Hin.
  Qed.

  Lemma to_aoov_all {U} sh (rs : list U) : okshape sh -> List.length rs = n -> abind (to_aoov sh) (fun _ => Some (All rs)) = Some (All rs).
  Proof.
    intros [->| ->] H; [reflexivity|]. cbn [to_aoov abind]. rewrite repeat_length.
    assert (E : mapO (fun p : nat * unit => owned_get (All rs) (fst p)) (combine (seq 0 n) (repeat tt n)) = Some rs).
    { rewrite <- H. clear H. apply mapO_Forall2.
      assert (G : forall (l pre : list U), Forall2 (fun (p : nat * unit) b => owned_get (All (pre ++ l)) (fst p) = Some b)
          (combine (seq (List.length pre) (List.length l)) (repeat tt (List.length l))) l).
      { induction l as [|a l IH]; intros pre; cbn [List.length seq repeat combine]; constructor.
        - cbn. rewrite nth_error_app2, Nat.sub_diag by lia. reflexivity.
        - specialize (IH (pre ++ [a])). rewrite <- app_assoc, app_length in IH. cbn in IH. rewrite Nat.add_1_r in IH. exact IH. }
      exact (G rs []). }
    rewrite E. reflexivity.
  Qed.

  Lemma tfold_good f f' l : Forall (fun t => Good n (f t) (fun i => f' i t)) l -> forall acc acc',
    covers n acc -> (forall i, i < n -> aget acc i = Some (acc' i)) ->
    Good n (tfold f acc l) (fun i => tfold (f' i) (Any (acc' i)) l).
  Proof.
    induction 1 as [|t l Ht _ IH]; intros acc acc' Hc Ha.
    - split; [exact Hc|]. intros i Hi. exists (acc' i). auto.
    - cbn [tfold]. fold (tfold f).
      assert (G : Good n (andthen (f t) (fun x => applied n_pair [x; acc])) (fun i => andthen (f' i t) (fun x => applied n_pair [x; Any (acc' i)]))).
      { pose proof (good_transposed n (andthen (f t) (fun x => OOk [x; acc])) (fun i => andthen (f' i t) (fun x => OOk [x; Any (acc' i)]))
          (fun l => rpure (AApp n_pair l)) (fun l _ => rpure (AApp n_pair l))) as G.
        destruct (f t) as [x| | |] eqn:E; cbn [andthen] in *; try exact Ht. unfold applied.
        eapply good_ext; [|apply G].
        - intros i Hi. cbn beta. destruct (f' i t); reflexivity.
        - cbn in Ht. destruct Ht as (Hx & Ht). split; [repeat constructor; auto|]. intros i Hi.
          destruct (Ht i Hi) as (a & Hxa & Ef). exists [a; acc' i]. split; [repeat constructor; auto|]. rewrite Ef. reflexivity.
        - intros m. apply good_pure. reflexivity. }
      destruct (f t) as [x| | |] eqn:E; cbn [andthen] in *; try exact G.
      destruct (applied n_pair [x; acc]) as [y| | |] eqn:Ey; cbn [andthen] in *; try exact G.
      destruct G as (Hy & G).
      assert (X : exists a0 : nat -> aterm, forall i, i < n -> aget y i = Some (a0 i)).
      { exists (fun i => match aget y i with Some a => a | None => AApp [] [] end). intros i Hi. destruct (G i Hi) as (a & -> & _). reflexivity. }
      destruct X as (a0 & Ha0). eapply good_ext; [|apply (IH y a0 Hy Ha0)].
      intros i Hi. cbn beta. destruct (G i Hi) as (a & Hya & Ef). rewrite Ha0 in Hya by exact Hi. injection Hya as ->.
      change (tfold (f' i) (Any (acc' i)) (t :: l)) with
        (andthen (f' i t) (fun x => andthen (applied n_pair [x; Any (acc' i)]) (fun acc' => tfold (f' i) acc' l))).
      destruct (f' i t) as [z| | |]; cbn [andthen] in *; try discriminate Ef.
      transitivity (andthen (OOk (Any a)) (fun acc => tfold (f' i) acc l)); [reflexivity|]. f_equal. symmetry. exact Ef.
  Qed.

  Lemma tfold_map f g acc l : tfold f acc (map g l) = tfold (fun t => f (g t)) acc l.
  Proof.
    revert acc. induction l as [|t l IH]; intros acc; [reflexivity|]. cbn [tfold map]. fold (tfold f). fold (tfold (fun t => f (g t))).
    destruct (f (g t)); cbn [andthen]; try reflexivity. destruct (applied n_pair [a; acc]); cbn [andthen]; auto.
  Qed.

  Theorem conv_good t : forall sh, okshape sh -> systems_of systems t -> no_diff_tuple names operators t ->
    Good n (conv sh t) (fun i => conv (Any tt) (side (sys i) t)).
  Proof.
    induction t as [t IH] using sub_ind'. intros sh Hsh Hsys Hno.
    assert (IHs : forall c u, In c (parts t) -> sub u c -> Good n (conv sh u) (fun i => conv (Any tt) (side (sys i) u))).
    { intros c u Hc Hu. apply (IH c u Hc Hu sh Hsh).
      - eapply systems_sub; [exact Hsys|]. econstructor; eauto.
      - eapply nodiff_sub; [exact Hno|]. econstructor; eauto. }
    assert (IHp : forall c, In c (parts t) -> Good n (conv sh c) (fun i => conv (Any tt) (side (sys i) c))).
    { intros c Hc. apply (IHs c c Hc). constructor. }
    assert (IHl : forall l, (forall c, In c l -> exists d, In d (parts t) /\ sub c d) ->
      GoodL n (mapR (conv sh) l) (fun i => mapR (conv (Any tt)) (map (side (sys i)) l))).
    { intros l Hl. eapply goodL_ext; [|apply (goodL_map n (conv sh) (fun i a => conv (Any tt) (side (sys i) a)))].
      - intros i Hi. cbn beta. rewrite mapR_map. reflexivity.
      - apply Forall_forall. intros c Hc. destruct (Hl c Hc) as (d & Hd & Hs). exact (IHs d c Hd Hs). }
    assert (Hsel : forall tk args c, (forall a, In a args -> In a (parts t)) -> In c (sel tk args) -> exists d, In d (parts t) /\ sub c d).
    { intros tk args c Ha Hc. assert (D : In c args \/ exists es, In (JTuple es) args /\ In c es).
      { destruct args as [|[] r]; cbn [sel] in Hc; auto. destruct tk; auto. right. exists l. split; [left; reflexivity|exact Hc]. }
      destruct D as [D|(es & D1 & D2)].
      - exists c. split; [auto|constructor].
      - exists (JTuple es). split; [auto|]. apply sub_part. exact D2. }
    destruct t as [f args|p|p args|p args ts|p args|v|x d b|l|id b|l|vars c a b|q vars b].
    - destruct f; try exact I. rewrite conv_app.
      eapply good_ext; [|apply (good_transposed n _ (fun i => mapR (conv (Any tt)) (map (side (sys i)) (sel (takes_tuple (operators p)) args))) _
        (fun l _ => special (op_text wide p) l)); [apply IHl|apply special_good]].
      + intros i Hi. cbn beta. cbn [side]. rewrite conv_app, sel_side; [reflexivity|]. intros Ht l r ->.
        destruct Hno as (Hno & _). apply (Hno p l r); [constructor|]. apply takes_one. exact Ht.
      + intros c Hc. eapply Hsel; [|exact Hc]. cbn. auto.
    - cbn [convert side]. destruct (option_map f_args (operators p)) as [[|? ?]|]; try exact I. apply good_pure. reflexivity.
    - rewrite conv_name.
      eapply good_ext; [|apply (good_transposed n _ (fun i => mapR (conv (Any tt)) (map (side (sys i)) (sel (takes_tuple (names p)) args))) _
        (fun l _ => special (name_text wide p) l)); [apply IHl|apply special_good]].
      + intros i Hi. cbn beta. cbn [side]. rewrite conv_name, sel_side; [reflexivity|]. intros Ht l r ->.
        destruct Hno as (_ & Hno). apply (Hno p l r); [constructor|]. apply takes_one. exact Ht.
      + intros c Hc. eapply Hsel; [|exact Hc]. cbn. auto.
    - rewrite conv_macro. destruct (macros p) as [m|] eqn:Em; [|exact I].
      assert (G : GoodL n (mapR (conv sh) (macro_args m args ts)) (fun i => mapR (conv (Any tt)) (macro_args m (map (side (sys i)) args) (side (sys i) ts)))).
      { assert (Gt : GoodL n (mapR (conv sh) [ts]) (fun i => mapR (conv (Any tt)) [side (sys i) ts])).
        { eapply goodL_ext; [|apply (IHl [ts])]; [reflexivity|]. intros c [<-|[]]. exists ts. split; [left; reflexivity|constructor]. }
        assert (Ga : GoodL n (mapR (conv sh) args) (fun i => mapR (conv (Any tt)) (map (side (sys i)) args))).
        { apply IHl. intros c Hc. exists c. split; [right; exact Hc|constructor]. }
        assert (Gv : forall vs, GoodL n (mapR (conv sh) (map JVar vs)) (fun i => mapR (conv (Any tt)) (map JVar vs))).
        { intros vs. rewrite conv_vars. split; [apply Forall_forall; intros y Hy; apply in_map_iff in Hy; destruct Hy as (v & <- & _); exact I|].
          intros i Hi. exists (map (variable wide) vs). split; [|rewrite conv_vars, map_map; reflexivity].
          clear. induction vs; constructor; auto. }
        destruct m as [| | |inputs]; unfold macro_args.
        - exact Gt.
        - rewrite mapR_app. eapply goodL_ext; [|apply goodL_app; [exact Ga|exact Gt]]. intros i Hi. cbn beta. rewrite mapR_app. reflexivity.
        - rewrite mapR_app. eapply goodL_ext; [|apply goodL_app; [exact Ga|exact Gt]]. intros i Hi. cbn beta. rewrite mapR_app. reflexivity.
        - rewrite mapR_app, (mapR_app _ (map JVar _)).
          eapply goodL_ext; [|apply goodL_app; [exact Ga|apply goodL_app; [apply Gv|exact Gt]]]. intros i Hi. cbn beta. rewrite !mapR_app. reflexivity. }
      eapply good_ext; [|apply (good_transposed n _ _ _ (fun l _ => rpure (macro_app m (macro_text wide p) l)) G)].
      + intros i Hi. cbn beta. cbn [side]. rewrite conv_macro, Em. reflexivity.
      + intros l. apply good_pure. reflexivity.
    - cbn [convert].
      assert (Ga : GoodL n (mapR (conv sh) args) (fun i => mapR (conv (Any tt)) (map (side (sys i)) args))).
      { apply IHl. intros c Hc. exists c. split; [exact Hc|constructor]. }
      eapply good_ext; [|apply (good_transposed n _ _ _ (fun l _ => rpure (AApp (action_text wide p) l)) Ga)].
      + intros i Hi. cbn beta. reflexivity.
      + intros l. apply good_pure. reflexivity.
    - cbn [convert side]. apply good_pure. reflexivity.
    - exact I.
    - rewrite conv_tuple. eapply good_ext; [|apply (tfold_good _ (fun i t => conv (Any tt) (side (sys i) t))) with (acc' := fun _ => AApp n_empty [])].
      + intros i Hi. cbn beta. cbn [side]. rewrite conv_tuple, tfold_map. reflexivity.
      + apply Forall_forall. exact IHp.
      + exact I.
      + reflexivity.
    - cbn [convert side].
      assert (Gb : Good n (conv sh b) (fun i => conv (Any tt) (side (sys i) b))) by (apply IHp; left; reflexivity).
      apply (good_bind n _ (fun i => Nat.iter (id - 1) (fun acc => rbind acc (fun b => rpure (AApp n_snd [b]))) (conv (Any tt) (side (sys i) b)))
               _ (fun u _ => rpure (AApp n_fst [u]))); [|intros u; apply good_pure; reflexivity].
      induction (id - 1) as [|k IHk]; [exact Gb|]. cbn [Nat.iter nat_rect].
      apply (good_bind n _ _ _ (fun b _ => rpure (AApp n_snd [b])) IHk). intros u. apply good_pure. reflexivity.
    - rewrite conv_diff. pose proof (Hsys l (sub_refl _)) as Hp. pose proof (sorted_keys l Hp) as Hk.
      assert (Hll : List.length l = n) by (rewrite <- (Permutation_length Hp), map_length; reflexivity).
      rewrite to_aoov_all by (auto; rewrite map_length, (Permutation_length (sort_keys_perm l)); exact Hll).
      cbn [lift].
      set (sh' := match sh with Any _ => All (List.length l) | _ => sh end).
      assert (Hsh' : okshape sh') by (unfold sh'; right; destruct Hsh as [->| ->]; [rewrite Hll|]; reflexivity).
      unfold rbind. cbn [andthen].
      match goal with |- context [mapR ?F ?L] => pose proof (mapR_all F L) as HM end.
      assert (Hg : forall d, In d (sort_keys l) -> Good n (conv sh' (snd d)) (fun i => conv (Any tt) (side (sys i) (snd d)))).
      { intros d Hd. apply (Permutation_in _ (sort_keys_perm l)) in Hd.
        assert (Hd' : In (snd d) (parts (JDiff l))) by (cbn; apply in_map; exact Hd).
        apply (IH (snd d) (snd d) Hd'); [constructor|exact Hsh'| |].
        - eapply systems_part; eauto.
        - eapply nodiff_part; eauto. }
      set (ks := sort_keys l) in *.
      assert (Lks : List.length ks = n) by (rewrite <- Hk, map_length; reflexivity).
      rewrite map_length, Lks in HM |- *.
      assert (Hin : forall i r, In (i, r) (combine (seq 0 n) (map (fun d => conv sh' (snd d)) ks)) ->
        i < n /\ exists d, In d ks /\ r = conv sh' (snd d)).
      { intros i r Hin. split; [apply in_combine_l, in_seq in Hin; lia|]. apply in_combine_r, in_map_iff in Hin.
        destruct Hin as (d & <- & Hd). eauto. }
      assert (HM' : forall a, In a (combine (seq 0 n) (map (fun d => conv sh' (snd d)) ks)) ->
         match andthen (snd a) (fun y => lift (owned_get y (fst a))) with OOk _ | OErr => True | _ => False end).
      { intros [i r] Hir. destruct (Hin i r Hir) as (Hi & d & Hd & ->). cbn [fst snd]. specialize (Hg d Hd).
        destruct (conv sh' (snd d)) as [y| | |]; cbn in *; auto. destruct Hg as (Hy & _).
        destruct (covers_get n y i Hy Hi) as (z & Ez). unfold owned_get. rewrite Ez. exact I. }
      specialize (HM HM'). destruct (mapR _ _) as [l'| | |]; cbn [andthen Good]; try exact HM.
      assert (Ll : List.length l' = n).
      { rewrite <- (F2_len _ _ _ HM), combine_length, seq_length, map_length. lia. }
      split; [exact Ll|]. intros i Hi.
      destruct (nth_error_in_range ks i ltac:(lia)) as ([s u] & Hu).
      assert (Es : sys i = s).
      { apply nth_error_nth. rewrite <- Hk. apply (map_nth_error fst) in Hu. exact Hu. }
      assert (Hc : nth_error (combine (seq 0 n) (map (fun d => conv sh' (snd d)) ks)) i = Some (0 + i, conv sh' u)).
      { rewrite <- Lks at 1. rewrite <- (map_length (fun d => conv sh' (snd d)) ks). apply combine_seq_nth.
        apply (map_nth_error (fun d => conv sh' (snd d))) in Hu. exact Hu. }
      destruct (F2_nth _ _ _ HM i _ Hc) as (b & Hb & Hb'). cbn [fst snd Nat.add] in Hb'.
      exists b. split; [exact Hb|]. assert (Hiu : In (s, u) ks) by (apply nth_error_In in Hu; exact Hu).
      rewrite Es, (side_diff s l u).
      + specialize (Hg _ Hiu). cbn [snd] in Hg. destruct (conv sh' u) as [y| | |]; cbn [andthen Good] in *; try discriminate Hb'.
        destruct Hg as (Hy & Hg). destruct (Hg i Hi) as (a & Ha & E). rewrite Es in E. unfold owned_get in Hb'. rewrite Ha in Hb'. cbn in Hb'. congruence.
      + eapply Permutation_NoDup; [apply Permutation_sym; exact Hp|apply sys_nodup].
      + apply (Permutation_in _ (sort_keys_perm l)). exact Hiu.
    - cbn [convert side].
      assert (Gc : Good n (conv sh c) (fun i => conv (Any tt) (side (sys i) c))) by (apply IHp; cbn; apply in_app_iff; right; cbn; auto).
      assert (Gx : Good n (conv sh a) (fun i => conv (Any tt) (side (sys i) a))) by (apply IHp; cbn; apply in_app_iff; right; cbn; auto).
      assert (Gy : Good n (conv sh b) (fun i => conv (Any tt) (side (sys i) b))) by (apply IHp; cbn; apply in_app_iff; right; cbn; auto).
      apply (good_bind n _ _ _ (fun c' i => rbind (conv (Any tt) (side (sys i) a)) (fun s' =>
        rbind (conv (Any tt) (side (sys i) b)) (fun f' => rbind (binding wide csort (map (side (sys i)) vars)) (fun vs => rpure (AFind vs c' s' f'))))) Gc).
      intros c'. apply (good_bind n _ _ _ (fun s' i =>
        rbind (conv (Any tt) (side (sys i) b)) (fun f' => rbind (binding wide csort (map (side (sys i)) vars)) (fun vs => rpure (AFind vs c' s' f')))) Gx).
      intros s'. apply (good_bind n _ _ _ (fun f' i => rbind (binding wide csort (map (side (sys i)) vars)) (fun vs => rpure (AFind vs c' s' f'))) Gy).
      intros f'. apply (good_bind n _ _ _ (fun vs i => rpure (AFind vs c' s' f')) (binding_good n systems vars)).
      intros vs. apply good_pure. reflexivity.
    - cbn [convert side].
      assert (Gb : Good n (conv sh b) (fun i => conv (Any tt) (side (sys i) b))) by (apply IHp; cbn; apply in_app_iff; right; cbn; auto).
      destruct q; try exact I.
      + apply (good_bind n _ _ _ (fun b' i => rbind (binding wide csort (map (side (sys i)) vars)) (fun vs => rpure (AQuant QForall vs b'))) Gb).
        intros b'. apply (good_bind n _ _ _ (fun vs i => rpure (AQuant QForall vs b')) (binding_good n systems vars)).
        intros vs. apply good_pure. reflexivity.
      + apply (good_bind n _ _ _ (fun b' i => rbind (binding wide csort (map (side (sys i)) vars)) (fun vs => rpure (AQuant QExists vs b'))) Gb).
        intros b'. apply (good_bind n _ _ _ (fun vs i => rpure (AQuant QExists vs b')) (binding_good n systems vars)).
        intros vs. apply good_pure. reflexivity.
  Qed.
End Conversion.

(** ** The converse *)

Lemma rbind_any_inv {U V} (r : outcome (aoov U)) (f : U -> outcome (aoov V)) a :
  rbind r f = OOk (Any a) -> exists e, r = OOk (Any e) /\ f e = OOk (Any a).
Proof.
  unfold rbind. destruct r as [x| | |]; cbn [andthen]; try discriminate. destruct x as [l|e|j e].
  - destruct (mapR _ _); cbn; discriminate.
  - intros H. exists e. split; [reflexivity|]. destruct (f e) as [y| | |]; cbn in H; try discriminate. destruct y; congruence.
  - destruct (f e) as [y| | |]; cbn; try discriminate. destruct (lift _); cbn; discriminate.
Qed.
Lemma mapR_ok {A B} (f : A -> outcome B) l l' : mapR f l = OOk l' <-> Forall2 (fun a b => f a = OOk b) l l'.
Proof.
  split.
  - revert l'. induction l as [|a l IH]; intros l' H; [injection H as <-; constructor|]. cbn [mapR] in H. fold (mapR f) in H.
    destruct (f a) eqn:E; try discriminate. cbn [andthen] in H. destruct (mapR f l) eqn:E2; try discriminate. injection H as <-. constructor; auto.
  - intros H. induction H as [|a b l l' H _ IH]; [reflexivity|]. cbn [mapR]. fold (mapR f). rewrite H. cbn [andthen]. rewrite IH. reflexivity.
Qed.
Lemma mapR_total {A B} (f : A -> outcome B) l : (forall a, In a l -> exists b, f a = OOk b) -> exists l', mapR f l = OOk l'.
Proof.
  intros H. induction l as [|a l IH]; [exists []; reflexivity|].
  destruct (H a) as (b & E); [left; reflexivity|]. destruct IH as (l' & E'); [intros; apply H; right; auto|].
  exists (b :: l'). cbn [mapR]. fold (mapR f). rewrite E. cbn [andthen]. rewrite E'. reflexivity.
Qed.
Lemma mapR_ext {A B} (f g : A -> outcome B) l : (forall a, In a l -> f a = g a) -> mapR f l = mapR g l.
Proof.
  intros H. induction l as [|a l IH]; [reflexivity|]. cbn [mapR]. fold (mapR f). fold (mapR g).
  rewrite H by (left; reflexivity). rewrite IH by (intros; apply H; right; auto). reflexivity.
Qed.
Lemma rbind_ext {U V} (r r' : outcome (aoov U)) (f g : U -> outcome (aoov V)) : r = r' -> (forall u, f u = g u) -> rbind r f = rbind r' g.
Proof.
  intros <- H. unfold rbind. destruct r as [x| | |]; cbn [andthen]; try reflexivity. destruct x as [l|e|j e]; [|rewrite H; reflexivity|rewrite H; reflexivity].
  f_equal. apply mapR_ext. intros p _. rewrite H. reflexivity.
Qed.
Lemma rbind_ok {U V} n (x : aoov U) (f : U -> outcome (aoov V)) :
  covers n x -> (forall u, exists y, f u = OOk y /\ covers n y) -> exists z, rbind (OOk x) f = OOk z /\ covers n z.
Proof.
  intros Hx Hf. destruct x as [l|e|j e]; cbn in Hx; [| |destruct Hx]; unfold rbind; cbn [andthen].
  - destruct (mapR_total (fun p : nat * U => andthen (f (snd p)) (fun y => lift (owned_get y (fst p)))) (combine (seq 0 (List.length l)) l)) as (l' & E).
    { intros [i u] Hin. cbn [fst snd]. destruct (Hf u) as (y & -> & Hy). cbn [andthen]. apply in_combine_l, in_seq in Hin.
      destruct (covers_get n y i Hy ltac:(lia)) as (z & Ez). exists z. unfold owned_get. rewrite Ez. reflexivity. }
    rewrite E. cbn [andthen]. eexists. split; [reflexivity|]. apply mapR_ok, F2_len in E. rewrite combine_length, seq_length in E. cbn. lia.
  - destruct (Hf e) as (y & -> & Hy). cbn [andthen]. exists y. destruct y; [auto|auto|destruct Hy].
Qed.
Lemma merge_any {U} (l : list (aoov U)) acc u : merge_all acc (map shape_of l) = Some (Any u) -> acc = Any tt /\ exists l', l = map Any l'.
Proof.
  revert acc. induction l as [|x l IH]; intros acc H; cbn [map merge_all] in H.
  - injection H as ->. destruct u. split; [reflexivity|]. exists []. reflexivity.
  - destruct (try_merge acc (shape_of x)) as [a|] eqn:E; [|discriminate]. apply IH in H. destruct H as (-> & l' & ->).
    destruct acc as [k|[]|k []], x as [m|y|m y]; cbn in E; try discriminate; try (destruct (Nat.eqb _ _); discriminate).
    split; [reflexivity|]. exists (y :: l'). reflexivity.
Qed.
Lemma transpose_any_inv {U} (l : list (aoov U)) l' : transpose_iter l = Some (Any l') -> l = map Any l'.
Proof.
  unfold transpose_iter. destruct (merge_all (Any tt) (map shape_of l)) as [[k|u|k u]|] eqn:E; try discriminate.
  - destruct (mapO _ _); discriminate.
  - apply merge_any in E. destruct E as (_ & m & ->). unfold owned_get. rewrite mapO_any. intros [= <-]. reflexivity.
  - destruct (mapO _ _); discriminate.
Qed.
Lemma transposed_any_inv {U V} (l : list (aoov U)) (f : list U -> outcome (aoov V)) a :
  transposed l f = OOk (Any a) -> exists l', l = map Any l' /\ f l' = OOk (Any a).
Proof.
  intros H. apply rbind_any_inv in H. destruct H as (l' & H & Hf). exists l'. split; [|exact Hf].
  destruct (transpose_iter l) as [x|] eqn:E; [|discriminate]. cbn in H. injection H as ->. apply transpose_any_inv. exact E.
Qed.
Lemma transposed_ok {U V} n (l : list (aoov U)) (f : list U -> outcome (aoov V)) :
  Forall (covers n) l -> (forall m, List.length m = List.length l -> exists y, f m = OOk y /\ covers n y) -> (0 < n) ->
  exists z, transposed l f = OOk z /\ covers n z.
Proof.
  intros Hl Hf Hn. unfold transposed. destruct (transpose_pointwise n l Hl) as (x & Ex & Hx & Hp). rewrite Ex. cbn [lift].
  assert (Hlen : forall i m, aget x i = Some m -> i < n -> List.length m = List.length l).
  { intros i m Hm Hi. destruct (Hp i Hi) as (m' & Hm' & F2). rewrite Hm in Hm'. injection Hm' as <-. symmetry. eapply F2_len. exact F2. }
  destruct x as [xs|e|j e]; cbn in Hx; [| |destruct Hx]; unfold rbind; cbn [andthen].
  - match goal with |- context [mapR ?F ?L] => destruct (mapR_total F L) as (l' & E) end.
    { intros [i u] Hin. cbn [fst snd].
      assert (Hi : i < n) by (apply in_combine_l, in_seq in Hin; lia).
      assert (Hu : List.length u = List.length l).
      { apply in_combine_r, In_nth_error in Hin. destruct Hin as (k & Hk). apply (Hlen k); [exact Hk|]. rewrite <- Hx. apply nth_error_Some. congruence. }
      destruct (Hf u Hu) as (y & -> & Hy). cbn [andthen].
      destruct (covers_get n y i Hy Hi) as (z & Ez). exists z. unfold owned_get. rewrite Ez. reflexivity. }
    rewrite E. cbn [andthen]. eexists. split; [reflexivity|]. apply mapR_ok, F2_len in E. rewrite combine_length, seq_length in E. cbn. lia.
  - destruct (Hf e (Hlen 0 e eq_refl Hn)) as (y & -> & Hy). cbn [andthen]. exists y. destruct y; [auto|auto|destruct Hy].
Qed.
Lemma special_any f l x : special f l = OOk x -> exists a, x = Any a.
Proof.
  unfold special, rpure. destruct (text_eqb f _).
  - destruct l as [|? [|? [|? [|? ?]]]]; try discriminate. intros [= <-]. eauto.
  - destruct (get_operation _); intros [= <-]; eauto.
Qed.
Lemma special_ok f l m a : special f l = OOk (Any a) -> List.length m = List.length l -> exists b, special f m = OOk (Any b).
Proof.
  unfold special, rpure. destruct (text_eqb f _).
  - destruct l as [|? [|? [|? [|? ?]]]]; try discriminate. destruct m as [|? [|? [|? [|? ?]]]]; cbn; try discriminate. eauto.
  - destruct (get_operation _); eauto.
Qed.

(** Sides have no [diff]. *)
Definition diff_free (t : jterm) : Prop := forall l, ~ sub (JDiff l) t.
Lemma side_parts s t : (forall l, t <> JDiff l) -> parts (side s t) = map (side s) (parts t).
Proof.
  destruct t; intros H; cbn [side parts map]; try rewrite map_app; try reflexivity. exfalso. eapply H. reflexivity.
Qed.
Lemma side_not_diff s t : (forall l, t <> JDiff l) -> forall l, side s t <> JDiff l.
Proof. destruct t; intros H l0; cbn [side]; try discriminate. exfalso. eapply H. reflexivity. Qed.
Lemma side_free systems s t : NoDup systems -> In s systems -> systems_of systems t -> diff_free (side s t).
Proof.
  intros Hn Hs. induction t as [t IH] using parts_ind. intros Hsys.
  assert (D : (exists l, t = JDiff l) \/ forall l, t <> JDiff l) by (destruct t; eauto; right; discriminate).
  destruct D as [(l & ->)|D].
  - pose proof (Hsys l (sub_refl _)) as Hp. assert (Hin : In s (map fst l)) by (apply (Permutation_in _ (Permutation_sym Hp)); exact Hs).
    apply in_map_iff in Hin. destruct Hin as ([k u] & E & Hin). cbn in E. subst k.
    rewrite (side_diff s l u); [|eapply Permutation_NoDup; [apply Permutation_sym; exact Hp|exact Hn]|exact Hin].
    assert (Hu : In u (parts (JDiff l))) by (cbn; apply (in_map snd) in Hin; exact Hin).
    apply IH; [exact Hu|]. eapply systems_part; eauto.
  - intros l Hl. inversion Hl as [E|? c Hc Hcl]; subst.
    + apply (side_not_diff s t D l). auto.
    + rewrite side_parts in Hc by exact D. apply in_map_iff in Hc. destruct Hc as (d & <- & Hd).
      apply (IH d Hd) in Hcl; [exact Hcl|]. eapply systems_part; eauto.
Qed.
Lemma free_part t c : diff_free t -> In c (parts t) -> diff_free c.
Proof. intros H Hc l Hl. apply (H l). econstructor; eauto. Qed.
Lemma free_sub t c : diff_free t -> sub c t -> diff_free c.
Proof. intros H Hc l Hl. apply (H l). eapply sub_trans; eauto. Qed.
Lemma free_side s t : diff_free t -> side s t = t.
Proof.
  assert (Hm : forall l, (forall c, In c l -> side s c = c) -> map (side s) l = l).
  { intros l Hl. rewrite <- (map_id l) at 2. apply map_ext_in. exact Hl. }
  induction t as [t IH] using parts_ind. intros Hf.
  assert (IHp : forall c, In c (parts t) -> side s c = c) by (intros c Hc; apply IH; [exact Hc|eapply free_part; eauto]).
  destruct t; cbn [side parts] in *; try reflexivity;
    try (rewrite (Hm _ (fun c Hc => IHp c (or_intror Hc))); rewrite IHp by (left; reflexivity); reflexivity);
    try (rewrite (Hm _ IHp); reflexivity).
  - rewrite !IHp by (cbn; auto). reflexivity.
  - rewrite IHp by (cbn; auto). reflexivity.
  - destruct (Hf l (sub_refl _)).
  - rewrite Hm by (intros c Hc; apply IHp, in_app_iff; auto). rewrite !IHp by (apply in_app_iff; cbn; auto). reflexivity.
  - rewrite Hm by (intros c Hc; apply IHp, in_app_iff; auto). rewrite !IHp by (apply in_app_iff; cbn; auto). reflexivity.
Qed.

Section Converse.
  Context (wide : text -> bool) (csort : nat -> option text)
    (names operators : path -> option jfun) (macros : path -> option jmacro).
  Notation conv := (convert wide csort names operators macros).

  Lemma sel_sub tk args c : In c (sel tk args) -> exists d, In d args /\ sub c d.
  Proof.
    intros Hc. destruct args as [|[] r]; cbn [sel] in Hc; try (exists c; split; [exact Hc|constructor]). destruct tk.
    - exists (JTuple l). split; [left; reflexivity|]. apply sub_part. exact Hc.
    - exists c. split; [exact Hc|constructor].
  Qed.

  (** Without [diff] the shape does not matter. *)
  Lemma free_shape t : diff_free t -> forall sh sh', conv sh t = conv sh' t.
  Proof.
    induction t as [t IH] using sub_ind'. intros Hf sh sh'.
    assert (IHs : forall c u, In c (parts t) -> sub u c -> conv sh u = conv sh' u).
    { intros c u Hc Hu. apply (IH c u Hc Hu). eapply free_sub; [exact Hf|]. econstructor; eauto. }
    assert (IHp : forall c, In c (parts t) -> conv sh c = conv sh' c) by (intros c Hc; apply (IHs c c Hc); constructor).
    assert (IHl : forall l, (forall c, In c l -> exists d, In d (parts t) /\ sub c d) -> mapR (conv sh) l = mapR (conv sh') l).
    { intros l Hl. apply mapR_ext. intros c Hc. destruct (Hl c Hc) as (d & Hd & Hs). eauto. }
    assert (IHo : forall l, (forall c, In c l -> In c (parts t)) -> mapR (conv sh) l = mapR (conv sh') l).
    { intros l Hl. apply mapR_ext. auto. }
    destruct t as [f args|p|p args|p args ts|p args|v|x d b|l|id b|l|vars c a b|q vars b].
    - destruct f; try reflexivity. rewrite !conv_app, IHl; [reflexivity|]. intros c Hc. apply sel_sub in Hc. destruct Hc as (d & Hd & Hs).
      exists d. split; [right; exact Hd|exact Hs].
    - reflexivity.
    - rewrite !conv_name, IHl; [reflexivity|]. intros c Hc. apply sel_sub in Hc. exact Hc.
    - rewrite !conv_macro. destruct (macros p) as [m|]; [|reflexivity].
      assert (E : mapR (conv sh) (macro_args m args ts) = mapR (conv sh') (macro_args m args ts)).
      { destruct m; unfold macro_args; rewrite ?mapR_app, ?conv_vars; rewrite ?(IHo args), ?(IHo [ts]); try reflexivity;
          intros c Hc; cbn in *; tauto. }
      rewrite E. reflexivity.
    - cbn [convert]. rewrite (IHo args); [reflexivity|auto].
    - reflexivity.
    - reflexivity.
    - rewrite !conv_tuple. generalize (Any (AApp n_empty []) : aoov aterm). clear - IHp. cbn [parts] in IHp. induction l as [|t l IHl]; intros acc; [reflexivity|].
      cbn [tfold]. fold (tfold (conv sh)). fold (tfold (conv sh')). rewrite (IHp t) by (left; reflexivity).
      destruct (conv sh' t); cbn [andthen]; try reflexivity. destruct (applied n_pair [a; acc]); cbn [andthen]; try reflexivity.
      apply IHl. intros c Hc. apply IHp. right. exact Hc.
    - cbn [convert]. rewrite (IHp b) by (left; reflexivity). reflexivity.
    - destruct (Hf l (sub_refl _)).
    - cbn [convert]. cbn [parts] in IHp. apply rbind_ext; [apply IHp, in_app_iff; cbn; auto|]. intros c'.
      apply rbind_ext; [apply IHp, in_app_iff; cbn; auto|]. intros s'.
      apply rbind_ext; [apply IHp, in_app_iff; cbn; auto|]. reflexivity.
    - cbn [convert]. cbn [parts] in IHp. rewrite (IHp b) by (apply in_app_iff; cbn; auto). reflexivity.
  Qed.

  (** Without [diff] there is one alternative. *)
  Lemma free_any t sh x : diff_free t -> no_diff_tuple names operators t -> conv sh t = OOk x -> exists a, x = Any a.
  Proof.
    intros Hf Hn E.
    assert (H : forall systems, StronglySorted lex systems -> covers (List.length systems) x).
    { intros systems Hs. pose proof (conv_good wide csort names operators macros systems Hs t (Any tt) (or_introl eq_refl)) as G.
      rewrite (free_shape t Hf (Any tt) sh), E in G. cbn in G. apply G; [|exact Hn]. intros l Hl. destruct (Hf l Hl). }
    pose proof (H [] ltac:(constructor)) as H0. pose proof (H [[]] ltac:(repeat constructor)) as H1.
    destruct x as [l|a|j a]; cbn in H0, H1; [lia|eauto|destruct H0].
  Qed.

  Context (systems : list text).
  Hypothesis Hsorted : StronglySorted lex systems.
  Hypothesis Hnonempty : systems <> [].
  Notation n := (List.length systems).
  Notation sys i := (nth i systems []).
  Let Hn : 0 < n. Proof. destruct systems; [congruence|cbn; lia]. Qed.

  Lemma plain_sub t c : plain t -> sub c t -> plain c.
  Proof.
    intros (H1 & H2 & H3 & H4) Hc. split; [|split; [|split]].
    - intros l u l' Hl. apply H1. eapply sub_trans; eauto.
    - intros l args Hl. apply (H2 l args). eapply sub_trans; eauto.
    - intros q vars b l Hl. apply (H3 q vars b l). eapply sub_trans; eauto.
    - intros vars c' a b l Hl. apply (H4 vars c' a b l). eapply sub_trans; eauto.
  Qed.

  Lemma sides_list l : Forall (fun t => exists x, conv (Any tt) t = OOk x) l <-> exists l', mapR (conv (Any tt)) l = OOk l'.
  Proof.
    split.
    - intros H. apply mapR_total. rewrite Forall_forall in H. exact H.
    - intros (l' & H). apply mapR_ok in H. induction H; constructor; eauto.
  Qed.

  Theorem conv_complete t : systems_of systems t -> no_diff_tuple names operators t -> plain t ->
    (forall i, i < n -> exists x, conv (Any tt) (side (sys i) t) = OOk x) -> forall sh, okshape systems sh -> exists x, conv sh t = OOk x.
  Proof.
    induction t as [t IH] using sub_ind'. intros Hsys Hno Hpl Hside sh Hsh.
    assert (Hs' : forall c, sub c t -> systems_of systems c) by (intros c Hc; eapply systems_sub; eauto).
    assert (Hn' : forall c, sub c t -> no_diff_tuple names operators c) by (intros c Hc; eapply nodiff_sub; eauto).
    assert (IHs : forall c u, In c (parts t) -> sub u c -> (forall i, i < n -> exists x, conv (Any tt) (side (sys i) u) = OOk x) ->
      exists x, conv sh u = OOk x /\ covers n x).
    { intros c u Hc Hu Hk. assert (Hut : sub u t) by (econstructor; eauto).
      destruct (IH c u Hc Hu (Hs' u Hut) (Hn' u Hut) (plain_sub t u Hpl Hut) Hk sh Hsh) as (x & E). exists x. split; [exact E|].
      pose proof (conv_good wide csort names operators macros systems Hsorted u sh Hsh (Hs' u Hut) (Hn' u Hut)) as G.
      rewrite E in G. apply G. }
    assert (IHp : forall c, In c (parts t) -> (forall i, i < n -> exists x, conv (Any tt) (side (sys i) c) = OOk x) ->
      exists x, conv sh c = OOk x /\ covers n x) by (intros c Hc; apply (IHs c c Hc); constructor).
    assert (IHl : forall l, (forall c, In c l -> exists d, In d (parts t) /\ sub c d) ->
      (forall i, i < n -> exists x, mapR (conv (Any tt)) (map (side (sys i)) l) = OOk x) ->
      exists l', mapR (conv sh) l = OOk l' /\ Forall (covers n) l').
    { intros l Hl Hk.
      assert (A : forall c, In c l -> exists x, conv sh c = OOk x /\ covers n x).
      { intros c Hc. destruct (Hl c Hc) as (d & Hd & Hsd). apply (IHs d c Hd Hsd). intros i Hi.
        apply Hk in Hi. apply sides_list in Hi. rewrite Forall_forall in Hi. apply Hi. apply in_map. exact Hc. }
      clear - A. induction l as [|c l IH]; [exists []; split; [reflexivity|constructor]|].
      destruct (A c (or_introl eq_refl)) as (x & E & Hx). destruct IH as (l' & E' & Hl'); [intros d Hd; apply A; right; exact Hd|].
      exists (x :: l'). split; [|constructor; auto]. cbn [mapR]. fold (mapR (conv sh)). rewrite E. cbn [andthen]. rewrite E'. reflexivity. }
    assert (Hany : forall i, i < n -> exists a, conv (Any tt) (side (sys i) t) = OOk (Any a)).
    { intros i Hi. destruct (Hside i Hi) as (x & E).
      assert (Hin : In (sys i) systems) by (apply nth_In; exact Hi).
      assert (HF : diff_free (side (sys i) t)) by (eapply side_free; eauto; eapply sys_nodup; eauto).
      destruct (free_any (side (sys i) t) (Any tt) x) as (a & ->); eauto.
      split; intros p l args Hl _; apply (HF l); eapply sub_trans; [|exact Hl|idtac|exact Hl]; apply sub_part; cbn; auto. }
    assert (H0 : forall (P : nat -> Prop), (forall i, i < n -> P i) -> P 0) by (intros P HP; apply HP; exact Hn).
    destruct t as [f args|p|p args|p args ts|p args|v|x d b|l|id b|l|vars c a b|q vars b].
    - destruct f; try (apply H0 in Hany; destruct Hany as (y & Hy); discriminate Hy).
      2: { destruct Hpl as (_ & Hpl & _). destruct (Hpl l args). constructor. }
      rewrite conv_app.
      assert (Hsd : forall s, sel (takes_tuple (operators p)) (map (side s) args) = map (side s) (sel (takes_tuple (operators p)) args)).
      { intros s. apply sel_side. intros Ht l r ->. destruct Hno as (Hno & _). apply (Hno p l r); [constructor|]. apply takes_one. exact Ht. }
      assert (Hinv : forall i, i < n -> exists l', mapR (conv (Any tt)) (map (side (sys i)) (sel (takes_tuple (operators p)) args)) = OOk (map Any l')
          /\ exists a, special (op_text wide p) l' = OOk (Any a)).
      { intros i Hi. destruct (Hany i Hi) as (a & E). cbn [side] in E. rewrite conv_app, Hsd in E.
        destruct (mapR _ _) as [m| | |]; try discriminate. cbn [andthen] in E. apply transposed_any_inv in E. destruct E as (l' & -> & E). eauto. }
      destruct (IHl (sel (takes_tuple (operators p)) args)) as (l' & E & Hl').
      { intros c Hc. apply sel_sub in Hc. destruct Hc as (d & Hd & Hsd'). exists d. split; [right; exact Hd|exact Hsd']. }
      { intros i Hi. destruct (Hinv i Hi) as (l' & E & _). eauto. }
      rewrite E. cbn [andthen]. destruct (transposed_ok n l' (special (op_text wide p)) Hl') as (z & Ez & _); [|exact Hn|eauto].
      intros m Hm. apply H0 in Hinv. destruct Hinv as (l2 & E2 & a & Ea). destruct (special_ok _ _ m _ Ea) as (b & Eb).
      + rewrite Hm. apply mapR_ok, F2_len in E. apply mapR_ok, F2_len in E2. rewrite !map_length in E2. congruence.
      + exists (Any b). split; [exact Eb|exact I].
    - cbn [convert]. apply H0 in Hany. destruct Hany as (y & Hy). cbn [side convert] in Hy. eauto.
    - rewrite conv_name.
      assert (Hsd : forall s, sel (takes_tuple (names p)) (map (side s) args) = map (side s) (sel (takes_tuple (names p)) args)).
      { intros s. apply sel_side. intros Ht l r ->. destruct Hno as (_ & Hno). apply (Hno p l r); [constructor|]. apply takes_one. exact Ht. }
      assert (Hinv : forall i, i < n -> exists l', mapR (conv (Any tt)) (map (side (sys i)) (sel (takes_tuple (names p)) args)) = OOk (map Any l')
          /\ exists a, special (name_text wide p) l' = OOk (Any a)).
      { intros i Hi. destruct (Hany i Hi) as (a & E). cbn [side] in E. rewrite conv_name, Hsd in E.
        destruct (mapR _ _) as [m| | |]; try discriminate. cbn [andthen] in E. apply transposed_any_inv in E. destruct E as (l' & -> & E). eauto. }
      destruct (IHl (sel (takes_tuple (names p)) args)) as (l' & E & Hl').
      { intros c Hc. apply sel_sub in Hc. exact Hc. }
      { intros i Hi. destruct (Hinv i Hi) as (l' & E & _). eauto. }
      rewrite E. cbn [andthen]. destruct (transposed_ok n l' (special (name_text wide p)) Hl') as (z & Ez & _); [|exact Hn|eauto].
      intros m Hm. apply H0 in Hinv. destruct Hinv as (l2 & E2 & a & Ea). destruct (special_ok _ _ m _ Ea) as (b & Eb).
      + rewrite Hm. apply mapR_ok, F2_len in E. apply mapR_ok, F2_len in E2. rewrite !map_length in E2. congruence.
      + exists (Any b). split; [exact Eb|exact I].
    - rewrite conv_macro. destruct (macros p) as [m|] eqn:Em.
      2: { apply H0 in Hany. destruct Hany as (y & Hy). cbn [side] in Hy. rewrite conv_macro, Em in Hy. discriminate. }
      assert (Hinv : forall i, i < n -> exists l', mapR (conv (Any tt)) (macro_args m (map (side (sys i)) args) (side (sys i) ts)) = OOk l').
      { intros i Hi. destruct (Hany i Hi) as (a & E). cbn [side] in E. rewrite conv_macro, Em in E.
        destruct (mapR _ _) as [l'| | |]; try discriminate. eauto. }
      assert (A : forall c, In c (macro_args m args ts) -> exists x, conv sh c = OOk x /\ covers n x).
      { assert (V : forall c vs, In c (map JVar vs) -> exists x, conv sh c = OOk x /\ covers n x).
        { intros c vs Hc. apply in_map_iff in Hc. destruct Hc as (v & <- & _). cbn. eexists. split; [reflexivity|exact I]. }
        assert (W : forall c, In c (ts :: args) -> (forall i, i < n -> exists x, conv (Any tt) (side (sys i) c) = OOk x) -> exists x, conv sh c = OOk x /\ covers n x)
          by (intros c Hc; apply IHp; exact Hc).
        assert (X : forall i c, i < n -> In c (macro_args m (map (side (sys i)) args) (side (sys i) ts)) -> exists x, conv (Any tt) c = OOk x).
        { intros i c Hi Hc. apply Hinv in Hi. apply sides_list in Hi. rewrite Forall_forall in Hi. auto. }
        intros c Hc. destruct m as [| | |inputs]; unfold macro_args in *.
        - destruct Hc as [<-|[]]. apply W; [left; reflexivity|]. intros i Hi. apply (X i _ Hi). left. reflexivity.
        - apply in_app_iff in Hc. destruct Hc as [Hc|[<-|[]]].
          + apply W; [right; exact Hc|]. intros i Hi. apply (X i _ Hi). apply in_app_iff. left. apply in_map. exact Hc.
          + apply W; [left; reflexivity|]. intros i Hi. apply (X i _ Hi). apply in_app_iff. right. left. reflexivity.
        - apply in_app_iff in Hc. destruct Hc as [Hc|[<-|[]]].
          + apply W; [right; exact Hc|]. intros i Hi. apply (X i _ Hi). apply in_app_iff. left. apply in_map. exact Hc.
          + apply W; [left; reflexivity|]. intros i Hi. apply (X i _ Hi). apply in_app_iff. right. left. reflexivity.
        - apply in_app_iff in Hc. destruct Hc as [Hc|Hc]; [|apply in_app_iff in Hc; destruct Hc as [Hc|[<-|[]]]].
          + apply W; [right; exact Hc|]. intros i Hi. apply (X i _ Hi). apply in_app_iff. left. apply in_map. exact Hc.
          + eapply V. exact Hc.
          + apply W; [left; reflexivity|]. intros i Hi. apply (X i _ Hi). apply in_app_iff. right. apply in_app_iff. right. left. reflexivity. }
      assert (B : exists l', mapR (conv sh) (macro_args m args ts) = OOk l' /\ Forall (covers n) l').
      { clear - A. induction (macro_args m args ts) as [|c l IH]; [exists []; split; [reflexivity|constructor]|].
        destruct (A c (or_introl eq_refl)) as (x & E & Hx). destruct IH as (l' & E' & Hl'); [intros d Hd; apply A; right; exact Hd|].
        exists (x :: l'). split; [|constructor; auto]. cbn [mapR]. fold (mapR (conv sh)). rewrite E. cbn [andthen]. rewrite E'. reflexivity. }
      destruct B as (l' & E & Hl'). rewrite E. cbn [andthen].
      destruct (transposed_ok n l' (fun l => rpure (macro_app m (macro_text wide p) l)) Hl') as (z & Ez & _); [|exact Hn|eauto].
      intros k _. eexists. split; [reflexivity|exact I].
    - cbn [convert].
      destruct (IHl args) as (l' & E & Hl').
      { intros c Hc. exists c. split; [exact Hc|constructor]. }
      { intros i Hi. destruct (Hany i Hi) as (a & E). cbn [side convert] in E. destruct (mapR _ _) as [m| | |]; try discriminate. eauto. }
      rewrite E. cbn [andthen]. destruct (transposed_ok n l' (fun l => rpure (AApp (action_text wide p) l)) Hl') as (z & Ez & _); [|exact Hn|eauto].
      intros k _. eexists. split; [reflexivity|exact I].
    - cbn [convert]. eexists. reflexivity.
    - apply H0 in Hany. destruct Hany as (y & Hy). discriminate.
    - rewrite conv_tuple. cbn [parts] in *.
      assert (A : forall c, In c l -> exists x, conv sh c = OOk x /\ covers n x).
      { intros c Hc. apply IHp; [exact Hc|]. intros i Hi. destruct (Hany i Hi) as (a & E). cbn [side] in E. rewrite conv_tuple, tfold_map in E.
        clear - E Hc. revert E. generalize (Any (AApp n_empty []) : aoov aterm). induction l as [|t l IH]; intros acc E; [destruct Hc|].
        cbn [tfold] in E. fold (tfold (fun t => conv (Any tt) (side (sys i) t))) in E.
        destruct (conv (Any tt) (side (sys i) t)) as [y| | |] eqn:Et; try discriminate. cbn [andthen] in E.
        destruct Hc as [<-|Hc]; [eauto|]. destruct (applied n_pair [y; acc]); try discriminate. cbn [andthen] in E. eauto. }
      assert (B : forall acc, covers n acc -> exists x, tfold (conv sh) acc l = OOk x).
      { clear - A Hn. induction l as [|t l IH]; intros acc Hacc; [exists acc; reflexivity|]. cbn [tfold]. fold (tfold (conv sh)).
        destruct (A t (or_introl eq_refl)) as (x & E & Hx). rewrite E. cbn [andthen].
        destruct (transposed_ok n [x; acc] (fun l => rpure (AApp n_pair l))) as (z & Ez & Hz);
          [repeat constructor; auto|intros k _; eexists; split; [reflexivity|exact I]|exact Hn|].
        unfold applied at 1. rewrite Ez. cbn [andthen]. apply IH; [intros c Hc; apply A; right; exact Hc|exact Hz]. }
      apply B. exact I.
    - cbn [convert].
      destruct (IHp b (or_introl eq_refl)) as (x & E & Hx).
      { intros i Hi. destruct (Hany i Hi) as (a & E). cbn [side convert] in E. apply rbind_any_inv in E. destruct E as (e & E & _).
        clear - E. revert e E. induction (id - 1) as [|k IH]; intros e E; [eauto|]. cbn [Nat.iter nat_rect] in E.
        apply rbind_any_inv in E. destruct E as (e' & E & _). eapply IH. exact E. }
      rewrite E.
      assert (K : exists z, Nat.iter (id - 1) (fun acc => rbind acc (fun b => rpure (AApp n_snd [b]))) (OOk x) = OOk z /\ covers n z).
      { induction (id - 1) as [|k IHk]; [exists x; auto|]. cbn [Nat.iter nat_rect]. destruct IHk as (z & Ez & Hz). unfold Nat.iter in Ez. rewrite Ez.
        apply (rbind_ok n z); [exact Hz|]. intros u. eexists. split; [reflexivity|exact I]. }
      destruct K as (z & -> & Hz). destruct (rbind_ok n z (fun u => rpure (AApp n_fst [u])) Hz) as (w & Ew & _); [|eauto].
      intros u. eexists. split; [reflexivity|exact I].
    - rewrite conv_diff. pose proof (Hsys l (sub_refl _)) as Hp. pose proof (sorted_keys systems Hsorted l Hp) as Hk.
      assert (Hll : List.length l = n) by (rewrite <- (Permutation_length Hp), map_length; reflexivity).
      rewrite (to_aoov_all systems) by (auto; rewrite map_length, (Permutation_length (sort_keys_perm l)); exact Hll).
      cbn [lift]. set (sh' := match sh with Any _ => All (List.length l) | _ => sh end).
      unfold rbind. cbn [andthen]. rewrite map_length.
      match goal with |- context [mapR ?F ?L] => destruct (mapR_total F L) as (l' & E) end; [|rewrite E; cbn; eauto].
      intros [i r] Hin. cbn [fst snd]. assert (Hi : i < n).
      { apply in_combine_l, in_seq in Hin. rewrite (Permutation_length (sort_keys_perm l)), Hll in Hin. lia. }
      apply in_combine_r, in_map_iff in Hin. destruct Hin as ([s u] & <- & Hd). cbn [snd].
      apply (Permutation_in _ (sort_keys_perm l)) in Hd.
      assert (Hu : In u (parts (JDiff l))) by (cbn; apply (in_map snd) in Hd; exact Hd).
      assert (Hfree : diff_free u) by (intros l'; destruct Hpl as (Hpl & _); apply (Hpl l u l'); [constructor|exact Hu]).
      assert (Hin : In s systems) by (apply (Permutation_in _ Hp); apply (in_map fst) in Hd; exact Hd).
      destruct (In_nth systems s [] Hin) as (j & Hj & Ej). destruct (Hany j Hj) as (a & E). rewrite Ej in E.
      rewrite (side_diff s l u), (free_side s u Hfree), (free_shape u Hfree _ sh') in E; [|eapply Permutation_NoDup; [apply Permutation_sym; exact Hp|eapply sys_nodup; eauto]|exact Hd].
      rewrite E. exists a. reflexivity.
    - cbn [convert]. cbn [parts] in *.
      assert (Inv : forall i, i < n -> (exists x, conv (Any tt) (side (sys i) c) = OOk x) /\ (exists x, conv (Any tt) (side (sys i) a) = OOk x) /\
        (exists x, conv (Any tt) (side (sys i) b) = OOk x) /\ (exists x, binding wide csort (map (side (sys i)) vars) = OOk x)).
      { intros i Hi. destruct (Hany i Hi) as (z & E). cbn [side convert] in E.
        apply rbind_any_inv in E. destruct E as (e1 & E1 & E). apply rbind_any_inv in E. destruct E as (e2 & E2 & E).
        apply rbind_any_inv in E. destruct E as (e3 & E3 & E). apply rbind_any_inv in E. destruct E as (e4 & E4 & E). eauto 10. }
      destruct (IHp c ltac:(apply in_app_iff; cbn; auto) (fun i Hi => proj1 (Inv i Hi))) as (x & -> & Hx).
      destruct (IHp a ltac:(apply in_app_iff; cbn; auto) (fun i Hi => proj1 (proj2 (Inv i Hi)))) as (y & -> & Hy).
      destruct (IHp b ltac:(apply in_app_iff; cbn; auto) (fun i Hi => proj1 (proj2 (proj2 (Inv i Hi))))) as (z & -> & Hz).
      assert (Bv : exists vs, binding wide csort vars = rpure vs).
      { apply H0 in Inv. destruct Inv as (_ & _ & _ & w & Ew).
        destruct (binding_any wide csort (map (side (sys 0)) vars)) as [Er|(vs & ss & Em & Es & Eb)]; [congruence|].
        assert (Ev : map (side (sys 0)) vars = vars).
        { rewrite <- (map_id vars) at 2. apply map_ext_in. intros v Hv.
          assert (Hv' : exists w, side (sys 0) v = JVar w).
          { assert (I1 : In (side (sys 0) v) (map JVar vs)) by (rewrite <- Em; apply in_map; exact Hv). apply in_map_iff in I1. destruct I1 as (w' & <- & _). eauto. }
          destruct Hv' as (w' & Hw'). destruct v; cbn [side] in Hw'; try discriminate; [reflexivity|].
          destruct Hpl as (_ & _ & _ & Hpl). destruct (Hpl vars c a b l (sub_refl _) Hv). }
        rewrite Ev in Eb. eauto. }
      destruct Bv as (vs & ->).
      destruct (rbind_ok n x (fun c' => rbind (OOk y) (fun s' => rbind (OOk z) (fun f' => rbind (rpure vs) (fun vs => rpure (AFind vs c' s' f'))))) Hx) as (w & Ew & _); [|eauto].
      intros c'. apply (rbind_ok n y); [exact Hy|]. intros s'. apply (rbind_ok n z); [exact Hz|]. intros f'. eexists. split; [reflexivity|exact I].
    - cbn [convert]. cbn [parts] in *. assert (Q : exists k, match q with JForAll => k = QForall | JExists => k = QExists | _ => False end).
      { apply H0 in Hany. destruct Hany as (z & E). destruct q; eauto; discriminate. }
      destruct Q as (k & Q).
      assert (Inv : forall i, i < n -> (exists x, conv (Any tt) (side (sys i) b) = OOk x) /\ (exists x, binding wide csort (map (side (sys i)) vars) = OOk x)).
      { intros i Hi. destruct (Hany i Hi) as (z & E). destruct q; try contradiction; cbn [side convert] in E;
        apply rbind_any_inv in E; destruct E as (e1 & E1 & E); apply rbind_any_inv in E; destruct E as (e2 & E2 & E); eauto. }
      destruct (IHp b ltac:(apply in_app_iff; cbn; auto) (fun i Hi => proj1 (Inv i Hi))) as (x & Ex & Hx).
      assert (Bv : exists vs, binding wide csort vars = rpure vs).
      { apply H0 in Inv. destruct Inv as (_ & w & Ew).
        destruct (binding_any wide csort (map (side (sys 0)) vars)) as [Er|(vs & ss & Em & Es & Eb)]; [congruence|].
        assert (Ev : map (side (sys 0)) vars = vars).
        { rewrite <- (map_id vars) at 2. apply map_ext_in. intros v Hv.
          assert (Hv' : exists w, side (sys 0) v = JVar w).
          { assert (I1 : In (side (sys 0) v) (map JVar vs)) by (rewrite <- Em; apply in_map; exact Hv). apply in_map_iff in I1. destruct I1 as (w' & <- & _). eauto. }
          destruct Hv' as (w' & Hw'). destruct v; cbn [side] in Hw'; try discriminate; [reflexivity|].
          destruct Hpl as (_ & _ & Hpl & _). destruct (Hpl q vars b l (sub_refl _) Hv). }
        rewrite Ev in Eb. eauto. }
      destruct Bv as (vs & Ev).
      assert (R : exists w, rbind (OOk x) (fun b' => rbind (rpure vs) (fun vs => rpure (AQuant k vs b'))) = OOk w).
      { destruct (rbind_ok n x (fun b' => rbind (rpure vs) (fun vs => rpure (AQuant k vs b'))) Hx) as (w & Ew & _); [|eauto].
        intros b'. eexists. split; [reflexivity|exact I]. }
      destruct q; try contradiction; subst k; rewrite Ex, Ev; exact R.
  Qed.
End Converse.

(** ** Reading one alternative *)

Lemma rbind_get {U V} (r : outcome (aoov U)) (f : U -> outcome (aoov V)) x k v : rbind r f = OOk x -> aget x k = Some v ->
  exists s u y, r = OOk s /\ aget s k = Some u /\ f u = OOk y /\ aget y k = Some v.
Proof.
  unfold rbind. destruct r as [s| | |]; cbn [andthen]; try discriminate. intros E Hv. exists s. destruct s as [l|e|j e].
  - destruct (mapR _ _) as [l'| | |] eqn:El; try discriminate. cbn in E. injection E as <-. cbn in Hv. apply mapR_ok in El.
    assert (Hi : k < List.length l).
    { assert (k < List.length l') by (apply nth_error_Some; congruence). apply F2_len in El. rewrite combine_length, seq_length in El. lia. }
    destruct (nth_error_in_range l k Hi) as (u & Hu). exists u.
    destruct (F2_nth _ _ _ El k (0 + k, u) (combine_seq_nth l 0 k u Hu)) as (b & Hb & Hb'). cbn [fst snd] in Hb'.
    destruct (f u) as [y| | |] eqn:Ef; try discriminate. exists y. cbn [andthen Nat.add] in Hb'. rewrite Hv in Hb. injection Hb as <-.
    unfold owned_get in Hb'. destruct (aget y k) eqn:Ey; try discriminate. cbn in Hb'. injection Hb' as <-. auto.
  - exists e. destruct (f e) as [y| | |] eqn:Ef; try discriminate. exists y. cbn in E. destruct y; try discriminate; injection E as <-; auto.
  - exists e. destruct (f e) as [y| | |] eqn:Ef; try discriminate. exists y. cbn [andthen] in E. unfold owned_get in E.
    destruct (aget y j) as [z|] eqn:Ey; try discriminate. cbn in E. injection E as <-. cbn in Hv |- *.
    destruct (Nat.eqb k j) eqn:Ek; [|discriminate]. apply Nat.eqb_eq in Ek. subst j. injection Hv as <-. auto.
Qed.
Lemma merge_not_one {U} (l : list (aoov U)) acc i u : (forall j w, acc <> One j w) -> merge_all acc (map shape_of l) <> Some (One i u).
Proof.
  revert acc. induction l as [|x l IH]; intros acc Ha H; cbn in H; [injection H as ->; exact (Ha i u eq_refl)|].
  destruct (try_merge acc (shape_of x)) as [a|] eqn:E; [|discriminate]. apply IH in H; [exact H|]. intros j w ->.
  destruct acc as [k|[]|k []], x; cbn in E; try discriminate; try (destruct (Nat.eqb _ _); discriminate). exact (Ha k tt eq_refl).
Qed.
Lemma transpose_get {U} (l : list (aoov U)) r k m : transpose_iter l = Some r -> aget r k = Some m -> Forall2 (fun x y => aget x k = Some y) l m.
Proof.
  unfold transpose_iter. destruct (merge_all (Any tt) (map shape_of l)) as [[n|u|j u]|] eqn:E; try discriminate.
  - destruct (mapO _ _) as [rs|] eqn:Er; [|discriminate]. intros [= <-] Hm. cbn in Hm. apply mapO_Forall2 in Er.
    assert (Hk : k < n).
    { assert (k < List.length rs) by (apply nth_error_Some; congruence). apply F2_len in Er. rewrite seq_length in Er. lia. }
    destruct (F2_nth _ _ _ Er k k (nth_seq n k Hk)) as (b & Hb & Hb'). rewrite Hm in Hb. injection Hb as <-. apply mapO_Forall2. exact Hb'.
  - apply merge_any in E. destruct E as (_ & l' & ->). unfold owned_get. rewrite mapO_any. intros [= <-] [= <-].
    clear. induction l'; constructor; auto.
  - exfalso. eapply merge_not_one; [|exact E]. discriminate.
Qed.
Lemma transposed_get {U V} (l : list (aoov U)) (f : list U -> outcome (aoov V)) x k v : transposed l f = OOk x -> aget x k = Some v ->
  exists m y, Forall2 (fun a b => aget a k = Some b) l m /\ f m = OOk y /\ aget y k = Some v.
Proof.
  intros E Hv. destruct (rbind_get _ _ _ _ _ E Hv) as (s & u & y & Es & Hu & Ef & Hy). exists u, y. split; [|auto].
  destruct (transpose_iter l) as [r|] eqn:Er; [|discriminate]. cbn in Es. injection Es as ->. eapply transpose_get; eauto.
Qed.
Lemma applied_get f l x k v : applied f l = OOk x -> aget x k = Some v -> exists m, Forall2 (fun a b => aget a k = Some b) l m /\ v = AApp f m.
Proof.
  intros E Hv. destruct (transposed_get _ _ _ _ _ E Hv) as (m & y & F & [= <-] & [= <-]). eauto.
Qed.
(** Both steps of the conversion of a list of arguments. *)
Lemma args_get {U V A} (conv : A -> outcome (aoov U)) args (f : list U -> outcome (aoov V)) x k v :
  andthen (mapR conv args) (fun l => transposed l f) = OOk x -> aget x k = Some v ->
  exists m y, Forall2 (fun t b => exists z, conv t = OOk z /\ aget z k = Some b) args m /\ f m = OOk y /\ aget y k = Some v.
Proof.
  destruct (mapR conv args) as [l| | |] eqn:E; try discriminate. cbn [andthen]. intros Et Hv.
  destruct (transposed_get _ _ _ _ _ Et Hv) as (m & y & F & Ef & Hy). exists m, y. split; [|auto]. apply mapR_ok in E. clear - E F.
  revert m F. induction E as [|a b l l' Hab _ IH]; intros m F; inversion F; subst; constructor; eauto.
Qed.

(** ** Tuples *)

Lemma tfold_get conv l : forall acc x k v, tfold conv acc l = OOk x -> aget x k = Some v ->
  exists e m, aget acc k = Some e /\ Forall2 (fun t b => exists z, conv t = OOk z /\ aget z k = Some b) l m /\
    v = fold_left (fun acc b => AApp n_pair [b; acc]) m e.
Proof.
  induction l as [|t l IH]; intros acc x k v E Hv.
  - injection E as <-. exists v, []. repeat split; auto.
  - cbn [tfold] in E. fold (tfold conv) in E. destruct (conv t) as [y| | |] eqn:Et; try discriminate. cbn [andthen] in E.
    destruct (applied n_pair [y; acc]) as [acc'| | |] eqn:Ea; try discriminate. cbn [andthen] in E.
    destruct (IH _ _ _ _ E Hv) as (e' & m & He' & F & ->). destruct (applied_get _ _ _ _ _ Ea He') as (ba & F2 & ->).
    inversion F2 as [|? b ? r Hb Fr]; subst. inversion Fr as [|? e ? r' He Fr']; subst. inversion Fr'; subst.
    exists e, (b :: m). split; [exact He|]. split; [constructor; eauto|reflexivity].
Qed.

Lemma iter_snd_get k j r x v : Nat.iter j (fun acc => rbind acc (fun b => rpure (AApp n_snd [b]))) r = OOk x -> aget x k = Some v ->
  exists s u, r = OOk s /\ aget s k = Some u /\ v = Nat.iter j (fun a => AApp n_snd [a]) u.
Proof.
  revert x v. induction j as [|j IH]; intros x v E Hv; [exists x, v; auto|]. cbn [Nat.iter nat_rect] in E.
  destruct (rbind_get _ _ _ _ _ E Hv) as (s & u & y & Es & Hu & [= <-] & [= <-]). destruct (IH _ _ Es Hu) as (s' & u' & -> & Hu' & ->).
  exists s', u'. auto.
Qed.

Lemma iter_succ {A} (f : A -> A) j x : Nat.iter (S j) f x = Nat.iter j f (f x).
Proof. induction j as [|j IH]; [reflexivity|]. cbn [Nat.iter nat_rect] in *. unfold Nat.iter in IH. rewrite IH. reflexivity. Qed.
Lemma fold_pairs {D} (P : pairs D) m e j b : nth_error (rev m) j = Some b ->
  first _ P (Nat.iter j (second _ P) (meaning P (fold_left (fun acc b => AApp n_pair [b; acc]) m e))) = meaning P b.
Proof.
  revert j. induction m as [|a m IH] using rev_ind; intros j H; [destruct j; discriminate|].
  rewrite rev_app_distr in H. cbn [rev app] in H. rewrite fold_left_app. cbn [fold_left].
  change n_pair with (str "pair"). rewrite (means_pair _ P). destruct j as [|j].
  - cbn in H. injection H as ->. cbn. apply first_pair.
  - cbn in H. rewrite iter_succ, second_pair. apply IH. exact H.
Qed.
