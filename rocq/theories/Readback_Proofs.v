From Coq Require Import List NArith Bool Arith Lia.
From Verif Require Import Syntax_Model Sort_Model Sort_Spec Sort_Proofs Squirrel_Model Readback_Model Readback_Spec.
Import ListNotations.
Local Open Scope list_scope.

(** ** Equality of the solver's terms *)

Fixpoint tmp_size (t : tmp) : nat :=
  match t with
  | TBinder _ _ l | TApp _ l => S (list_sum (map tmp_size l))
  | TVar _ => 1
  end.

Lemma tmp_ind' (P : tmp -> Prop) :
  (forall h v l, Forall P l -> P (TBinder h v l)) ->
  (forall h l, Forall P l -> P (TApp h l)) ->
  (forall v, P (TVar v)) -> forall t, P t.
Proof.
  intros A B C. fix F 1. intros [h v l|h l|v].
  - apply A. induction l as [|a l IH]; constructor; auto.
  - apply B. induction l as [|a l IH]; constructor; auto.
  - apply C.
Qed.

Lemma chars_eqb_spec a b : chars_eqb a b = true <-> a = b.
Proof. unfold chars_eqb. destruct (list_eq_dec N.eq_dec a b); intuition congruence. Qed.

Definition all_eqb := fix all (l m : list tmp) {struct l} : bool :=
    match l, m with
    | [], [] => true
    | x :: l', y :: m' => tmp_eqb x y && all l' m'
    | _, _ => false
    end.
Lemma tmp_eqb_app h l b : tmp_eqb (TApp h l) b = match b with TApp h' l' => chars_eqb h h' && all_eqb l l' | _ => false end.
Proof. reflexivity. Qed.
Lemma tmp_eqb_binder h v l b : tmp_eqb (TBinder h v l) b =
  match b with
  | TBinder h' v' l' => chars_eqb h h' && (if list_eq_dec (list_eq_dec N.eq_dec) v v' then true else false) && all_eqb l l'
  | _ => false end.
Proof. reflexivity. Qed.
Lemma all_eqb_spec l : Forall (fun a => forall b, tmp_eqb a b = true <-> a = b) l -> forall m, all_eqb l m = true <-> l = m.
Proof.
  induction 1 as [|a l H _ IH]; intros [|b m]; cbn [all_eqb]; try (split; congruence).
  rewrite andb_true_iff, H, IH. split; [intros [-> ->]; reflexivity|intros E; split; congruence].
Qed.
Lemma tmp_eqb_spec a : forall b, tmp_eqb a b = true <-> a = b.
Proof.
  induction a as [h v l IH|h l IH|v] using tmp_ind'; intros b.
  - rewrite tmp_eqb_binder. destruct b as [h' v' l'|h' l'|v']; try (split; congruence).
    rewrite !andb_true_iff, chars_eqb_spec, (all_eqb_spec l IH).
    destruct (list_eq_dec (list_eq_dec N.eq_dec) v v') as [->|N]; split.
    + intros [[-> _] ->]. reflexivity.
    + intros E. repeat split; congruence.
    + intros [[_ E] _]. discriminate E.
    + intros E. congruence.
  - rewrite tmp_eqb_app. destruct b as [h' v' l'|h' l'|v']; try (split; congruence).
    rewrite andb_true_iff, chars_eqb_spec, (all_eqb_spec l IH).
    split; [intros [-> ->]; reflexivity|intros E; split; congruence].
  - cbn. destruct b; try (split; congruence). rewrite chars_eqb_spec. split; congruence.
Qed.
Lemma key_eqb_spec a b : key_eqb a b = true <-> a = b.
Proof.
  destruct a, b; cbn; try (split; congruence).
  - rewrite tmp_eqb_spec. split; congruence.
  - rewrite chars_eqb_spec. split; congruence.
Qed.

Lemma tget_in tb k v : tget tb k = Some v -> In (k, v) tb.
Proof.
  induction tb as [|[k' v'] tb IH]; cbn; [discriminate|].
  destruct (key_eqb k' k) eqn:E; [|auto]. apply key_eqb_spec in E. intros X. left. congruence.
Qed.
Lemma tget_none tb k : tget tb k = None -> ~ In k (map fst tb).
Proof.
  induction tb as [|[k' v'] tb IH]; cbn; [auto|].
  destruct (key_eqb k' k) eqn:E; [discriminate|]. intros H [->|I]; [|apply IH; auto].
  assert (key_eqb k k = true) by (apply key_eqb_spec; auto). congruence.
Qed.
Lemma tput_fresh tb k v : tget tb k = None -> tput tb k v = tb ++ [(k, v)].
Proof.
  induction tb as [|[k' v'] tb IH]; cbn; [auto|].
  destruct (key_eqb k' k) eqn:E; [discriminate|]. intros H. rewrite IH; auto.
Qed.

Lemma sameE a b : same_sort REvaluated a b <-> evaluated_sort a = evaluated_sort b.
Proof. rewrite <- eq_realm_spec. apply evaluated_sort_char. Qed.
Ltac same := repeat match goal with H : same_sort REvaluated _ _ |- _ => apply sameE in H end; try apply sameE; try congruence.

(** ** The conversion *)

(** Only [e] and new placeholders are resolved. *)
Definition frame (e : proxy) (h h' : heap) : Prop :=
  extends h h' /\ forall q, in_heap h q -> as_option h' q = as_option h q \/ q = e.

Lemma frame_refl e h : frame e h h.
Proof. split; [apply extends_refl|auto]. Qed.
Lemma extends_in h h' p : extends h h' -> in_heap h p -> in_heap h' p.
Proof. intros [L _]. destruct p; cbn; auto. lia. Qed.

Section Conv.
  Variable functions : chars -> option fsym.
  Variable kind : fsym -> sigkind.
  Variable is_tmp : fsym -> bool.

  Notation to_rich := (to_rich functions kind is_tmp).
  Notation unknown := (unknown functions).

  Definition conv_args := fix conv_args (l : list tmp) (ss : list proxy) (rep : option proxy) (h : heap) (tb : table) {struct l}
        : heap * table * outcome (list formula) :=
      match l with
      | [] => (h, tb, OOk [])
      | a :: l' =>
          match (match ss with p :: _ => Some p | [] => rep end) with
          | None => (h, tb, OErr)
          | Some p =>
              match to_rich a h tb p with
              | (h1, tb1, OOk f) =>
                  match conv_args l' (tl ss) rep h1 tb1 with
                  | (h2, tb2, OOk fs) => (h2, tb2, OOk (f :: fs))
                  | r => r
                  end
              | (h1, tb1, OErr) => (h1, tb1, OErr)
              | (h1, tb1, OPanic) => (h1, tb1, OPanic)
              | (h1, tb1, OFuel) => (h1, tb1, OFuel)
              end
          end
      end.

  Lemma to_rich_app head args h tb e : to_rich (TApp head args) h tb e =
    match functions head with
        | None => lift_var (to_var h tb (KTmp (TApp head args)) e)
        | Some g =>
            if is_tmp g then (h, tb, OErr)
            else
              let (h1, sg) := signature h (kind g) in
              match unify h1 (sout sg) e REvaluated with
              | None => (h1, tb, OPanic)
              | Some (h2, Err _) => (h2, tb, OErr)
              | Some (h2, Ok _) =>
                  match conv_args args (sargs sg) (srep sg) h2 tb with
                  | (h3, tb3, OOk fs) => (h3, tb3, OOk (FFun g fs))
                  | (h3, tb3, OErr) => (h3, tb3, OErr)
                  | (h3, tb3, OPanic) => (h3, tb3, OPanic)
                  | (h3, tb3, OFuel) => (h3, tb3, OFuel)
                  end
              end
        end.
  Proof. reflexivity. Qed.

  (** *** Number of arguments *)

  Lemma signature_arity h k h1 sg n : signature h k = (h1, sg) -> arity k = Some n -> length (sargs sg) = n /\ srep sg = None.
  Proof.
    destruct k; cbn; intros E A; inversion E; subst; inversion A; subst; cbn; rewrite ?map_length; auto.
  Qed.

  Lemma conv_args_length l : forall ss rep h tb h' tb' fs,
    conv_args l ss rep h tb = (h', tb', OOk fs) -> length fs = length l /\ (rep = None -> length l <= length ss).
  Proof.
    induction l as [|a l IH]; intros ss rep h tb h' tb' fs; cbn [conv_args].
    - intros E. inversion E; subst. cbn. split; [auto|lia].
    - destruct (match ss with p :: _ => Some p | [] => rep end) as [p|] eqn:EP; [|discriminate].
      destruct (to_rich a h tb p) as [[h1 tb1] [f| | |]]; try discriminate.
      destruct (conv_args l (tl ss) rep h1 tb1) as [[h2 tb2] [fs'| | |]] eqn:EC; try discriminate.
      intros E. inversion E; subst. destruct (IH _ _ _ _ _ _ _ EC) as [A B]. cbn. split; [lia|].
      intros ->. specialize (B eq_refl). destruct ss as [|q ss]; [discriminate|]. cbn in *. lia.
  Qed.

  Lemma conv_args_all (Q : formula -> Prop) l :
    Forall (fun t => forall h tb e h' tb' f, to_rich t h tb e = (h', tb', OOk f) -> Q f) l ->
    forall ss rep h tb h' tb' fs, conv_args l ss rep h tb = (h', tb', OOk fs) -> Forall Q fs.
  Proof.
    induction 1 as [|a l H _ IH]; intros ss rep h tb h' tb' fs; cbn [conv_args].
    - intros E. inversion E; subst. constructor.
    - destruct (match ss with p :: _ => Some p | [] => rep end) as [p|] eqn:EP; [|discriminate].
      destruct (to_rich a h tb p) as [[h1 tb1] [f| | |]] eqn:ET; try discriminate.
      destruct (conv_args l (tl ss) rep h1 tb1) as [[h2 tb2] [fs'| | |]] eqn:EC; try discriminate.
      intros E. inversion E; subst. constructor; [exact (H _ _ _ _ _ _ ET)|]. eapply IH. exact EC.
  Qed.

  Lemma lift_var_ok x h tb f : lift_var x = (h, tb, OOk f) -> exists v, f = FVar v.
  Proof. destruct x as [[h1 tb1] [v| | |]]; cbn; intros E; inversion E. eauto. Qed.

  Lemma rich_arities t : forall h tb e h' tb' f, to_rich t h tb e = (h', tb', OOk f) -> arities kind le f.
  Proof.
    induction t as [hd vs l IH|hd l IH|v] using tmp_ind'; intros h tb e h' tb' f.
    - cbn. destruct (unify h e (PStatic SBool) REvaluated) as [[h1 [s|er]]|]; try discriminate.
      destruct (binder_vars h1 tb vs) as [[h2 tb2] [xs| | |]]; try discriminate.
      destruct (binder_of hd) as [q|]; [|discriminate].
      destruct l as [|a [|b l]]; try discriminate.
      destruct (to_rich a h2 tb2 (PStatic SBool)) as [[h3 tb3] [g| | |]] eqn:ET; try discriminate.
      intros E. inversion E; subst. apply ar_q. inversion IH; subst. eauto.
    - rewrite to_rich_app. destruct (functions hd) as [g|].
      + destruct (is_tmp g); [discriminate|]. destruct (signature h (kind g)) as [h1 sg] eqn:ES.
        destruct (unify h1 (sout sg) e REvaluated) as [[h2 [s|er]]|]; try discriminate.
        destruct (conv_args l (sargs sg) (srep sg) h2 tb) as [[h3 tb3] [fs| | |]] eqn:EC; try discriminate.
        intros E. inversion E; subst. apply ar_fun.
        * intros n A. destruct (signature_arity _ _ _ _ _ ES A) as [<- R].
          destruct (conv_args_length _ _ _ _ _ _ _ _ EC) as [-> B]. auto.
        * eapply conv_args_all; [|exact EC]. exact IH.
      + intros E. apply lift_var_ok in E as [v ->]. apply ar_var.
    - cbn. intros E. apply lift_var_ok in E as [x ->]. apply ar_var.
  Qed.

  (** *** Binders *)

  Definition no_str (tb : table) : Prop := forall s v, ~ In (KStr s, v) tb.

  Lemma tput_str tb k v : (forall s, k <> KStr s) -> no_str tb -> no_str (tput tb k v).
  Proof.
    intros K. induction tb as [|[k' v'] tb IH]; cbn; intros H s x.
    - intros [E|[]]. inversion E. eapply K; eauto.
    - assert (no_str tb) as H' by (intros s' x' I; apply (H s' x'); right; auto).
      destruct (key_eqb k' k) eqn:E.
      + intros [F|I]; [|apply (H s x); right; auto]. inversion F; subst. apply key_eqb_spec in E. eapply K; eauto.
      + intros [F|I]; [apply (H s x); left; auto|]. exact (IH H' s x I).
  Qed.
  Lemma to_var_no_str h tb t e h' tb' r : no_str tb -> to_var h tb (KTmp t) e = (h', tb', r) -> no_str tb'.
  Proof.
    intros H. unfold to_var, new_var.
    assert (forall v, no_str (tput tb (KTmp t) v)) as X by (intros v; apply tput_str; auto; discriminate).
    destruct (tget tb (KTmp t)) as [v|].
    - destruct (expects h e (vsort v) REvaluated) as [[h1 [u|er]]|]; [| |]; intros E; try (inversion E; subst; auto; fail).
      revert E. destruct (as_option h1 e); [|intros E; inversion E; subst; auto].
      destruct (N.ltb _ _); intros E; inversion E; subst; auto.
    - destruct (as_option h e); [|intros E; inversion E; subst; auto].
      destruct (N.ltb _ _); intros E; inversion E; subst; auto.
  Qed.
  Lemma binder_vars_refused vs h tb : no_str tb -> vs <> [] -> exists h', binder_vars h tb vs = (h', tb, OErr).
  Proof.
    intros H N. destruct vs as [|v vs]; [congruence|]. cbn.
    unfold to_var. destruct (tget tb (KStr v)) as [x|] eqn:E.
    - apply tget_in in E. exfalso. eapply H; eauto.
    - unfold new_var. cbn. rewrite app_nth2 by lia. rewrite Nat.sub_diag. cbn. eauto.
  Qed.

  Lemma lift_var_tb x h tb r : lift_var x = (h, tb, r) -> exists r', x = (h, tb, r').
  Proof. destruct x as [[h1 tb1] [v| | |]]; cbn; intros E; inversion E; eauto. Qed.

  Lemma conv_args_no_str l :
    Forall (fun t => forall h tb e h' tb' r, no_str tb -> to_rich t h tb e = (h', tb', r) -> no_str tb') l ->
    forall ss rep h tb h' tb' r, no_str tb -> conv_args l ss rep h tb = (h', tb', r) -> no_str tb'.
  Proof.
    induction 1 as [|a l H _ IH]; intros ss rep h tb h' tb' r N; cbn [conv_args].
    - intros E. inversion E; subst. auto.
    - destruct (match ss with p :: _ => Some p | [] => rep end) as [p|]; [|intros E; inversion E; subst; auto].
      destruct (to_rich a h tb p) as [[h1 tb1] [f| | |]] eqn:ET; try (intros E; inversion E; subst; eauto; fail).
      destruct (conv_args l (tl ss) rep h1 tb1) as [[h2 tb2] [fs'| | |]] eqn:EC; intros E; inversion E; subst; eauto.
  Qed.
  Lemma rich_no_str t : forall h tb e h' tb' r, no_str tb -> to_rich t h tb e = (h', tb', r) -> no_str tb'.
  Proof.
    induction t as [hd vs l IH|hd l IH|v] using tmp_ind'; intros h tb e h' tb' r N.
    - cbn. destruct (unify h e (PStatic SBool) REvaluated) as [[h1 [s|er]]|]; try (intros E; inversion E; subst; auto; fail).
      destruct vs as [|v vs].
      + cbn. destruct (binder_of hd) as [q|]; [|intros E; inversion E; subst; auto].
        destruct l as [|a [|b l]]; try (intros E; inversion E; subst; auto; fail).
        destruct (to_rich a h1 tb (PStatic SBool)) as [[h3 tb3] [g| | |]]; intros E; inversion E; subst; auto.
      + destruct (binder_vars_refused (v :: vs) h1 tb N) as [h2 ->]; [discriminate|]. intros E; inversion E; subst; auto.
    - rewrite to_rich_app. destruct (functions hd) as [g|].
      + destruct (is_tmp g); [intros E; inversion E; subst; auto|]. destruct (signature h (kind g)) as [h1 sg].
        destruct (unify h1 (sout sg) e REvaluated) as [[h2 [s|er]]|]; try (intros E; inversion E; subst; auto; fail).
        destruct (conv_args l (sargs sg) (srep sg) h2 tb) as [[h3 tb3] r3] eqn:EC.
        assert (no_str tb3) by (eapply conv_args_no_str; eauto).
        destruct r3; intros E; inversion E; subst; auto.
      + intros E. apply lift_var_tb in E as [r' E]. eapply to_var_no_str; eauto.
    - cbn. intros E. apply lift_var_tb in E as [r' E]. eapply to_var_no_str; eauto.
  Qed.

  Lemma conv_args_one l : forall a ss rep h tb h' tb' fs, no_str tb -> In a l ->
    conv_args l ss rep h tb = (h', tb', OOk fs) ->
    exists h0 tb0 p h1 tb1 f, no_str tb0 /\ to_rich a h0 tb0 p = (h1, tb1, OOk f).
  Proof.
    induction l as [|b l IH]; intros a ss rep h tb h' tb' fs N I; [destruct I|]. destruct I as [->|I]; cbn [conv_args];
      destruct (match ss with p :: _ => Some p | [] => rep end) as [p|]; try discriminate;
      [destruct (to_rich a h tb p) as [[h1 tb1] [f| | |]] eqn:ET; try discriminate; intros _; do 6 eexists; split; eauto|].
    destruct (to_rich b h tb p) as [[h1 tb1] [f| | |]] eqn:ET; try discriminate.
    destruct (conv_args l (tl ss) rep h1 tb1) as [[h2 tb2] [fs'| | |]] eqn:EC; try discriminate.
    intros _. eapply (IH a); [eapply (rich_no_str b); eauto|exact I|exact EC].
  Qed.

  Lemma conv_args_forall (P : tmp -> Prop) l : (forall t, In t l -> forall h tb e h' tb' f, no_str tb -> to_rich t h tb e = (h', tb', OOk f) -> P t) ->
    forall ss rep h tb h' tb' fs, no_str tb -> conv_args l ss rep h tb = (h', tb', OOk fs) -> Forall P l.
  Proof.
    intros H ss rep h tb h' tb' fs N E. apply Forall_forall. intros t I.
    destruct (conv_args_one l t ss rep h tb h' tb' fs N I E) as (h0 & tb0 & p & h1 & tb1 & f & N0 & E0). eauto.
  Qed.
  Lemma rich_plain t : forall h tb e h' tb' f, no_str tb -> to_rich t h tb e = (h', tb', OOk f) -> bindless functions t.
  Proof.
    induction t as [hd vs l IH|hd l IH|v] using tmp_ind'; intros h tb e h' tb' f N.
    - cbn. destruct (unify h e (PStatic SBool) REvaluated) as [[h1 [s|er]]|]; try discriminate.
      destruct vs as [|v vs].
      + cbn. destruct (binder_of hd) as [q|]; [|discriminate].
        destruct l as [|a [|b l]]; try discriminate. inversion IH; subst.
        destruct (to_rich a h1 tb (PStatic SBool)) as [[h3 tb3] [g| | |]] eqn:ET; try discriminate.
        intros _. apply bl_binder. eauto.
      + destruct (binder_vars_refused (v :: vs) h1 tb N) as [h2 ->]; [discriminate|]. discriminate.
    - rewrite to_rich_app. destruct (functions hd) as [g|] eqn:EF; [|intros _; apply bl_unknown; exact EF].
      destruct (is_tmp g); [discriminate|]. destruct (signature h (kind g)) as [h1 sg].
      destruct (unify h1 (sout sg) e REvaluated) as [[h2 [s|er]]|]; try discriminate.
      destruct (conv_args l (sargs sg) (srep sg) h2 tb) as [[h3 tb3] [fs| | |]] eqn:EC; try discriminate.
      intros _. eapply bl_app; eauto. eapply conv_args_forall; [|exact N|exact EC].
      rewrite Forall_forall in IH. intros t I h0 tb0 e0 h0' tb0' f0 N0 E0. eapply IH; eauto.
    - intros _. apply bl_unknown. exact I.
  Qed.

  (** *** Well-sorted terms *)

  Variable sigma : tmp -> sort.
  Notation used := (used functions kind sigma).

  Record good (tb : table) : Prop := mkGood {
    g_keys : forall k v, In (k, v) tb -> exists t, k = KTmp t /\ unknown t /\ same_sort REvaluated (sigma t) (vsort v);
    g_nodup : NoDup (map fst tb);
    g_ids : map (fun kv => vid (snd kv)) tb = seq 0 (length tb) }.

  Lemma good_nil : good [].
  Proof. split; [intros k v []|constructor|reflexivity]. Qed.

  Definition full (tb : table) : Prop := (4294967296 <= N.of_nat (length tb))%N.

  Lemma to_var_good h tb t e s h' tb' r : unknown t -> same_sort REvaluated (sigma t) s -> in_heap h e ->
    (forall s', as_option h e = Some s' -> same_sort REvaluated s' s) -> good tb ->
    to_var h tb (KTmp t) e = (h', tb', r) ->
    frame e h h' /\ good tb' /\ (exists x, tb' = tb ++ x) /\
    (forall v, r = OOk v -> In (KTmp t, v) tb' /\ exists s', as_option h' e = Some s' /\ same_sort REvaluated s' s) /\
    r <> OFuel /\ (r = OPanic -> full tb') /\ (as_option h e <> None -> r <> OErr).
  Proof.
    intros U S I C G. unfold to_var. destruct (tget tb (KTmp t)) as [v|] eqn:ET.
    - apply tget_in in ET. destruct (g_keys _ G _ _ ET) as (t' & Et & _ & Sv). injection Et as <-.
      destruct (expects_total h e (vsort v) REvaluated) as (h1 & x & E & X & Hok & Herr). rewrite E.
      destruct x as [u|er].
      + intros F. inversion F; subst. destruct u. destruct (Hok eq_refl I) as (s1 & A & B).
        split; [|split; [auto|split; [exists []; rewrite app_nil_r; auto|split; [|split; [discriminate|split; [discriminate|discriminate]]]]]].
        * split; [exact X|]. intros q Iq. revert E. unfold expects.
          destruct (as_option h e) as [s2|] eqn:Eo.
          -- destruct (eq_realm REvaluated s2 (vsort v)); intros Ex; inversion Ex; subst; auto.
          -- destruct (set_unwrap_ok h e (vsort v) Eo) as (h2 & -> & _ & _ & L). intros Ex. inversion Ex; subst. apply L.
        * intros v' Ev. injection Ev as <-. split; [exact ET|]. exists s1. split; [exact A|]. same.
      + exfalso. destruct (Herr _ eq_refl) as (_ & t2 & A & B & _). apply B. specialize (C _ A). same.
    - unfold new_var. destruct (as_option h e) as [s1|] eqn:Eo.
      + destruct (N.ltb_spec (N.of_nat (length tb)) 4294967296) as [L|L]; intros F; inversion F; subst; clear F.
        * rewrite (tput_fresh _ _ _ ET). pose proof (tget_none _ _ ET) as NI.
          split; [apply frame_refl|]. split; [|split; [eauto|split; [|split; [discriminate|split; [discriminate|discriminate]]]]].
          -- destruct G as [G1 G2 G3]. split.
             ++ intros k v Hin. apply in_app_or in Hin as [Hin|[Hin|[]]]; [eauto|]. inversion Hin; subst. exists t. cbn.
                split; [reflexivity|]. split; [exact U|]. specialize (C _ eq_refl). same.
             ++ rewrite map_app. cbn. clear - G2 NI.
                induction tb as [|a tb IH]; cbn in *; [repeat constructor; auto|]. inversion G2; subst.
                constructor; [|apply IH; auto]. rewrite in_app_iff. cbn. intros [X|[X|[]]]; auto.
             ++ rewrite map_app, app_length, seq_app, G3. reflexivity.
          -- intros v Ev. injection Ev as <-. split; [apply in_or_app; right; left; reflexivity|]. exists s1. auto.
        * split; [apply frame_refl|]. split; [auto|]. split; [exists []; rewrite app_nil_r; auto|].
          split; [discriminate|]. split; [discriminate|]. split; [intros _; exact L|discriminate].
      + intros F; inversion F; subst; clear F.
        split; [apply frame_refl|]. split; [auto|]. split; [exists []; rewrite app_nil_r; auto|].
        split; [discriminate|]. split; [discriminate|]. split; [discriminate|congruence].
  Qed.

  Definition book (tb : table) : list (tmp * var) :=
    flat_map (fun kv => match fst kv with KTmp t => [(t, snd kv)] | KStr _ => [] end) tb.
  Lemma in_book tb t v : In (t, v) (book tb) <-> In (KTmp t, v) tb.
  Proof.
    unfold book. rewrite in_flat_map. split.
    - intros ([[t'|s] v'] & I & X); cbn in X; [|destruct X]. destruct X as [X|[]]. inversion X; subst. exact I.
    - intros I. exists (KTmp t, v). split; [exact I|]. left. reflexivity.
  Qed.
  Lemma book_app a b : book (a ++ b) = book a ++ book b.
  Proof. apply flat_map_app. Qed.

  Lemma forall2_impl {A B} (P Q : A -> B -> Prop) l m : Forall (fun x => forall y, P x y -> Q x y) l -> Forall2 P l m -> Forall2 Q l m.
  Proof. intros H F. revert H. induction F; intros H'; inversion H'; subst; constructor; auto. Qed.

  Lemma reads_more b b' t : (forall x, In x b -> In x b') -> forall f, reads functions b t f -> reads functions b' t f.
  Proof.
    intros I. induction t as [hd vs l IH|hd l IH|v] using tmp_ind'; intros f R; inversion R; subst.
    - destruct H.
    - apply rd_unknown; auto.
    - eapply rd_app; eauto. eapply forall2_impl; [exact IH|auto].
    - apply rd_unknown; auto.
  Qed.

  (** The sort of a slot. *)
  Definition slot (c : sort) (p : proxy) : sort := match p with PStatic s => s | PVar _ => c end.
  Definition pick (ss : list proxy) (rep : option proxy) (i : nat) : option proxy :=
    match nth_error ss i with Some p => Some p | None => rep end.
  Definition ready (c : sort) (h : heap) (ss : list proxy) : Prop :=
    forall l, In (PVar l) ss -> l < length h /\ forall s', nth l h None = Some s' -> same_sort REvaluated s' c.

  Definition goal_of (t : tmp) : Prop := forall s h tb e h' tb' r,
    used t s -> in_heap h e -> (forall s', as_option h e = Some s' -> same_sort REvaluated s' s) -> good tb ->
    to_rich t h tb e = (h', tb', r) ->
    frame e h h' /\ good tb' /\ (exists x, tb' = tb ++ x) /\
    (forall f, r = OOk f -> reads functions (book tb') t f /\ exists s', as_option h' e = Some s' /\ same_sort REvaluated s' s) /\
    r <> OFuel /\ (r = OPanic -> full tb').

  Lemma conv_args_good c l : Forall goal_of l -> forall ts ss rep h tb h' tb' r,
    Forall2 used l ts ->
    (forall i s, nth_error ts i = Some s -> exists p, pick ss rep i = Some p /\ s = slot c p) ->
    ready c h ss -> (forall p, rep = Some p -> exists s, p = PStatic s) -> good tb ->
    conv_args l ss rep h tb = (h', tb', r) ->
    extends h h' /\ (forall q, in_heap h q -> as_option h' q = as_option h q \/ In q ss) /\ good tb' /\
    (exists x, tb' = tb ++ x) /\
    (forall fs, r = OOk fs -> Forall2 (reads functions (book tb')) l fs) /\ r <> OFuel /\ (r = OPanic -> full tb').
  Proof.
    induction 1 as [|a l Ha _ IH]; intros ts ss rep h tb h' tb' r U P R Rp G; cbn [conv_args].
    - intros E. inversion E; subst. split; [apply extends_refl|]. split; [auto|]. split; [auto|].
      split; [exists []; rewrite app_nil_r; auto|]. split; [intros fs X; injection X as <-; constructor|].
      split; discriminate.
    - inversion U as [|? s0 ? ts' Ua Ul]; subst. destruct (P 0 s0 eq_refl) as (p & Pk & Sp).
      assert ((match ss with p :: _ => Some p | [] => rep end) = Some p) as -> by (destruct ss; exact Pk).
      destruct (to_rich a h tb p) as [[h1 tb1] r1] eqn:ET.
      assert (in_heap h p) as Ip.
      { destruct p as [lp|]; [|exact I]. destruct ss as [|q ss]; cbn in Pk.
        - destruct (Rp _ Pk) as [s X]; discriminate X.
        - injection Pk as ->. apply (R lp). left. reflexivity. }
      assert (forall s', as_option h p = Some s' -> same_sort REvaluated s' s0) as Cp.
      { destruct p as [lp|sp]; cbn; intros s' X; subst s0; cbn.
        - destruct ss as [|q ss]; cbn in Pk; [destruct (Rp _ Pk) as [s Y]; discriminate Y|].
          injection Pk as ->. apply (R lp); [left; reflexivity|exact X].
        - injection X as ->. apply same_sort_refl. }
      destruct (Ha s0 h tb p h1 tb1 r1 Ua Ip Cp G ET) as (F1 & G1 & (x1 & X1) & Ok1 & NF1 & Full1).
      destruct r1 as [f| | |]; try (exfalso; apply NF1; reflexivity).
      + destruct (Ok1 f eq_refl) as (Rd1 & s1 & As1 & Ss1).
        destruct (conv_args l (tl ss) rep h1 tb1) as [[h2 tb2] r2] eqn:EC.
        assert (ready c h1 (tl ss)) as R1.
        { intros lq Iq. assert (In (PVar lq) ss) as Iq' by (destruct ss; [destruct Iq|right; exact Iq]).
          destruct (R lq Iq') as [L1 L2]. split; [destruct F1 as [[F1 _] _]; lia|].
          intros s' X. destruct F1 as [_ F1]. destruct (F1 (PVar lq) L1) as [Y|Y].
          - apply L2. cbn in Y. congruence.
          - subst p. cbn in As1. assert (s' = s1) as -> by congruence. cbn in Sp. subst s0. exact Ss1. }
        assert (forall i s, nth_error ts' i = Some s -> exists p, pick (tl ss) rep i = Some p /\ s = slot c p) as P1.
        { intros i s X. destruct (P (S i) s X) as (q & Q1 & Q2). exists q. split; [|exact Q2].
          unfold pick in *. destruct ss as [|q0 ss]; [|exact Q1]. cbn in *. destruct i; exact Q1. }
        destruct (IH ts' (tl ss) rep h1 tb1 h2 tb2 r2 Ul P1 R1 Rp G1 EC) as (E2 & F2 & G2 & (x2 & X2) & Ok2 & NF2 & Full2).
        destruct F1 as [E1 F1].
        assert (extends h h2) as E12 by (eapply extends_trans; eauto).
        assert (forall q, in_heap h q -> as_option h2 q = as_option h q \/ In q ss) as F12.
        { intros q Iq. destruct (F1 q Iq) as [Y|Y].
          - destruct (F2 q (extends_in _ _ _ E1 Iq)) as [Z|Z]; [left; congruence|right].
            destruct ss; [destruct Z|right; exact Z].
          - subst q. destruct ss as [|q ss]; cbn in Pk.
            + destruct (Rp _ Pk) as [s Z]. subst p. left. reflexivity.
            + injection Pk as ->. right. left. reflexivity. }
        assert (exists x, tb2 = tb ++ x) as X12 by (exists (x1 ++ x2); rewrite app_assoc; congruence).
        destruct r2 as [fs| | |]; intros E; inversion E; subst h' tb' r.
        * split; [exact E12|]. split; [exact F12|]. split; [exact G2|]. split; [exact X12|]. split; [|split; discriminate].
          intros fs' Y. injection Y as <-. constructor; [|apply Ok2; reflexivity].
          eapply reads_more; [|exact Rd1]. intros y. rewrite X2, book_app. intros Y. apply in_or_app. left. exact Y.
        * split; [exact E12|]. split; [exact F12|]. split; [exact G2|]. split; [exact X12|]. split; [discriminate|]. split; discriminate.
        * split; [exact E12|]. split; [exact F12|]. split; [exact G2|]. split; [exact X12|]. split; [discriminate|].
          split; [discriminate|]. intros _. apply Full2. reflexivity.
        * exfalso. apply NF2. reflexivity.
      + intros E; inversion E; subst h' tb' r. destruct F1 as [E1 F1].
        split; [exact E1|]. split; [|split; [exact G1|split; [exists x1; exact X1|split; [discriminate|split; discriminate]]]].
        intros q Iq. destruct (F1 q Iq) as [Y|Y]; [left; exact Y|]. subst q. destruct ss as [|q ss]; cbn in Pk.
        * destruct (Rp _ Pk) as [s Z]. subst p. left. reflexivity.
        * injection Pk as ->. right. left. reflexivity.
      + intros E; inversion E; subst h' tb' r. destruct F1 as [E1 F1].
        split; [exact E1|]. split; [|split; [exact G1|split; [exists x1; exact X1|split; [discriminate|split; [discriminate|intros _; apply Full1; reflexivity]]]]].
        intros q Iq. destruct (F1 q Iq) as [Y|Y]; [left; exact Y|]. subst q. destruct ss as [|q ss]; cbn in Pk.
        * destruct (Rp _ Pk) as [s Z]. subst p. left. reflexivity.
        * injection Pk as ->. right. left. reflexivity.
  Qed.

  Lemma signature_slots h k h1 sg ts o : signature h k = (h1, sg) -> accepts k ts o -> exists c,
    extends h h1 /\ (forall q, in_heap h q -> as_option h1 q = as_option h q) /\
    (forall i s, nth_error ts i = Some s -> exists p, pick (sargs sg) (srep sg) i = Some p /\ s = slot c p) /\
    o = slot c (sout sg) /\ (forall p, srep sg = Some p -> exists s, p = PStatic s) /\
    (forall l, In (PVar l) (sout sg :: sargs sg) -> length h <= l < length h1 /\ nth l h1 None = None).
  Proof.
    assert (forall x, extends h (h ++ x)) as EX.
    { intros x. split; [rewrite app_length; lia|]. intros [l|s] t; cbn; auto. intros H.
      rewrite app_nth1; auto. destruct (Nat.lt_ge_cases l (length h)); auto. rewrite nth_overflow in H by lia. discriminate. }
    assert (forall x q, in_heap h q -> as_option (h ++ x) q = as_option h q) as QX.
    { intros x [l|s] I; cbn in *; auto. rewrite app_nth1; auto. }
    intros E A. destruct A; cbn in E; inversion E; subst; clear E; cbn [sargs sout srep].
    - exists out. split; [apply extends_refl|]. split; [auto|]. split.
      { intros i s X. exists (PStatic s). unfold pick. rewrite nth_error_map, X. split; reflexivity. }
      split; [reflexivity|]. split; [discriminate|]. intros l [X|X]; [discriminate|]. apply in_map_iff in X as (x & X & _). discriminate.
    - exists SBool. split; [apply extends_refl|]. split; [auto|]. split.
      { intros i s X. exists (PStatic SBool). split; [unfold pick; destruct i; reflexivity|].
        rewrite Forall_forall in H. symmetry. apply H. eapply nth_error_In; eauto. }
      split; [reflexivity|]. split; [intros p X; injection X as <-; eauto|]. intros l [X|[]]. discriminate.
    - exists s. rewrite app_length. cbn [length]. rewrite <- app_assoc. split; [apply EX|]. split; [apply QX|]. split.
      { intros [|[|i]] x X; cbn in X; try (destruct i; discriminate); injection X as <-; unfold pick; cbn; eauto. }
      split; [reflexivity|]. split; [discriminate|]. intros l [X|[X|[X|[]]]]; [discriminate| |]; injection X as <-; rewrite app_length; cbn.
      + split; [lia|]. rewrite app_nth2 by lia. rewrite Nat.sub_diag. reflexivity.
      + split; [lia|]. rewrite app_nth2 by lia. replace (length h + 1 - length h) with 1 by lia. reflexivity.
    - exists s. split; [apply EX|]. split; [apply QX|]. split.
      { intros [|[|[|i]]] x X; cbn in X; try (destruct i; discriminate); injection X as <-; unfold pick; cbn; eauto. }
      split; [reflexivity|]. split; [discriminate|].
      intros l [X|[X|[X|[X|[]]]]]; try discriminate; injection X as <-; rewrite app_length; cbn; (split; [lia|]);
        rewrite app_nth2 by lia; rewrite Nat.sub_diag; reflexivity.
    - exists s. split; [apply EX|]. split; [apply QX|]. split.
      { intros [|[|i]] x X; cbn in X; try (destruct i; discriminate); injection X as <-; unfold pick; cbn; eauto. }
      split; [reflexivity|]. split; [discriminate|].
      intros l [X|[X|[X|[]]]]; try discriminate; injection X as <-; rewrite app_length; cbn; (split; [lia|]);
        rewrite app_nth2 by lia; rewrite Nat.sub_diag; reflexivity.
  Qed.

  Lemma rich_good t : goal_of t.
  Proof.
    induction t as [hd vs l IH|hd l IH|v] using tmp_ind'; intros s h tb e h' tb' r U Ie Ce G.
    - inversion U; subst. destruct H.
    - rewrite to_rich_app. destruct (functions hd) as [g|] eqn:EF.
      + inversion U as [? ? Un|? g' ? ts o ? Eg Uargs Acc So]; subst; [cbn in Un; congruence|].
        assert (g' = g) as -> by congruence. clear Eg.
        destruct (is_tmp g).
        { intros E; inversion E; subst. split; [apply frame_refl|]. split; [auto|].
          split; [exists []; rewrite app_nil_r; auto|]. split; [discriminate|]. split; discriminate. }
        destruct (signature h (kind g)) as [h1 sg] eqn:ES.
        destruct (signature_slots _ _ _ _ _ _ ES Acc) as (c & E1 & Q1 & P & So' & Rp & Cells).
        assert (in_heap h1 e) as Ie1 by (eapply extends_in; eauto).
        assert (in_heap h1 (sout sg)) as Io.
        { destruct (sout sg) as [lo|so] eqn:Eo; [|exact I]. apply (Cells lo). left. reflexivity. }
        destruct (unify_total h1 (sout sg) e REvaluated) as (h2 & x & EU & E2 & Uok & Uerr & Uloc0). rewrite EU.
        assert (forall q, as_option h2 q = as_option h1 q \/ q = sout sg \/ q = e) as Uloc.
        { intros q. assert ({as_option h2 q = as_option h1 q} + {as_option h2 q <> as_option h1 q}) as [D|D]
            by (decide equality; apply sort_eq_dec); [left; exact D|right; auto]. }
        assert (forall q, in_heap h q -> as_option h2 q = as_option h q \/ q = e) as Q2.
        { intros q Iq. destruct (Uloc q) as [Y|[Y|Y]]; auto.
          - left. rewrite Y. apply Q1. exact Iq.
          - left. subst q. destruct (sout sg) as [lo|so] eqn:Eo; [|reflexivity]. exfalso.
            destruct (Cells lo) as [L _]; [left; reflexivity|]. cbn in Iq. lia. }
        destruct x as [s1|er].
        2:{ intros E; inversion E; subst. split; [split; [eapply extends_trans; eauto|exact Q2]|]. split; [auto|].
            split; [exists []; rewrite app_nil_r; auto|]. split; [discriminate|]. split; discriminate. }
        destruct (Uok s1 eq_refl Io Ie1) as (t1 & t2 & A1 & A2 & A3 & _).
        assert (same_sort REvaluated t1 o) as T1.
        { destruct (sout sg) as [lo|so] eqn:Eo; cbn in So'.
          - subst o. destruct (as_option h e) as [s'|] eqn:Ee.
            + specialize (Ce s' eq_refl). assert (as_option h2 e = Some s') as Y.
              { apply (proj2 E2). rewrite (Q1 e Ie). exact Ee. }
              assert (s' = t2) as -> by congruence. same.
            + exfalso. revert EU. unfold unify. destruct (Cells lo) as [_ N0]; [left; reflexivity|].
              cbn [as_option]. rewrite N0, (Q1 e Ie), Ee. discriminate.
          - subst o. cbn in A1. injection A1 as <-. apply same_sort_refl. }
        assert (ready c h2 (sargs sg)) as R.
        { intros lq Iq. destruct (Cells lq) as [L N0]; [right; exact Iq|]. split; [destruct E2 as [E2 _]; lia|].
          intros s' X. destruct (Uloc (PVar lq)) as [Y|[Y|Y]].
          - exfalso. cbn in Y. congruence.
          - destruct (sout sg) as [lo|so] eqn:Eo; [|discriminate]. injection Y as ->. cbn in A1, So'. subst o. congruence.
          - subst e. cbn in Ie. lia. }
        destruct (conv_args l (sargs sg) (srep sg) h2 tb) as [[h3 tb3] r3] eqn:EC.
        destruct (conv_args_good c l IH ts _ _ _ _ _ _ _ Uargs P R Rp G EC) as (E3 & F3 & G3 & X3 & Ok3 & NF3 & Full3).
        assert (frame e h h3) as FR.
        { split; [eapply extends_trans; [exact E1|eapply extends_trans; eauto]|]. intros q Iq.
          destruct (Q2 q Iq) as [Y|Y]; [|right; exact Y].
          assert (in_heap h2 q) as Iq2 by (eapply extends_in; [exact E2|eapply extends_in; eauto]).
          destruct (F3 q Iq2) as [Z|Z]; [left; congruence|].
          destruct q as [lq|sq]; [|left; reflexivity]. exfalso. destruct (Cells lq) as [L _]; [right; exact Z|]. cbn in Iq. lia. }
        destruct r3 as [fs| | |]; intros E; inversion E; subst h' tb' r; clear E;
          (split; [exact FR|]); (split; [exact G3|]); (split; [exact X3|]);
          try (split; [discriminate|]; split; discriminate).
        * split; [|split; discriminate]. intros f X. injection X as <-. split.
          -- eapply rd_app; [exact EF|]. apply Ok3. reflexivity.
          -- exists t2. split; [apply (proj2 E3); exact A2|]. same.
        * split; [discriminate|]. split; [discriminate|]. intros _. apply Full3. reflexivity.
        * exfalso. apply NF3. reflexivity.
      + inversion U as [? ? Un Su|? g' ? ts o ? Eg Uargs Acc So]; subst; [|congruence].
        destruct (to_var h tb (KTmp (TApp hd l)) e) as [[h1 tb1] r1] eqn:EV.
        destruct (to_var_good _ _ _ _ _ _ _ _ Un Su Ie Ce G EV) as (A1 & A2 & A3 & A4 & A5 & A6 & _).
        destruct r1 as [v| | |]; cbn; intros E; inversion E; subst h' tb' r; clear E;
          (split; [exact A1|]); (split; [exact A2|]); (split; [exact A3|]); try (split; [discriminate|]; split; discriminate).
        * split; [|split; discriminate]. intros f X. injection X as <-. destruct (A4 v eq_refl) as [B1 B2].
          split; [|exact B2]. apply rd_unknown; [exact Un|]. apply in_book. exact B1.
        * split; [discriminate|]. split; [discriminate|]. intros _. apply A6. reflexivity.
        * exfalso. apply A5. reflexivity.
    - inversion U as [? ? Un Su|]; subst. cbn.
        destruct (to_var h tb (KTmp (TVar v)) e) as [[h1 tb1] r1] eqn:EV.
        destruct (to_var_good _ _ _ _ _ _ _ _ Un Su Ie Ce G EV) as (A1 & A2 & A3 & A4 & A5 & A6 & _).
        destruct r1 as [x| | |]; cbn; intros E; inversion E; subst h' tb' r; clear E;
          (split; [exact A1|]); (split; [exact A2|]); (split; [exact A3|]); try (split; [discriminate|]; split; discriminate).
        * split; [|split; discriminate]. intros f X. injection X as <-. destruct (A4 x eq_refl) as [B1 B2].
          split; [|exact B2]. apply rd_unknown; [exact Un|]. apply in_book. exact B1.
        * split; [discriminate|]. split; [discriminate|]. intros _. apply A6. reflexivity.
        * exfalso. apply A5. reflexivity.
  Qed.

  (** Well-sorted terms whose sorts can be inferred are accepted. *)
  Notation inferable := (inferable functions kind is_tmp).
  Definition no_err (t : tmp) : Prop := forall b s h tb e h' tb' r, inferable b t ->
    used t s -> in_heap h e -> (forall s', as_option h e = Some s' -> same_sort REvaluated s' s) ->
    (b = true -> as_option h e <> None) -> good tb -> to_rich t h tb e = (h', tb', r) -> r <> OErr.

  Lemma conv_args_no_err c l : Forall no_err l -> forall bs ts ss rep h tb h' tb' r,
    Forall2 inferable bs l -> Forall2 used l ts ->
    (forall i s, nth_error ts i = Some s -> exists p, pick ss rep i = Some p /\ s = slot c p) ->
    ready c h ss -> (forall p, rep = Some p -> exists s, p = PStatic s) -> good tb ->
    (forall i p, nth_error bs i = Some true -> pick ss rep i = Some p -> as_option h p <> None) ->
    conv_args l ss rep h tb = (h', tb', r) -> r <> OErr.
  Proof.
    induction 1 as [|a l Ha _ IH]; intros bs ts ss rep h tb h' tb' r B U P R Rp G K; cbn [conv_args].
    - intros E. inversion E. discriminate.
    - inversion U as [|? s0 ? ts' Ua Ul]; subst. destruct (P 0 s0 eq_refl) as (p & Pk & Sp).
      inversion B as [|b ? bs' ? Ba Bl]; subst.
      assert ((match ss with p :: _ => Some p | [] => rep end) = Some p) as -> by (destruct ss; exact Pk).
      destruct (to_rich a h tb p) as [[h1 tb1] r1] eqn:ET.
      assert (in_heap h p) as Ip.
      { destruct p as [lp|]; [|exact I]. destruct ss as [|q ss]; cbn in Pk.
        - destruct (Rp _ Pk) as [s X]; discriminate X.
        - injection Pk as ->. apply (R lp). left. reflexivity. }
      assert (forall s', as_option h p = Some s' -> same_sort REvaluated s' (slot c p)) as Cp.
      { destruct p as [lp|sp]; cbn; intros s' X.
        - destruct ss as [|q ss]; cbn in Pk; [destruct (Rp _ Pk) as [s Y]; discriminate Y|].
          injection Pk as ->. apply (R lp); [left; reflexivity|exact X].
        - injection X as ->. apply same_sort_refl. }
      destruct (rich_good a _ h tb p h1 tb1 r1 Ua Ip Cp G ET) as (F1 & G1 & (x1 & X1) & Ok1 & NF1 & Full1).
      assert (r1 <> OErr) as NE.
      { refine (Ha b _ h tb p h1 tb1 r1 Ba Ua Ip Cp _ G ET). intros ->. apply (K 0 p eq_refl Pk). }
      destruct r1 as [f| | |]; try (intros E; inversion E; subst; try discriminate; congruence).
      destruct (Ok1 f eq_refl) as (Rd1 & s1 & As1 & Ss1).
      destruct (conv_args l (tl ss) rep h1 tb1) as [[h2 tb2] r2] eqn:EC.
      assert (ready c h1 (tl ss)) as R1.
      { intros lq Iq. assert (In (PVar lq) ss) as Iq' by (destruct ss; [destruct Iq|right; exact Iq]).
        destruct (R lq Iq') as [L1 L2]. split; [destruct F1 as [[F1 _] _]; lia|].
        intros s' X. destruct F1 as [_ F1]. destruct (F1 (PVar lq) L1) as [Y|Y].
        - apply L2. cbn in Y. congruence.
        - subst p. cbn in As1. assert (s' = s1) as -> by congruence. exact Ss1. }
      assert (forall i, pick (tl ss) rep i = pick ss rep (S i)) as PT.
      { intros i. unfold pick. destruct ss as [|q0 ss]; [|reflexivity]. cbn. destruct i; reflexivity. }
      assert (r2 <> OErr) as NE2.
      { refine (IH bs' ts' (tl ss) rep h1 tb1 h2 tb2 r2 Bl Ul _ R1 Rp G1 _ EC).
        - intros i s X. rewrite PT. exact (P (S i) s X).
        - intros i q X Y. rewrite PT in Y. specialize (K (S i) q X Y).
          destruct (as_option h q) as [sq|] eqn:Eq; [|congruence]. destruct F1 as [[_ F1] _]. rewrite (F1 _ _ Eq). discriminate. }
      destruct r2; intros E; inversion E; subst; congruence.
  Qed.

  Lemma rich_no_err t : no_err t.
  Proof.
    induction t as [hd vs l IH|hd l IH|v] using tmp_ind'; intros b s h tb e h' tb' r B U Ie Ce K G.
    - inversion B; subst. destruct H.
    - rewrite to_rich_app. destruct (functions hd) as [g|] eqn:EF.
      + inversion U as [? ? Un|? g' ? ts o ? Eg Uargs Acc So]; subst; [cbn in Un; congruence|].
        assert (g' = g) as -> by congruence. clear Eg.
        inversion B as [? Bn|? g' ? ? Eg Nt Ni Bargs]; subst; [cbn in Bn; congruence|].
        assert (g' = g) as -> by congruence. clear Eg. rewrite Nt.
        destruct (signature h (kind g)) as [h1 sg] eqn:ES.
        destruct (signature_slots _ _ _ _ _ _ ES Acc) as (c & E1 & Q1 & P & So' & Rp & Cells).
        assert (in_heap h1 e) as Ie1 by (eapply extends_in; eauto).
        assert (in_heap h1 (sout sg)) as Io.
        { destruct (sout sg) as [lo|so] eqn:Eo; [|exact I]. apply (Cells lo). left. reflexivity. }
        destruct (unify_total h1 (sout sg) e REvaluated) as (h2 & x & EU & E2 & Uok & Uerr & Uloc0). rewrite EU.
        assert (forall q, as_option h2 q = as_option h1 q \/ q = sout sg \/ q = e) as Uloc.
        { intros q. assert ({as_option h2 q = as_option h1 q} + {as_option h2 q <> as_option h1 q}) as [D|D]
            by (decide equality; apply sort_eq_dec); [left; exact D|right; auto]. }
        destruct x as [s1|er].
        2:{ exfalso. destruct (Uerr er eq_refl) as [_ [[A1 A2]|(t1 & t2 & A1 & A2 & A3)]].
            - rewrite (Q1 e Ie) in A2. destruct Ni as [->|Ni]; [apply K; auto|].
              destruct (kind g); cbn in ES; inversion ES; subst; cbn in A1; try discriminate. apply Ni. reflexivity.
            - rewrite (Q1 e Ie) in A2. specialize (Ce _ A2). apply A3. destruct (sout sg) as [lo|so] eqn:Eo.
              + cbn in A1. destruct (Cells lo) as [_ Y]; [left; reflexivity|]. congruence.
              + cbn in A1, So'. injection A1 as <-. subst o. same. }
        destruct (Uok s1 eq_refl Io Ie1) as (t1 & t2 & A1 & A2 & A3 & _).
        assert (same_sort REvaluated t1 o) as T1.
        { destruct (sout sg) as [lo|so] eqn:Eo; cbn in So'.
          - subst o. destruct (as_option h e) as [s'|] eqn:Ee.
            + specialize (Ce s' eq_refl). assert (as_option h2 e = Some s') as Y.
              { apply (proj2 E2). rewrite (Q1 e Ie). exact Ee. }
              assert (s' = t2) as -> by congruence. same.
            + exfalso. revert EU. unfold unify. destruct (Cells lo) as [_ N0]; [left; reflexivity|].
              cbn [as_option]. rewrite N0, (Q1 e Ie), Ee. discriminate.
          - subst o. cbn in A1. injection A1 as <-. apply same_sort_refl. }
        assert (ready c h2 (sargs sg)) as R.
        { intros lq Iq. destruct (Cells lq) as [L N0]; [right; exact Iq|]. split; [destruct E2 as [E2 _]; lia|].
          intros s' X. destruct (Uloc (PVar lq)) as [Y|[Y|Y]].
          - exfalso. cbn in Y. congruence.
          - destruct (sout sg) as [lo|so] eqn:Eo; [|discriminate]. injection Y as ->. cbn in A1, So'. subst o. congruence.
          - subst e. cbn in Ie. lia. }
        destruct (conv_args l (sargs sg) (srep sg) h2 tb) as [[h3 tb3] r3] eqn:EC.
        assert (r3 <> OErr) as NE.
        { refine (conv_args_no_err c l IH _ ts _ _ _ _ _ _ _ Bargs Uargs P R Rp G _ EC).
          intros i p Bi Pi. destruct (kind g) as [args out| | | |own] eqn:Ek; cbn in ES; inversion ES; subst; cbn [sargs srep sout] in *.
          - unfold pick in Pi. rewrite nth_error_map in Pi. destruct (nth_error args i); cbn in Pi; [injection Pi as <-; discriminate|discriminate].
          - unfold pick in Pi. destruct i; cbn in Pi; injection Pi as <-; discriminate.
          - destruct i as [|[|[|i]]]; discriminate.
          - destruct i as [|[|[|i]]]; unfold pick in Pi; cbn in Pi; try (injection Pi as <-); try (cbn in *; congruence); try discriminate.
            destruct i; discriminate.
          - destruct i as [|[|[|i]]]; try discriminate. unfold pick in Pi. cbn in Pi. injection Pi as <-. discriminate. }
        destruct r3; intros E; inversion E; subst; congruence.
      + inversion U as [? ? Un Su|? g' ? ts o ? Eg Uargs Acc So]; subst; [|congruence].
        inversion B as [? Bn|? g' ? ? Eg Nt Ni Bargs]; subst; [|congruence].
        destruct (to_var h tb (KTmp (TApp hd l)) e) as [[h1 tb1] r1] eqn:EV.
        destruct (to_var_good _ _ _ _ _ _ _ _ Un Su Ie Ce G EV) as (_ & _ & _ & _ & _ & _ & A7).
        specialize (A7 (K eq_refl)). destruct r1; cbn; intros E; inversion E; subst; congruence.
    - inversion U as [? ? Un Su|]; subst. inversion B; subst. cbn.
      destruct (to_var h tb (KTmp (TVar v)) e) as [[h1 tb1] r1] eqn:EV.
      destruct (to_var_good _ _ _ _ _ _ _ _ Un Su Ie Ce G EV) as (_ & _ & _ & _ & _ & _ & A7).
      specialize (A7 (K eq_refl)). destruct r1; cbn; intros E; inversion E; subst; congruence.
  Qed.

  Lemma good_book tb : good tb -> one_to_one (book tb).
  Proof.
    intros [G1 G2 G3] t v t' v'. rewrite !in_book. intros I I'. split.
    - intros <-. assert (v = v') as ->; [|reflexivity].
      clear - G2 I I'. induction tb as [|[k x] tb IH]; [destruct I|]. cbn in *. inversion G2; subst.
      destruct I as [I|I], I' as [I'|I']; try congruence; auto.
      + exfalso. inversion I; subst. apply H1. apply (in_map fst) in I'. exact I'.
      + exfalso. inversion I'; subst. apply H1. apply (in_map fst) in I. exact I.
    - intros E. assert (NoDup (map (fun kv : key * var => vid (snd kv)) tb)) as ND by (rewrite G3; apply seq_NoDup).
      clear - ND I I' E. induction tb as [|[k x] tb IH]; [destruct I|]. cbn in *. inversion ND; subst.
      destruct I as [I|I], I' as [I'|I']; try congruence; auto.
      + exfalso. inversion I; subst. apply H1. rewrite E. apply (in_map (fun kv : key * var => vid (snd kv))) in I'. exact I'.
      + exfalso. inversion I'; subst. apply H1. rewrite <- E. apply (in_map (fun kv : key * var => vid (snd kv))) in I. exact I.
  Qed.

  Lemma read_all_bindless l : forall h tb, no_str tb ->
    Forall2 (fun te r => forall f, r = OOk f -> bindless functions (fst te)) l (read_all functions kind is_tmp l h tb).
  Proof.
    induction l as [|[t es] l IH]; intros h tb N; cbn [read_all]; [constructor|].
    destruct (match es with Some s => (h, PStatic s) | None => new_proxy h end) as [h1 e].
    destruct (to_rich t h1 tb e) as [[h2 tb2] r] eqn:ET. constructor.
    - intros f ->. eapply rich_plain; eauto.
    - apply IH. eapply rich_no_str; eauto.
  Qed.
  Lemma read_all_arities l : forall h tb,
    Forall (fun r => forall f, r = OOk f -> arities kind le f) (read_all functions kind is_tmp l h tb).
  Proof.
    induction l as [|[t es] l IH]; intros h tb; cbn [read_all]; [constructor|].
    destruct (match es with Some s => (h, PStatic s) | None => new_proxy h end) as [h1 e].
    destruct (to_rich t h1 tb e) as [[h2 tb2] r] eqn:ET. constructor; [|apply IH].
    intros f ->. eapply rich_arities; eauto.
  Qed.

  Lemma read_all_good l : Forall (fun te => exists s, used (fst te) s /\ forall s', snd te = Some s' -> same_sort REvaluated s' s) l ->
    forall h tb, good tb -> exists tb', good tb' /\ (exists x, tb' = tb ++ x) /\
    Forall2 (fun te r => match r with
                         | OOk f => reads functions (book tb') (fst te) f
                         | OErr => ~ inferable (match snd te with Some _ => true | None => false end) (fst te)
                         | OPanic => full tb'
                         | OFuel => False
                         end) l (read_all functions kind is_tmp l h tb).
  Proof.
    induction 1 as [|[t es] l (s & U & C) _ IH]; intros h tb G; cbn [read_all].
    - exists tb. split; [exact G|]. split; [exists []; rewrite app_nil_r; reflexivity|constructor].
    - destruct (match es with Some s => (h, PStatic s) | None => new_proxy h end) as [h1 e] eqn:EE.
      assert (in_heap h1 e /\ forall s', as_option h1 e = Some s' -> same_sort REvaluated s' s) as [I1 C1].
      { destruct es as [s1|]; cbn in EE; inversion EE; subst.
        - split; [exact I|]. cbn. intros s' X. injection X as <-. apply C. reflexivity.
        - cbn. rewrite app_length. cbn. split; [lia|]. intros s'. rewrite app_nth2 by lia. rewrite Nat.sub_diag. discriminate. }
      destruct (to_rich t h1 tb e) as [[h2 tb2] r] eqn:ET.
      destruct (rich_good t s h1 tb e h2 tb2 r U I1 C1 G ET) as (_ & G2 & (x & X) & Ok & NF & Full).
      destruct (IH h2 tb2 G2) as (tb' & G' & (x' & X') & F'). exists tb'. split; [exact G'|].
      split; [exists (x ++ x'); rewrite app_assoc; congruence|]. constructor; [|exact F'].
      destruct r as [f| | |]; cbn.
      + destruct (Ok f eq_refl) as [Rd _]. eapply reads_more; [|exact Rd]. intros y Y. rewrite X', book_app. apply in_or_app. auto.
      + intros B. refine (rich_no_err t _ s h1 tb e h2 tb2 OErr B U I1 C1 _ G ET eq_refl).
        destruct es; [|discriminate]. injection EE as <- <-. intros _. discriminate.
      + specialize (Full eq_refl). unfold full in *. rewrite X', app_length. lia.
      + apply NF. reflexivity.
  Qed.
End Conv.

(** *** Exact numbers of arguments *)
Section Exact.
  Variable functions : chars -> option fsym.
  Variable kind : fsym -> sigkind.
  Variable is_tmp : fsym -> bool.

  Lemma conv_args_exact l :
    Forall (fun t => right_arity functions kind t -> forall h tb e h' tb' f, to_rich functions kind is_tmp t h tb e = (h', tb', OOk f) -> arities kind eq f) l ->
    Forall (right_arity functions kind) l ->
    forall ss rep h tb h' tb' fs, conv_args functions kind is_tmp l ss rep h tb = (h', tb', OOk fs) -> Forall (arities kind eq) fs.
  Proof.
    intros H R ss rep h tb h' tb' fs E. eapply conv_args_all; [|exact E].
    rewrite Forall_forall in H, R. apply Forall_forall. intros t I. apply H; auto.
  Qed.
  Lemma rich_exact t : right_arity functions kind t ->
    forall h tb e h' tb' f, to_rich functions kind is_tmp t h tb e = (h', tb', OOk f) -> arities kind eq f.
  Proof.
    induction t as [hd vs l IH|hd l IH|v] using tmp_ind'; intros R h tb e h' tb' f.
    - inversion R; subst. destruct H.
    - rewrite to_rich_app. destruct (functions hd) as [g|] eqn:EF.
      + inversion R as [? Un|? g' ? Eg A Rl]; subst; [cbn in Un; congruence|]. assert (g' = g) as -> by congruence.
        destruct (is_tmp g); [discriminate|]. destruct (signature h (kind g)) as [h1 sg] eqn:ES.
        destruct (unify h1 (sout sg) e REvaluated) as [[h2 [s|er]]|]; try discriminate.
        destruct (conv_args functions kind is_tmp l (sargs sg) (srep sg) h2 tb) as [[h3 tb3] [fs| | |]] eqn:EC; try discriminate.
        intros E. inversion E; subst. apply ar_fun.
        * intros n X. destruct (conv_args_length _ _ _ _ _ _ _ _ _ _ _ EC) as [-> _]. apply A. exact X.
        * eapply conv_args_exact; eauto.
      + intros E. apply lift_var_ok in E as [v ->]. apply ar_var.
    - cbn. intros E. apply lift_var_ok in E as [x ->]. apply ar_var.
  Qed.
End Exact.

Lemma read_all_exact functions kind is_tmp l : Forall (fun te => right_arity functions kind (fst te)) l ->
  forall h tb, Forall (fun r => forall f, r = OOk f -> arities kind eq f) (read_all functions kind is_tmp l h tb).
Proof.
  induction 1 as [|[t es] l R _ IH]; intros h tb; cbn [read_all]; [constructor|].
  destruct (match es with Some s => (h, PStatic s) | None => new_proxy h end) as [h1 e].
  destruct (to_rich functions kind is_tmp t h1 tb e) as [[h2 tb2] r] eqn:ET. constructor; [|apply IH].
  intros f ->. eapply rich_exact; eauto.
Qed.

(** ** Quotes *)

Lemma byte_len_ascii s : ascii_text s -> byte_len s = N.of_nat (length s).
Proof.
  induction 1 as [|c s H _ IH]; [reflexivity|]. cbn [byte_len fold_right length]. fold (byte_len s). rewrite IH.
  unfold utf8_len. destruct (N.ltb_spec c 128); lia.
Qed.
Lemma utf8_pos c : (1 <= utf8_len c)%N.
Proof. unfold utf8_len. destruct (N.ltb c 128), (N.ltb c 2048), (N.ltb c 65536); lia. Qed.
Lemma byte_len_ge s : (N.of_nat (length s) <= byte_len s)%N.
Proof.
  induction s as [|c s IH]; [cbn; lia|]. cbn [byte_len fold_right length]. fold (byte_len s). pose proof (utf8_pos c). lia.
Qed.
Lemma byte_len_gt s : ~ ascii_text s -> (N.of_nat (length s) < byte_len s)%N.
Proof.
  induction s as [|c s IH]; intros H; [exfalso; apply H; constructor|].
  cbn [byte_len fold_right length]. fold (byte_len s). unfold utf8_len.
  destruct (N.ltb_spec c 128).
  - assert (~ ascii_text s) by (intros X; apply H; constructor; auto). specialize (IH H1). lia.
  - pose proof (byte_len_ge s). destruct (N.ltb c 2048), (N.ltb c 65536); lia.
Qed.
Lemma byte_len_app a b : byte_len (a ++ b) = (byte_len a + byte_len b)%N.
Proof. induction a as [|c a IH]; [reflexivity|]. cbn [app byte_len fold_right]. fold (byte_len (a ++ b)) (byte_len a). rewrite IH. lia. Qed.

Lemma trim_quoted inner : trim_quotes (quoted inner) =
  firstn (N.to_nat (N.min (byte_len inner) (N.of_nat (S (length inner))))) (inner ++ [39%N]).
Proof.
  unfold quoted, trim_quotes.
  assert (List.last (39%N :: inner ++ [39%N]) 0%N = 39%N) as ->
    by (change (39%N :: inner ++ [39%N]) with ((39%N :: inner) ++ [39%N]); apply last_last).
  cbn [N.eqb]. change (N.eqb 39 quote && N.eqb 39 quote) with true. cbv iota.
  rewrite app_length. cbn [length]. rewrite Nat.add_1_r.
  cbn [byte_len fold_right]. fold (byte_len (inner ++ [39%N])). rewrite byte_len_app.
  change (byte_len [39%N]) with 1%N. change (utf8_len 39) with 1%N. unfold wrapping_sub.
  destruct (N.leb_spec 2 (1 + (byte_len inner + 1))); [|lia].
  replace (1 + (byte_len inner + 1) - 2)%N with (byte_len inner) by lia. reflexivity.
Qed.
Lemma trim_ascii inner : ascii_text inner -> trim_quotes (quoted inner) = inner.
Proof.
  intros H. rewrite trim_quoted, (byte_len_ascii _ H).
  replace (N.to_nat (N.min (N.of_nat (length inner)) (N.of_nat (S (length inner))))) with (length inner) by lia.
  rewrite firstn_app, firstn_all, Nat.sub_diag. cbn. apply app_nil_r.
Qed.
Lemma trim_wide inner : ~ ascii_text inner -> trim_quotes (quoted inner) = inner ++ [39%N].
Proof.
  intros H. rewrite trim_quoted. pose proof (byte_len_gt _ H).
  replace (N.to_nat (N.min (byte_len inner) (N.of_nat (S (length inner))))) with (length (inner ++ [39%N]))
    by (rewrite app_length; cbn; lia). apply firstn_all.
Qed.
Lemma trim_other s : ~ is_quoted s -> s <> [39%N] -> trim_quotes s = s.
Proof.
  intros H N. destruct s as [|c s]; [reflexivity|]. unfold trim_quotes.
  destruct (N.eqb_spec c quote) as [->|Ne]; [|reflexivity].
  destruct (N.eqb_spec (List.last (quote :: s) 0%N) quote) as [E|Ne]; [|reflexivity].
  exfalso. destruct s as [|d s] using rev_ind; [apply N; reflexivity|].
  apply H. exists s. unfold quoted. f_equal. f_equal. f_equal.
  change (quote :: s ++ [d]) with ((quote :: s) ++ [d]) in E. rewrite last_last in E. exact E.
Qed.

(** ** Literals *)
Lemma xterm_ind' (P : xterm -> Prop) : (forall v, P (XVar v)) -> (forall f l, Forall P l -> P (XApp f l)) ->
  (forall d, P (XDefined d)) -> forall t, P t.
Proof. intros A B C. fix F 1. intros [v|f l|d]; [apply A| |apply C]. apply B. induction l; constructor; auto. Qed.
Lemma term_flat x : flat (term_of x).
Proof.
  induction x as [v|f l IH|d] using xterm_ind'; cbn; [apply fl_var| |apply fl_app; constructor].
  apply fl_app. induction IH; constructor; auto.
Qed.
Lemma terms_flat l : Forall flat (map term_of l).
Proof. apply Forall_forall. intros t H. apply in_map_iff in H as (x & <- & _). apply term_flat. Qed.
Lemma literal_flat l : flat (literal_of l).
Proof.
  destruct l as [[p l|a b]|[p l|a b]|a b]; cbn; repeat (apply fl_app; repeat constructor); try apply terms_flat; apply term_flat.
Qed.

Lemma nil_no_str : no_str [].
Proof. intros s v []. Qed.
Lemma c49_bindless functions kind is_tmp l :
  Forall2 (fun te r => forall f, r = OOk f -> bindless functions (fst te)) l (read_all functions kind is_tmp l [] []).
Proof. apply read_all_bindless. apply nil_no_str. Qed.

Lemma book_length tb functions sigma : good functions sigma tb -> length (book tb) = length tb.
Proof.
  intros G. assert (forall k v, In (k, v) tb -> exists t, k = KTmp t) as K
    by (intros k v I; destruct (g_keys _ _ _ G _ _ I) as (t & -> & _); eauto).
  clear G. induction tb as [|[k v] tb IH]; [reflexivity|].
  change (book ((k, v) :: tb)) with ((match k with KTmp t => [(t, v)] | KStr _ => [] end) ++ book tb). rewrite app_length.
  destruct (K k v) as [t ->]; [left; reflexivity|]. cbn. rewrite IH; [reflexivity|]. intros; eapply K; right; eauto.
Qed.
Lemma c49_distinct functions kind is_tmp sigma l :
    Forall (fun te => exists s, used functions kind sigma (fst te) s /\
                                forall s', snd te = Some s' -> same_sort REvaluated s' s) l ->
    exists book, one_to_one book /\
      (forall t v, In (t, v) book -> unknown functions t /\ same_sort REvaluated (sigma t) (vsort v)) /\
      Forall2 (fun te r => match r with
                           | OOk f => reads functions book (fst te) f
                           | OErr => ~ inferable functions kind is_tmp
                                         (match snd te with Some _ => true | None => false end) (fst te)
                           | OPanic => (4294967296 <= N.of_nat (List.length book))%N
                           | OFuel => False
                           end) l (read_all functions kind is_tmp l [] []).
Proof.
  intros H. destruct (read_all_good functions kind is_tmp sigma l H [] [] (good_nil _ _)) as (tb & G & _ & F).
  exists (book tb). split; [eapply good_book; eauto|]. split.
  - intros t v I. apply in_book in I. destruct (g_keys _ _ _ G _ _ I) as (t' & E & U & S). injection E as <-. auto.
  - clear - F G. revert F. generalize (read_all functions kind is_tmp l [] []). intros rs F.
    induction F as [|te r l rs Q _ IH]; constructor; [|exact IH].
    destruct r; [exact Q|exact Q| |exact Q]. rewrite (book_length _ _ _ G). exact Q.
Qed.
Lemma c49_literal functions kind is_tmp sigma x s f :
    used functions kind sigma (literal_of x) s -> read_one functions kind is_tmp (literal_of x) = OOk f ->
    exists book, one_to_one book /\
      (forall t v, In (t, v) book -> unknown functions t /\ same_sort REvaluated (sigma t) (vsort v)) /\
      reads functions book (literal_of x) f.
Proof.
  intros U R. destruct (c49_distinct functions kind is_tmp sigma [(literal_of x, None)]) as (b & A & B & C).
  - constructor; [|constructor]. exists s. split; [exact U|]. discriminate.
  - exists b. split; [exact A|]. split; [exact B|]. unfold read_one in R. cbn [read_all] in C.
    change (new_proxy []) with (fst (new_proxy []), snd (new_proxy [])) in C. cbv beta iota zeta in C.
    destruct (to_rich functions kind is_tmp (literal_of x) (fst (new_proxy [])) [] (snd (new_proxy []))) as [[h2 tb2] r].
    subst r. inversion C; subst. assumption.
Qed.

From Coq Require Import String.
Local Open Scope list_scope.
(** ** Meaning of literals *)
Lemma trim_unquoted s n : ascii_text s -> unquoted s n -> trim_quotes s = n.
Proof.
  intros A [->|[-> [N L]]].
  - apply trim_ascii. unfold ascii_text, quoted in *. inversion A as [|? ? _ B]; subst. apply Forall_app in B as [B _]. exact B.
  - apply trim_other; assumption.
Qed.

Section Meaning.
  Variable D : Type.
  Variable op : chars -> list D -> D.
  Variable equal : D -> D -> D.
  Variable negation : D -> D.
  Variable rho : chars -> D.
  Hypothesis op_eq : forall x y, op (lit "="%string) [x; y] = equal x y.
  Hypothesis op_not : forall x, op (lit "not"%string) [x] = negation x.
  Hypothesis op_not_ta : forall x, op (lit "ta$not"%string) [x] = negation x.

  Lemma term_meaning : forall x d, xascii x -> xmeans D op rho x d -> tmeaning D op rho (term_of x) = d.
  Proof.
    fix IH 1. intros x d A M. destruct x as [v|f l|c].
    - inversion M; reflexivity.
    - inversion M as [|? n ? ds U F|]; subst. inversion A as [|? ? Af Al|]; subst. cbn [term_of tmeaning].
      rewrite (trim_unquoted _ _ Af U). f_equal. clear - IH Al F. revert ds Al F.
      induction l as [|y l IHl]; intros ds Al F; inversion F; subst; [reflexivity|]. inversion Al; subst. cbn [map]. f_equal; auto.
    - inversion M; reflexivity.
  Qed.
  Lemma atom_meaning a d : aascii a -> ameans D op equal rho a d -> tmeaning D op rho (atom_of a) = d.
  Proof.
    intros A M. destruct M as [f n l ds U F|a b x y Ma Mb]; destruct A as [A1 A2]; cbn [atom_of tmeaning map].
    - rewrite (trim_unquoted _ _ A1 U). f_equal. clear - A2 F. revert ds F.
      induction l as [|y l IHl]; intros ds F; inversion F; subst; [reflexivity|]. inversion A2; subst. cbn [map]. f_equal; auto.
      apply term_meaning; assumption.
    - rewrite (term_meaning _ _ A1 Ma), (term_meaning _ _ A2 Mb). apply op_eq.
  Qed.
  Lemma literal_meaning x d : lascii x -> lmeans D op equal negation rho x d -> tmeaning D op rho (literal_of x) = d.
  Proof.
    intros A M. destruct M as [a x M|a x M|a b x y Ma Mb]; cbn [literal_of tmeaning map].
    - apply atom_meaning; assumption.
    - rewrite (atom_meaning _ _ A M). apply op_not_ta.
    - destruct A as [A1 A2]. rewrite (term_meaning _ _ A1 Ma), (term_meaning _ _ A2 Mb), op_eq. apply op_not.
  Qed.
End Meaning.
