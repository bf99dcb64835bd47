From Coq Require Import List Arith Bool Lia Relations.
From Verif Require Import Syntax_Model Subst_Model Order_Model Macro_Model Graph_Model Graph_Spec Subst_Proofs.
Import ListNotations.

(** ** Lists *)
Lemma position_some id l i : position id l = Some i -> nth_error l i = Some id.
Proof.
  revert i. induction l as [|a l IH]; intros i; cbn; [discriminate|]. destruct (Nat.eqb_spec a id) as [->|].
  - intros [= <-]. reflexivity.
  - destruct (position id l) as [k|]; [|discriminate]. intros [= <-]. cbn. auto.
Qed.
Lemma position_in id l : In id l -> position id l <> None.
Proof.
  induction l as [|a l IH]; [intros []|]. cbn. intros [->|H].
  - rewrite Nat.eqb_refl. discriminate.
  - destruct (a =? id); [discriminate|]. destruct (position id l); [discriminate|]. auto.
Qed.
Lemma nth_seq k n i : i < n -> nth_error (seq k n) i = Some (k + i).
Proof.
  revert k i. induction n as [|n IH]; intros k [|i] H; cbn; try lia; [f_equal; lia|]. rewrite IH by lia. f_equal; lia.
Qed.
Lemma combine_seq_nth {A} (l : list A) : forall k i a, In (i, a) (combine (seq k (length l)) l) <-> k <= i /\ nth_error l (i - k) = Some a.
Proof.
  induction l as [|b l IH]; intros k i a; cbn.
  - split; [intros []|]. intros [_ H]. destruct (i - k); discriminate.
  - rewrite IH. split.
    + intros [[= <- <-]|[Hle H]].
      * rewrite Nat.sub_diag. split; [lia|reflexivity].
      * split; [lia|]. destruct (i - k) as [|j] eqn:E; [lia|]. replace (i - S k) with j in H by lia. exact H.
    + intros [Hle H]. destruct (i - k) as [|j] eqn:E; cbn in H.
      * injection H as <-. left. f_equal. lia.
      * right. split; [lia|]. replace (i - S k) with j by lia. exact H.
Qed.
Lemma indices_in {A} (p : A -> bool) (l : list A) i : In i (indices p l) <-> exists a, nth_error l i = Some a /\ p a = true.
Proof.
  unfold indices. rewrite in_map_iff. split.
  - intros ([j a] & <- & H). apply filter_In in H as [H Hp]. apply combine_seq_nth in H as [_ H].
    rewrite Nat.sub_0_r in H. exists a. auto.
  - intros (a & Ha & Hp). exists (i, a). split; [reflexivity|]. apply filter_In. split; [|exact Hp].
    apply combine_seq_nth. rewrite Nat.sub_0_r. split; [lia|exact Ha].
Qed.
Lemma mapM_in {A B} (f : A -> option B) l l' : mapM f l = Some l' -> forall b, In b l' <-> exists a, In a l /\ f a = Some b.
Proof.
  intros H b. apply mapM_Forall2 in H. split.
  - intros Hb. induction H as [|x y l1 l2 Hxy H IH]; [destruct Hb|]. destruct Hb as [->|Hb].
    + exists x. cbn; auto.
    + destruct (IH Hb) as (a & Ha & E). exists a. cbn; auto.
  - intros (a & Ha & E). induction H as [|x y l1 l2 Hxy H IH]; [destruct Ha|]. destruct Ha as [->|Ha]; [left; congruence|right; auto].
Qed.
Lemma mapM_defined {A B} (f : A -> option B) l l' a : mapM f l = Some l' -> In a l -> exists b, In b l' /\ f a = Some b.
Proof.
  intros H Ha. apply mapM_Forall2 in H. induction H as [|x y l1 l2 Hxy H IH]; [destruct Ha|]. destruct Ha as [->|Ha].
  - exists y. cbn; auto.
  - destruct (IH Ha) as (b & Hb & E). exists b. cbn; auto.
Qed.
Lemma option_map_some {A B} (f : A -> B) o b : option_map f o = Some b -> exists a, o = Some a /\ b = f a.
Proof. destruct o as [a|]; [|discriminate]. intros [= <-]. eauto. Qed.

(** ** The traversal *)
Section NodesProofs.
  Context (steps : list pstep) (cells : list mcell) (Hsteps : NoDup (map ps_fun steps)).

  Definition node_of (t : tonode) (n : dnode) : Prop :=
    match t with
    | ToInput => n = DInput
    | ToCell i => exists c, nth_error (map ce_fun cells) i = Some c /\ n = DCell c
    end.

  Lemma step_of_some k s : step_of steps k = Some s -> In s steps /\ ps_fun s = k.
  Proof. intros H. apply find_some in H as [H E]. apply Nat.eqb_eq in E. auto. Qed.
  Lemma same_step s s' : In s steps -> In s' steps -> ps_fun s = ps_fun s' -> s = s'.
  Proof.
    intros H H' E. apply In_nth_error in H as (i & Hi). apply In_nth_error in H' as (j & Hj).
    enough (i = j) by (subst; congruence). rewrite NoDup_nth_error in Hsteps. apply Hsteps.
    - rewrite map_length. apply nth_error_Some. congruence.
    - rewrite !nth_error_map, Hi, Hj. cbn. congruence.
  Qed.

  Lemma to_node_result f t : to_node steps cells f = VResult t -> forall n, mentions steps f n <-> node_of t n.
  Proof.
    destruct f as [v|s args|q vs b]; cbn; [destruct (sort_eqb _ _); discriminate| |discriminate].
    destruct s; try discriminate.
    - destruct (position i (map ce_fun cells)) as [k|] eqn:E; [|discriminate]. destruct args as [|a args]; [discriminate|].
      intros [= <-] n. cbn. apply position_some in E. split.
      + inversion 1; subst; [eauto|contradiction].
      + intros (c & E' & ->). rewrite E in E'. injection E' as <-. constructor.
    - destruct args as [|[v|s args|q vs b] [|]]; try discriminate; destruct s; try discriminate.
      destruct (step_of steps i) as [s|] eqn:E; [|discriminate].
      destruct m; try discriminate; try (destruct (apply_condition s args); discriminate);
        try (destruct (apply_message s args); discriminate).
      intros [= <-] n. cbn. split; [inversion 1; subst; [reflexivity|contradiction]|]. intros ->. constructor.
  Qed.

  Lemma mentions_transparent s args n : transparent s -> (mentions steps (FFun s args) n <-> exists a, In a args /\ mentions steps a n).
  Proof.
    intros H. split.
    - intros Hm. inversion Hm; subst; try contradiction; eauto.
    - intros (a & Ha & Hm). econstructor; eauto.
  Qed.

  Lemma to_node_children f fs : to_node steps cells f = VChildren fs ->
    forall n, mentions steps f n <-> exists a, In a fs /\ mentions steps a n.
  Proof.
    destruct f as [v|s args|q vs b].
    - cbn. destruct (sort_eqb _ _); [discriminate|]. intros [= <-] n. split; [inversion 1|intros (a & [] & _)].
    - destruct s; intros H n; try (cbn in H; injection H as <-; apply mentions_transparent; exact I); try discriminate.
      + cbn in H. destruct (position i (map ce_fun cells)); destruct args; discriminate.
      + cbn in H. destruct args as [|[v|s args|q vs b] [|]]; try discriminate; destruct s; try discriminate.
        destruct (step_of steps i) as [s|] eqn:E; [|discriminate]. apply step_of_some in E as [Hs Hk].
        destruct m; try discriminate.
        * destruct (apply_condition s args) as [g|] eqn:Eg; [|discriminate]. injection H as <-. split.
          -- inversion 1; subst; [contradiction|]. assert (s0 = s) as -> by (apply same_step; auto).
             exists g0. split; [left; congruence|auto].
          -- intros (a & [<-|[]] & Hm). subst i. eapply men_cond; eauto.
        * destruct (apply_message s args) as [g|] eqn:Eg; [|discriminate]. injection H as <-. split.
          -- inversion 1; subst; [contradiction|]. assert (s0 = s) as -> by (apply same_step; auto).
             exists g0. split; [left; congruence|auto].
          -- intros (a & [<-|[]] & Hm). subst i. eapply men_msg; eauto.
    - cbn. intros [= <-] n. split.
      + inversion 1; subst. exists b. cbn; auto.
      + intros (a & [<-|[]] & Hm). constructor. exact Hm.
  Qed.

  Lemma to_nodes_spec : forall fuel pile l, to_nodes steps cells fuel pile = Some l ->
    forall n, (exists f, In f pile /\ mentions steps f n) <-> exists t, In t l /\ node_of t n.
  Proof.
    induction fuel as [|fuel IH]; intros pile l; cbn; [discriminate|]. destruct pile as [|f rest].
    - intros [= <-] n. split; [intros (f & [] & _)|intros (t & [] & _)].
    - destruct (to_node steps cells f) as [|t|fs] eqn:E; [discriminate| |].
      + destruct (to_nodes steps cells fuel rest) as [l0|] eqn:El; [|discriminate]. intros [= <-] n.
        specialize (IH rest l0 El n). pose proof (to_node_result f t E n) as Hr. split.
        * intros (f' & [<-|Hf] & Hm).
          -- exists t. cbn. tauto.
          -- destruct (proj1 IH (ex_intro _ f' (conj Hf Hm))) as (t' & Ht & Hn). exists t'. cbn; auto.
        * intros (t' & [<-|Ht] & Hn).
          -- exists f. cbn. tauto.
          -- destruct (proj2 IH (ex_intro _ t' (conj Ht Hn))) as (f' & Hf & Hm). exists f'. cbn; auto.
      + intros El n. specialize (IH _ _ El n). rewrite <- IH. pose proof (to_node_children f fs E n) as Hc. split.
        * intros (f' & [<-|Hf] & Hm).
          -- apply Hc in Hm as (a & Ha & Hm). exists a. rewrite in_app_iff, <- in_rev. auto.
          -- exists f'. rewrite in_app_iff. auto.
        * intros (a & Ha & Hm). rewrite in_app_iff, <- in_rev in Ha. destruct Ha as [Ha|Ha].
          -- exists f. split; [left; reflexivity|]. apply Hc. eauto.
          -- exists a. cbn; auto.
  Qed.

  Lemma to_nodes_one fuel f l : to_nodes steps cells fuel [f] = Some l ->
    forall n, mentions steps f n <-> exists t, In t l /\ node_of t n.
  Proof.
    intros H n. rewrite <- (to_nodes_spec _ _ _ H n). split; [intros Hm; exists f; cbn; auto|].
    intros (f' & [<-|[]] & Hm). exact Hm.
  Qed.

  Lemma node_of_in fuel f l t : to_nodes steps cells fuel [f] = Some l -> In t l -> exists n, node_of t n.
  Proof.
    generalize [f]. intros pile. revert pile l. induction fuel as [|fuel IH]; intros pile l; cbn; [discriminate|].
    destruct pile as [|g rest]; [intros [= <-] []|]. destruct (to_node steps cells g) as [|u|fs] eqn:E; [discriminate| |eauto].
    destruct (to_nodes steps cells fuel rest) as [l0|] eqn:El; [|discriminate]. intros [= <-] [<-|H]; [|eauto].
    destruct u as [|i]; [exists DInput; reflexivity|].
    destruct g as [v|s args|q vs b]; cbn in E; [destruct (sort_eqb _ _); discriminate| |discriminate].
    destruct s; try discriminate.
    - destruct (position i0 (map ce_fun cells)) as [k|] eqn:Ep; [|discriminate]. destruct args; [discriminate|].
      injection E as ->. apply position_some in Ep. exists (DCell i0). cbn. eauto.
    - destruct args as [|[v|s args|q vs b] [|]]; try discriminate; destruct s; try discriminate.
      destruct (step_of steps i0); [|discriminate].
      destruct m; try discriminate; try (destruct (apply_condition p args); discriminate);
        try (destruct (apply_message p args); discriminate).
  Qed.

  (** ** The edges *)
  Definition edge_of (fuel : nat) (e : fromnode * tonode) : Prop :=
    match fst e with
    | FromCondition s => In s steps /\ exists l, to_nodes steps cells fuel [ps_cond s] = Some l /\ In (snd e) l
    | FromMessage s => In s steps /\ exists l, to_nodes steps cells fuel [ps_msg s] = Some l /\ In (snd e) l
    | FromCell i => exists c a, nth_error cells i = Some c /\ In a (ce_asgs c) /\
        exists l, to_nodes steps cells fuel [as_content a] = Some l /\ In (snd e) l
    end.

  Lemma edges_spec fuel es ec : step_edges steps cells fuel = Some es -> cell_edges steps cells fuel = Some ec ->
    forall e, In e (es ++ ec) <-> edge_of fuel e.
  Proof.
    unfold step_edges, cell_edges. intros Hs Hc e.
    apply option_map_some in Hs as (ls & Hs & ->). apply option_map_some in Hc as (lc & Hc & ->).
    rewrite in_app_iff, !in_concat. split.
    - intros [(x & Hx & He)|(x & Hx & He)].
      + apply (mapM_in _ _ _ Hs) in Hx as (s & Hin & E).
        destruct (to_nodes steps cells fuel [ps_cond s]) as [c|] eqn:Ec; [|discriminate].
        destruct (to_nodes steps cells fuel [ps_msg s]) as [m|] eqn:Em; [|discriminate].
        injection E as <-. apply in_app_iff in He as [He|He]; apply in_map_iff in He as (t & <- & Ht); cbn; eauto.
      + apply (mapM_in _ _ _ Hc) in Hx as ([i c] & Hin & E). apply combine_seq_nth in Hin as [_ Hin].
        rewrite Nat.sub_0_r in Hin. apply option_map_some in E as (la & E & ->). apply in_concat in He as (y & Hy & He).
        apply (mapM_in _ _ _ E) in Hy as (a & Ha & Ey). apply option_map_some in Ey as (l & El & ->).
        apply in_map_iff in He as (t & <- & Ht). cbn. eauto 10.
    - destruct e as [[s|s|i] t]; cbn.
      + intros (Hin & l & El & Ht). left.
        destruct (to_nodes steps cells fuel [ps_cond s]) as [c|] eqn:Ec.
        * eexists. split; [apply (mapM_in _ _ _ Hs); exists s; split; [exact Hin|]; rewrite Ec, El; reflexivity|].
          apply in_app_iff. right. apply in_map. exact Ht.
        * exfalso. destruct (mapM_defined _ _ _ _ Hs Hin) as (b & _ & Hb). rewrite Ec in Hb. discriminate.
      + intros (Hin & l & El & Ht). left.
        destruct (to_nodes steps cells fuel [ps_msg s]) as [m|] eqn:Em.
        * eexists. split; [apply (mapM_in _ _ _ Hs); exists s; split; [exact Hin|]; rewrite Em, El; reflexivity|].
          apply in_app_iff. left. apply in_map. exact Ht.
        * exfalso. destruct (mapM_defined _ _ _ _ Hs Hin) as (b & _ & Hb). rewrite Em in Hb.
          destruct (to_nodes _ _ _ [ps_cond s]); discriminate.
      + intros (c & a & Hn & Ha & l & El & Ht). right.
        assert (Hin : In (i, c) (combine (seq 0 (length cells)) cells))
          by (apply combine_seq_nth; rewrite Nat.sub_0_r; split; [lia|exact Hn]).
        destruct (mapM_defined _ _ _ _ Hc Hin) as (y & Hy & E). cbn beta iota in E.
        exists y. split; [exact Hy|]. apply option_map_some in E as (la & E & ->). apply in_concat.
        eexists. split; [apply (mapM_in _ _ _ E); exists a; split; [exact Ha|]; rewrite El; reflexivity|].
        apply in_map. exact Ht.
  Qed.
End NodesProofs.

(** ** Depth-first search *)
Section Dfs.
  Context (succ : nat -> option (list nat)).
  Inductive reaches : nat -> nat -> Prop :=
  | rch_refl k : reaches k k
  | rch_step j k l m : succ j = Some l -> In k l -> reaches k m -> reaches j m.
  Lemma reaches_trans a b c : reaches a b -> reaches b c -> reaches a c.
  Proof. induction 1; intros; auto. econstructor; eauto. Qed.

  Lemma set_true_length k l : length (set_true k l) = length l.
  Proof. revert k. induction l as [|b l IH]; intros [|k]; cbn; auto. Qed.
  Lemma set_true_same k l : k < length l -> nth_error (set_true k l) k = Some true.
  Proof. revert k. induction l as [|b l IH]; intros [|k]; cbn; intros H; try lia; auto. apply IH. lia. Qed.
  Lemma set_true_other k j l : j <> k -> nth_error (set_true k l) j = nth_error l j.
  Proof. revert k j. induction l as [|b l IH]; intros [|k] [|j]; cbn; intros H; auto; try congruence. Qed.

  Lemma dfs_correct start : forall fuel visited stack v,
    (forall k, nth_error visited k = Some true \/ In k stack -> exists s, In s start /\ reaches s k) ->
    (forall s, In s start -> nth_error visited s = Some true \/ In s stack) ->
    (forall j l k, nth_error visited j = Some true -> succ j = Some l -> In k l -> nth_error visited k = Some true \/ In k stack) ->
    dfs succ fuel visited stack = Some v ->
    length v = length visited /\ forall k, nth_error v k = Some true <-> exists s, In s start /\ reaches s k.
  Proof.
    induction fuel as [|fuel IH]; intros visited stack v Ha Hb Hc; cbn; [discriminate|].
    destruct stack as [|next rest].
    - intros [= <-]. split; [reflexivity|]. intros k. split; [intros H; apply Ha; auto|]. intros (s & Hs & Hr).
      assert (nth_error visited s = Some true) as Hv by (destruct (Hb s Hs) as [H|[]]; exact H).
      clear -Hv Hr Hc. induction Hr as [|j k l m E Hk Hr IH]; [exact Hv|]. apply IH.
      destruct (Hc j l k Hv E Hk) as [H|[]]. exact H.
    - destruct (nth_error visited next) as [[|]|] eqn:E; [| |discriminate].
      + intros Hd. apply (IH visited rest v); auto.
        * intros k [H|H]; apply Ha; cbn; auto.
        * intros s Hs. destruct (Hb s Hs) as [H|[<-|H]]; auto.
        * intros j l k Hj Hs Hk. destruct (Hc j l k Hj Hs Hk) as [H|[<-|H]]; auto.
      + destruct (succ next) as [l|] eqn:Es; [|discriminate]. intros Hd.
        assert (Hlen : next < length visited) by (apply nth_error_Some; congruence).
        specialize (IH (set_true next visited) (rev l ++ rest) v). rewrite set_true_length in IH. apply IH; auto; clear IH Hd.
        * intros k [H|H].
          -- destruct (Nat.eq_dec k next) as [->|Hne]; [apply Ha; cbn; auto|]. rewrite set_true_other in H by auto.
             apply Ha. auto.
          -- apply in_app_iff in H as [H|H].
             ++ apply in_rev in H. destruct (Ha next) as (s & Hs & Hr); [cbn; auto|]. exists s. split; [exact Hs|].
                eapply reaches_trans; [exact Hr|]. econstructor; [exact Es|exact H|constructor].
             ++ apply Ha. cbn; auto.
        * intros s Hs. destruct (Nat.eq_dec s next) as [->|Hne]; [left; apply set_true_same; auto|].
          rewrite set_true_other by auto. rewrite in_app_iff. destruct (Hb s Hs) as [H|[H|H]]; auto; congruence.
        * intros j l' k Hj Hs Hk. destruct (Nat.eq_dec k next) as [->|Hne]; [left; apply set_true_same; auto|].
          rewrite set_true_other by auto. rewrite in_app_iff. destruct (Nat.eq_dec j next) as [->|Hnj].
          -- right. left. rewrite Es in Hs. injection Hs as <-. apply in_rev in Hk. exact Hk.
          -- rewrite set_true_other in Hj by auto. destruct (Hc j l' k Hj Hs Hk) as [H|[H|H]]; auto; congruence.
  Qed.

  Lemma dfs_mono : forall fuel visited stack v, dfs succ fuel visited stack = Some v ->
    forall m, fuel <= m -> dfs succ m visited stack = Some v.
  Proof.
    induction fuel as [|fuel IH]; intros visited stack v; cbn; [discriminate|]. intros H [|m] Hm; [lia|]. cbn.
    destruct stack as [|next rest]; [exact H|]. destruct (nth_error visited next) as [[|]|]; [| |discriminate].
    - apply IH; [exact H|lia].
    - destruct (succ next); [|discriminate]. apply IH; [exact H|lia].
  Qed.

  Definition unvisited (l : list bool) : nat := length (filter negb l).
  Lemma set_true_unvisited k l : nth_error l k = Some false -> unvisited l = S (unvisited (set_true k l)).
  Proof.
    unfold unvisited. revert k. induction l as [|b l IH]; intros [|k]; cbn; try discriminate.
    - intros [= ->]. reflexivity.
    - intros H. apply IH in H. destruct b; cbn; auto.
  Qed.

  Lemma dfs_ends N : (forall k, k < N -> exists l, succ k = Some l /\ forall j, In j l -> j < N) ->
    forall u visited stack, unvisited visited = u -> length visited = N -> (forall k, In k stack -> k < N) ->
    exists fuel v, dfs succ fuel visited stack = Some v.
  Proof.
    intros Hsucc. induction u as [u IHu] using lt_wf_ind. intros visited stack Hu Hlen.
    induction stack as [|next rest IHs]; intros Hst.
    - exists 1, visited. reflexivity.
    - assert (Hn : next < N) by (apply Hst; cbn; auto).
      destruct (nth_error visited next) as [[|]|] eqn:E.
      + destruct IHs as (fuel & v & Hd); [intros k Hk; apply Hst; cbn; auto|]. exists (S fuel), v. cbn. rewrite E. exact Hd.
      + destruct (Hsucc next Hn) as (l & El & Hl).
        destruct (IHu (unvisited (set_true next visited))) with (visited := set_true next visited) (stack := rev l ++ rest)
          as (fuel & v & Hd); auto.
        * rewrite (set_true_unvisited _ _ E) in Hu. lia.
        * rewrite set_true_length. exact Hlen.
        * intros k Hk. apply in_app_iff in Hk as [Hk|Hk]; [apply in_rev in Hk; auto|apply Hst; cbn; auto].
        * exists (S fuel), v. cbn. rewrite E, El. exact Hd.
      + apply nth_error_None in E. lia.
  Qed.
End Dfs.

(** ** The graph *)
Section GraphProofs.
  Context (steps : list pstep) (cells : list mcell) (Hsteps : NoDup (map ps_fun steps)) (Hcells : NoDup (map ce_fun cells))
          (fuel : nat) (g : graph) (Hg : graph_new fuel steps cells = Some g).

  Lemma g_cells_length : length (g_cells g) = length cells.
  Proof.
    revert Hg. unfold graph_new. destruct (step_edges steps cells fuel); [|discriminate].
    destruct (cell_edges steps cells fuel); [|discriminate]. intros [= <-]. cbn.
    rewrite map_length, combine_length, seq_length. lia.
  Qed.

  Lemma graph_inv : exists all, (forall e, In e all <-> edge_of steps cells fuel e) /\
    g_edges g = filter (fun e => negb (is_to_input e)) all ++ filter is_to_input all /\
    g_starts g = length (filter (fun e => negb (is_to_input e)) all) /\
    g_cells g = map (fun '(i, c) => (c, indices (from_cell i) (filter (fun e => negb (is_to_input e)) all)))
                    (combine (seq 0 (length cells)) cells).
  Proof.
    revert Hg. unfold graph_new. destruct (step_edges steps cells fuel) as [es|] eqn:Es; [|discriminate].
    destruct (cell_edges steps cells fuel) as [ec|] eqn:Ec; [|discriminate]. intros [= <-]. exists (es ++ ec).
    split; [apply edges_spec; auto|]. cbn. auto.
  Qed.

  Lemma nth_combine_seq {A} (l : list A) : forall k i a, nth_error l i = Some a ->
    nth_error (combine (seq k (length l)) l) i = Some (k + i, a).
  Proof.
    induction l as [|b l IH]; intros k [|i] a; cbn; try discriminate.
    - intros [= ->]. rewrite Nat.add_0_r. reflexivity.
    - intros H. rewrite (IH (S k) i a H). rewrite Nat.add_succ_r. reflexivity.
  Qed.

  Lemma target_edge e : edge_of steps cells fuel e ->
    target g e < S (length cells) /\
    (forall i, snd e = ToCell i -> target g e = i /\ i < length cells).
  Proof.
    intros He. assert (exists f l, to_nodes steps cells fuel [f] = Some l /\ In (snd e) l) as (f & l & El & Hl).
    { destruct e as [[s|s|i] t]; cbn in He.
      - destruct He as (_ & l & El & Hl). eauto.
      - destruct He as (_ & l & El & Hl). eauto.
      - destruct He as (c & a & _ & _ & l & El & Hl). eauto. }
    destruct (node_of_in steps cells fuel f l (snd e) El Hl) as (n & Hn). unfold target, input_idx. rewrite g_cells_length.
    destruct (snd e) as [|i]; cbn in *; [split; [lia|discriminate]|]. destruct Hn as (c & Hc & _).
    assert (i < length cells) by (rewrite <- (map_length ce_fun); apply nth_error_Some; congruence).
    split; [lia|]. intros i' [= <-]. auto.
  Qed.

  (** Successors of a cell node, of the input node. *)
  Lemma cell_succ k c : nth_error cells k = Some c -> exists l, node_succ g k = Some l /\
    forall j, In j l <-> exists d, nth_error cells j = Some d /\ assigns_from steps cells (ce_fun c) (ce_fun d).
  Proof.
    intros Hk. destruct graph_inv as (all & Hall & He & Hst & Hc).
    unfold node_succ, node_edges. rewrite Hc. rewrite nth_error_map, (nth_combine_seq cells 0 k c Hk). cbn.
    set (cedges := filter (fun e => negb (is_to_input e)) all) in *.
    destruct (mapM _ (indices (from_cell k) cedges)) as [l|] eqn:El.
    - exists l. split; [reflexivity|]. intros j. rewrite (mapM_in _ _ _ El). split.
      + intros (ei & Hei & Et). apply indices_in in Hei as (e & Hee & Hf).
        rewrite He in Et. rewrite nth_error_app1 in Et by (apply nth_error_Some; congruence). rewrite Hee in Et. cbn in Et.
        injection Et as <-. apply nth_error_In in Hee. apply filter_In in Hee as [Hin Hti]. apply Hall in Hin as Heo.
        destruct (target_edge e Heo) as [_ Htgt]. destruct e as [fr t]. cbn in *. destruct t as [|i]; [discriminate|].
        destruct (Htgt i eq_refl) as [-> Hi]. destruct fr as [s|s|i']; try discriminate. unfold from_cell in Hf. cbn in Hf.
        apply Nat.eqb_eq in Hf. subst i'. cbn in Heo. destruct Heo as (c' & a & Hc' & Ha & l' & El' & Hl').
        rewrite Hk in Hc'. injection Hc' as <-.
        destruct (node_of_in steps cells fuel _ l' _ El' Hl') as (n & Hn). cbn in Hn. destruct Hn as (d & Hd & ->).
        rewrite nth_error_map in Hd. destruct (nth_error cells i) as [dc|] eqn:Ed; [|discriminate]. cbn in Hd. injection Hd as <-.
        exists dc. split; [reflexivity|]. exists c, a. split; [eapply nth_error_In; eauto|]. split; [reflexivity|]. split; [exact Ha|].
        apply (to_nodes_one steps cells Hsteps fuel _ l' El'). exists (ToCell i). split; [exact Hl'|]. cbn. exists (ce_fun dc).
        rewrite nth_error_map, Ed. auto.
      + intros (d & Hd & ce & a & Hce & Efun & Ha & Hm).
        assert (ce = c) as ->.
        { apply In_nth_error in Hce as (k' & Hk'). enough (k' = k) by (subst; congruence).
          rewrite NoDup_nth_error in Hcells. apply Hcells; [rewrite map_length; apply nth_error_Some; congruence|].
          rewrite !nth_error_map, Hk, Hk'. cbn. congruence. }
        assert (exists l', to_nodes steps cells fuel [as_content a] = Some l') as (l' & El').
        { clear -Hg Hk Ha. revert Hg. unfold graph_new. destruct (step_edges steps cells fuel); [|discriminate].
          unfold cell_edges. destruct (mapM _ (combine _ cells)) as [lc|] eqn:E; [|discriminate]. intros _.
          assert (Hin : In (k, c) (combine (seq 0 (length cells)) cells))
            by (apply combine_seq_nth; rewrite Nat.sub_0_r; split; [lia|exact Hk]).
          destruct (mapM_defined _ _ _ _ E Hin) as (y & _ & Hxy). cbn beta iota in Hxy.
          apply option_map_some in Hxy as (la & Hla & _). destruct (mapM_defined _ _ _ _ Hla Ha) as (z & _ & Hz).
          apply option_map_some in Hz as (l0 & El0 & _). eauto. }
        destruct (proj1 (to_nodes_one steps cells Hsteps fuel _ l' El' _) Hm) as (t & Ht & Hn). destruct t as [|i]; [discriminate|].
        cbn in Hn. destruct Hn as (c' & Hc' & Ec'). injection Ec' as <-.
        assert (i = j) as ->.
        { rewrite NoDup_nth_error in Hcells. apply Hcells; [apply nth_error_Some; congruence|].
          rewrite Hc', nth_error_map, Hd. reflexivity. }
        assert (Heo : edge_of steps cells fuel (FromCell k, ToCell j)) by (cbn; eauto 10).
        apply Hall in Heo as Hin. assert (Hin' : In (FromCell k, ToCell j) cedges) by (apply filter_In; auto).
        apply In_nth_error in Hin' as (ei & Hei). exists ei. split.
        * apply indices_in. eexists. split; [exact Hei|]. unfold from_cell. cbn. apply Nat.eqb_refl.
        * rewrite He, nth_error_app1 by (apply nth_error_Some; congruence). rewrite Hei. cbn. f_equal.
    - exfalso. apply mapM_total in El; auto. intros ei Hei. apply indices_in in Hei as (e & Hee & _).
      rewrite He, nth_error_app1 by (apply nth_error_Some; congruence). rewrite Hee. discriminate.
  Qed.

  Lemma input_succ : exists l, node_succ g (length cells) = Some l /\ forall j, In j l -> j = length cells.
  Proof.
    destruct graph_inv as (all & Hall & He & Hst & Hc). unfold node_succ, node_edges.
    replace (nth_error (g_cells g) (length cells)) with (@None (mcell * list nat))
      by (symmetry; apply nth_error_None; rewrite g_cells_length; lia).
    destruct (mapM _ _) as [l|] eqn:El.
    - exists l. split; [reflexivity|]. intros j Hj. apply (mapM_in _ _ _ El) in Hj as (ei & Hei & Et). apply in_seq in Hei.
      rewrite He, nth_error_app2 in Et by lia. destruct (nth_error _ (ei - _)) as [e|] eqn:Ee; [|discriminate]. cbn in Et.
      injection Et as <-. apply nth_error_In, filter_In in Ee as [_ Ee]. unfold is_to_input in Ee. unfold target, input_idx.
      rewrite g_cells_length. destruct (snd e); [reflexivity|discriminate].
    - exfalso. apply mapM_total in El; auto. intros ei Hei. apply in_seq in Hei.
      destruct (nth_error (g_edges g) ei) eqn:E; [discriminate|]. apply nth_error_None in E. lia.
  Qed.

  Lemma succ_total k : k < S (length cells) -> exists l, node_succ g k = Some l /\ forall j, In j l -> j < S (length cells).
  Proof.
    intros Hk. destruct (Nat.eq_dec k (length cells)) as [->|Hne].
    - destruct input_succ as (l & El & Hl). exists l. split; [exact El|]. intros j Hj. rewrite (Hl j Hj). lia.
    - destruct (nth_error cells k) as [c|] eqn:Ec; [|apply nth_error_None in Ec; lia].
      destruct (cell_succ k c Ec) as (l & El & Hl). exists l. split; [exact El|]. intros j Hj.
      apply Hl in Hj as (d & Hd & _). enough (j < length cells) by lia. apply nth_error_Some. congruence.
  Qed.

  Lemma cell_reaches_iff k c m : nth_error cells k = Some c ->
    (reaches (node_succ g) k m <-> exists d, nth_error cells m = Some d /\ cell_reaches steps cells (ce_fun c) (ce_fun d)).
  Proof.
    intros Hk. split.
    - intros H. revert c Hk. induction H as [k|k j l m El Hj H IH]; intros c Hk.
      + exists c. split; [exact Hk|apply rt_refl].
      + destruct (cell_succ k c Hk) as (l' & El' & Hl'). rewrite El in El'. injection El' as <-.
        apply Hl' in Hj as (d & Hd & Hm). destruct (IH d Hd) as (e & He & Hr). exists e. split; [exact He|].
        eapply rt_trans; [apply rt_step; exact Hm|exact Hr].
    - intros (d & Hd & Hr). apply clos_rt_rt1n in Hr. remember (ce_fun c) as fc eqn:Ec. remember (ce_fun d) as fd eqn:Edf.
      revert c k Ec Hk. induction Hr as [x|x y z Hxy Hr IH]; intros c k Ec Hk.
      + assert (k = m) as ->.
        { rewrite NoDup_nth_error in Hcells. apply Hcells; [rewrite map_length; apply nth_error_Some; congruence|].
          rewrite !nth_error_map, Hk, Hd. cbn. congruence. }
        constructor.
      + assert (exists j e, nth_error cells j = Some e /\ ce_fun e = y) as (j & e & Hj & He).
        { clear IH. inversion Hr as [|w z' Hyw Hrest]; subst.
          - eauto.
          - destruct Hyw as (ce & a0 & Hce & E & Ha0). apply In_nth_error in Hce as (j & Hj). eauto. }
        destruct (cell_succ k c Hk) as (l & El & Hl).
        econstructor; [exact El| |apply (IH Edf e j); auto]. apply Hl. exists e. split; [exact Hj|]. subst. exact Hxy.
  Qed.

  Lemma input_reaches m : reaches (node_succ g) (length cells) m <-> m = length cells.
  Proof.
    split; [|intros ->; constructor]. intros H. remember (length cells) as k eqn:E. revert E.
    induction H as [k|k j l m El Hj H IH]; intros E; [reflexivity|]. subst k. destruct input_succ as (l' & El' & Hl').
    rewrite El in El'. injection El' as <-. rewrite (Hl' j Hj) in *. auto.
  Qed.

  Lemma nth_repeat_false n k : nth_error (repeat false n) k <> Some true.
  Proof. intros H. apply nth_error_In, repeat_spec in H. discriminate. Qed.

  Lemma in_filter_combine {A} (l : list A) : forall bs a, length l <= length bs ->
    (In a (map fst (filter snd (combine l bs))) <-> exists i, nth_error l i = Some a /\ nth_error bs i = Some true).
  Proof.
    intros bs a _. rewrite in_map_iff. split.
    - intros ([x b] & <- & H). apply filter_In in H as [H Hb]. cbn in Hb. subst b.
      revert bs H. induction l as [|y l IH]; intros [|b bs]; cbn; try contradiction. intros [[= -> ->]|H].
      + exists 0. auto.
      + destruct (IH bs H) as (i & Hi). exists (S i). exact Hi.
    - intros (i & Hl & Hb). exists (a, true). split; [reflexivity|]. apply filter_In. split; [|reflexivity].
      revert bs i Hl Hb. induction l as [|y l IH]; intros [|b bs] [|i]; cbn; try discriminate.
      + intros [= ->] [= ->]. auto.
      + intros Hl Hb. right. eauto.
  Qed.

  Lemma ancestors_spec r start : start_nodes g r = Some start -> (forall s, In s start -> s < S (length cells)) ->
    exists n a, (forall m, n <= m -> graph_ancestors g m r = Some a) /\
      (an_input a = true <-> exists s, In s start /\ reaches (node_succ g) s (length cells)) /\
      forall c, In c (an_cells a) <-> exists s k, In s start /\ nth_error cells k = Some c /\ reaches (node_succ g) s k.
  Proof.
    intros Hs Hstart. unfold graph_ancestors. rewrite Hs.
    assert (Hst' : forall k, In k (rev start) -> k < S (length cells)) by (intros k Hk; apply in_rev in Hk; auto).
    destruct (dfs_ends (node_succ g) (S (length cells)) succ_total _ (repeat false (S (length cells))) (rev start) eq_refl
                (repeat_length _ _) Hst') as (n & v & Hd).
    destruct (dfs_correct (node_succ g) start n (repeat false (S (length cells))) (rev start) v) as [Hlen Hv]; auto.
    { intros k [H|H]; [apply nth_repeat_false in H; contradiction|]. apply in_rev in H. exists k. split; [exact H|constructor]. }
    { intros s H. right. rewrite <- in_rev. exact H. }
    { intros j l k Hj. apply nth_repeat_false in Hj. contradiction. }
    rewrite repeat_length in Hlen. unfold input_idx. rewrite g_cells_length. rewrite Nat.add_1_r.
    eexists n, _. split; [intros m Hm; rewrite (dfs_mono _ _ _ _ _ Hd m Hm); reflexivity|]. cbn. split.
    - rewrite <- Hv. destruct (nth_error v (length cells)) as [b|] eqn:E.
      + rewrite (nth_error_nth _ _ _ E). split; congruence.
      + apply nth_error_None in E. lia.
    - intros c. rewrite <- (map_map fst fst). rewrite in_map_iff. split.
      + intros ([c' es] & Ec & Hin). cbn in Ec. subst c'.
        apply in_filter_combine in Hin; [|rewrite firstn_length, g_cells_length, Hlen; lia]. destruct Hin as (k & Hk & Hvk).
        assert (k < length cells) by (rewrite <- g_cells_length; apply nth_error_Some; congruence).
        assert (nth_error v k = Some true) as Hvk'.
        { rewrite <- (firstn_skipn (length cells) v). rewrite nth_error_app1; [exact Hvk|]. rewrite firstn_length. lia. }
        apply Hv in Hvk' as (s & Hss & Hr). exists s, k. split; [exact Hss|]. split; [|exact Hr].
        destruct graph_inv as (all & _ & _ & _ & Hc). rewrite Hc, nth_error_map in Hk.
        destruct (nth_error cells k) as [ce|] eqn:Ece; [|apply nth_error_None in Ece; lia].
        rewrite (nth_combine_seq cells 0 k ce Ece) in Hk. cbn in Hk. congruence.
      + intros (s & k & Hss & Hk & Hr).
        assert (k < length cells) by (apply nth_error_Some; congruence).
        destruct graph_inv as (all & _ & _ & _ & Hc).
        eexists (c, _). split; [reflexivity|].
        apply in_filter_combine; [rewrite firstn_length, g_cells_length, Hlen; lia|]. exists k. split.
        * rewrite Hc, nth_error_map, (nth_combine_seq cells 0 k c Hk). reflexivity.
        * assert (nth_error v k = Some true) as Hvk by (apply Hv; eauto).
          rewrite <- (firstn_skipn (length cells) v) in Hvk. rewrite nth_error_app1 in Hvk; [exact Hvk|].
          rewrite firstn_length. lia.
  Qed.


  Lemma map_snd_combine {A} (l : list A) : forall k, map snd (combine (seq k (length l)) l) = l.
  Proof. induction l as [|c l IH]; intros k; cbn; [reflexivity|]. f_equal. apply IH. Qed.
  Lemma map_fst_cells : map (fun ce => ce_fun (fst ce)) (g_cells g) = map ce_fun cells.
  Proof.
    destruct graph_inv as (all & _ & _ & _ & ->). rewrite map_map.
    transitivity (map ce_fun (map snd (combine (seq 0 (length cells)) cells))).
    - rewrite map_map. apply map_ext. intros [i c]. reflexivity.
    - rewrite map_snd_combine. reflexivity.
  Qed.

  Lemma ancestors_cell ce : In ce cells -> exists n a, (forall m, n <= m -> graph_ancestors g m (RCell (ce_fun ce)) = Some a) /\
    an_input a = false /\ forall d, In d (an_cells a) <-> In d cells /\ cell_reaches steps cells (ce_fun ce) (ce_fun d).
  Proof.
    intros Hce. assert (exists k, position (ce_fun ce) (map ce_fun cells) = Some k) as (k & Hk).
    { destruct (position (ce_fun ce) (map ce_fun cells)) eqn:E; [eauto|]. exfalso. eapply position_in; [|exact E].
      apply in_map. exact Hce. }
    assert (Hkc : exists c, nth_error cells k = Some c /\ ce_fun c = ce_fun ce).
    { apply position_some in Hk. rewrite nth_error_map in Hk. destruct (nth_error cells k) as [c|]; [|discriminate]. exists c.
      cbn in Hk. split; congruence. }
    destruct Hkc as (c & Hc & Efun).
    destruct (ancestors_spec (RCell (ce_fun ce)) [k]) as (n & a & Ha & Hi & Hcs).
    - cbn. rewrite map_fst_cells, Hk. reflexivity.
    - intros s [<-|[]]. enough (k < length cells) by lia. apply nth_error_Some. congruence.
    - exists n, a. split; [exact Ha|]. split.
      + apply not_true_is_false. intros H. apply Hi in H as (s & [<-|[]] & Hr).
        destruct (proj1 (cell_reaches_iff k c _ Hc) Hr) as (d & Hd & _).
        assert (length cells < length cells) by (apply nth_error_Some; congruence). lia.
      + intros d. rewrite Hcs. split.
        * intros (s & j & [<-|[]] & Hj & Hr). split; [eapply nth_error_In; eauto|].
          destruct (proj1 (cell_reaches_iff k c _ Hc) Hr) as (d' & Hd' & Hr'). rewrite Hj in Hd'. injection Hd' as <-. congruence.
        * intros [Hd Hr]. apply In_nth_error in Hd as (j & Hj). exists k, j. cbn. split; [auto|]. split; [exact Hj|].
          apply (cell_reaches_iff k c _ Hc). exists d. split; [exact Hj|]. congruence.
  Qed.

  Lemma ancestors_input : exists n a, (forall m, n <= m -> graph_ancestors g m RInput = Some a) /\
    an_input a = true /\ an_cells a = [].
  Proof.
    destruct (ancestors_spec RInput [length cells]) as (n & a & Ha & Hi & Hcs).
    - cbn. unfold input_idx. rewrite g_cells_length. reflexivity.
    - intros s [<-|[]]. lia.
    - exists n, a. split; [exact Ha|]. split.
      + apply Hi. exists (length cells). split; [cbn; auto|constructor].
      + destruct (an_cells a) as [|c l]; [reflexivity|]. exfalso.
        destruct (proj1 (Hcs c)) as (s & k & [<-|[]] & Hk & Hr); [cbn; auto|]. apply input_reaches in Hr. subst k.
        assert (length cells < length cells) by (apply nth_error_Some; congruence). lia.
  Qed.

  Lemma condition_edges t : (exists s, In (FromCondition s, t) (g_edges g)) <->
    exists s l, In s steps /\ to_nodes steps cells fuel [ps_cond s] = Some l /\ In t l.
  Proof.
    destruct graph_inv as (all & Hall & He & _ & _). rewrite He. split.
    - intros (s & H). rewrite in_app_iff, !filter_In in H. assert (Hin : In (FromCondition s, t) all) by tauto.
      apply Hall in Hin. cbn in Hin. destruct Hin as (Hs & l & El & Hl). eauto.
    - intros (s & l & Hs & El & Hl). exists s. rewrite in_app_iff, !filter_In.
      assert (In (FromCondition s, t) all) by (apply Hall; cbn; eauto). destruct (is_to_input (FromCondition s, t)); auto.
  Qed.

  Lemma cond_nodes s : In s steps -> exists l, to_nodes steps cells fuel [ps_cond s] = Some l.
  Proof.
    intros Hin. clear -Hg Hin. revert Hg. unfold graph_new. destruct (step_edges steps cells fuel) as [es|] eqn:Es; [|discriminate].
    intros _. unfold step_edges in Es. apply option_map_some in Es as (ls & Hs & _). destruct (mapM_defined _ _ _ _ Hs Hin) as (y & _ & Hxy).
    destruct (to_nodes steps cells fuel [ps_cond s]); [eauto|discriminate].
  Qed.

  Lemma ancestors_exec : exists n a, (forall m, n <= m -> graph_ancestors g m RExec = Some a) /\
    (an_input a = true <-> exists s, In s steps /\ mentions steps (ps_cond s) DInput) /\
    (forall d, In d (an_cells a) <-> In d cells /\
       exists s c, In s steps /\ mentions steps (ps_cond s) (DCell c) /\ cell_reaches steps cells c (ce_fun d)).
  Proof.
    destruct (ancestors_spec RExec (map (target g) (filter (fun e => is_condition (fst e)) (g_edges g)))) as (n & a & Ha & Hi & Hcs).
    - reflexivity.
    - intros s Hs. apply in_map_iff in Hs as (e & <- & He). apply filter_In in He as [He _].
      apply target_edge. destruct graph_inv as (all & Hall & Hed & _ & _). rewrite Hed, in_app_iff, !filter_In in He. apply Hall. tauto.
    - exists n, a. split; [exact Ha|].
      assert (Hstart : forall k, In k (map (target g) (filter (fun e => is_condition (fst e)) (g_edges g))) <->
        exists s l t, In s steps /\ to_nodes steps cells fuel [ps_cond s] = Some l /\ In t l /\
          match t with ToInput => k = length cells | ToCell i => k = i end).
      { intros k. rewrite in_map_iff. split.
        - intros ([fr t] & Et & He). apply filter_In in He as [He Hc]. destruct fr as [s|s|i]; try discriminate.
          destruct (proj1 (condition_edges t) (ex_intro _ s He)) as (s' & l & Hs & El & Hl). exists s', l, t.
          repeat (split; [assumption|]). subst k. unfold target, input_idx; cbn. destruct t; cbn; [apply g_cells_length|reflexivity].
        - intros (s & l & t & Hs & El & Hl & Hk). destruct (proj2 (condition_edges t)) as (s' & He); [eauto|].
          exists (FromCondition s', t). split; [|apply filter_In; auto]. unfold target, input_idx; cbn.
          destruct t; cbn; [rewrite g_cells_length|]; auto. }
      split.
      + rewrite Hi. split.
        * intros (k & Hk & Hr). apply Hstart in Hk as (s & l & t & Hs & El & Hl & Ht). exists s. split; [exact Hs|].
          apply (to_nodes_one steps cells Hsteps fuel _ l El). destruct t as [|i].
          -- exists ToInput. split; [exact Hl|reflexivity].
          -- exfalso. subst k. destruct (node_of_in steps cells fuel _ l _ El Hl) as (nn & Hn). cbn in Hn. destruct Hn as (c & Hc & _).
             rewrite nth_error_map in Hc. destruct (nth_error cells i) as [ce|] eqn:Ece; [|discriminate].
             destruct (proj1 (cell_reaches_iff i ce _ Ece) Hr) as (d & Hd & _).
             assert (length cells < length cells) by (apply nth_error_Some; congruence). lia.
        * intros (s & Hs & Hm). destruct (cond_nodes s Hs) as (l & El).
          destruct (proj1 (to_nodes_one steps cells Hsteps fuel _ l El _) Hm) as (t & Ht & Hn).
          exists (length cells). split; [|constructor]. apply Hstart. exists s, l, t. repeat (split; [assumption|]).
          destruct t as [|i]; [reflexivity|]. destruct Hn as (c & _ & E). discriminate.
      + intros d. rewrite Hcs. split.
        * intros (k & j & Hk & Hj & Hr). split; [eapply nth_error_In; eauto|].
          apply Hstart in Hk as (s & l & t & Hs & El & Hl & Ht). destruct t as [|i].
          -- exfalso. subst k. apply input_reaches in Hr. subst j.
             assert (length cells < length cells) by (apply nth_error_Some; congruence). lia.
          -- subst k. destruct (node_of_in steps cells fuel _ l _ El Hl) as (nn & Hn). assert (Hn2 := Hn). cbn in Hn.
             destruct Hn as (c & Hc & ->). rewrite nth_error_map in Hc.
             destruct (nth_error cells i) as [ce|] eqn:Ece; [|discriminate]. cbn in Hc. injection Hc as <-.
             exists s, (ce_fun ce). split; [exact Hs|]. split.
             ++ apply (to_nodes_one steps cells Hsteps fuel _ l El). eauto.
             ++ destruct (proj1 (cell_reaches_iff i ce _ Ece) Hr) as (d' & Hd' & Hr'). rewrite Hj in Hd'. injection Hd' as <-. exact Hr'.
        * intros (Hd & s & c & Hs & Hm & Hr). destruct (cond_nodes s Hs) as (l & El).
          destruct (proj1 (to_nodes_one steps cells Hsteps fuel _ l El _) Hm) as (t & Ht & Hn). destruct t as [|i]; [discriminate|].
          cbn in Hn. destruct Hn as (c' & Hc' & E). injection E as <-. rewrite nth_error_map in Hc'.
          destruct (nth_error cells i) as [ce|] eqn:Ece; [|discriminate]. cbn in Hc'. injection Hc' as <-.
          apply In_nth_error in Hd as (j & Hj). exists i, j. split; [apply Hstart; exists s, l, (ToCell i); auto|].
          split; [exact Hj|]. apply (cell_reaches_iff i ce _ Ece). eauto.
  Qed.
End GraphProofs.
