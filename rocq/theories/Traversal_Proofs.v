From Coq Require Import List Arith Bool Lia.
From Verif Require Import Syntax_Model Syntax_Proofs Traversal_Model Traversal_Spec.
Import ListNotations.

(** ** The pile loop as a relation *)
Section Runs.
  Context {U P S : Type}.
  Variable step : S -> formula -> P -> S * list (content U P).

  Inductive Runs : S -> list (content U P) -> list U -> Prop :=
  | R_nil st : Runs st [] []
  | R_res st r rest out : Runs st rest out -> Runs st (Resutl r :: rest) (r :: out)
  | R_next st f p st' pushed rest out :
      step st f p = (st', pushed) -> Runs st' (rev pushed ++ rest) out ->
      Runs st (Next f p :: rest) out.

  Lemma pile_next_mono : forall n m st pile x,
      pile_next step n st pile = Some x -> n <= m -> pile_next step m st pile = Some x.
  Proof.
    induction n as [|n IH]; intros m st pile x H Hle; [discriminate|].
    destruct m as [|m]; [lia|]. cbn in *.
    destruct pile as [|[r|f p] rest]; auto.
    destruct (step st f p) as [st' pushed]. apply IH with (m := m) in H; [exact H|lia].
  Qed.

  Lemma pile_collect_mono : forall n m st pile l,
      pile_collect step n st pile = Some l -> n <= m -> pile_collect step m st pile = Some l.
  Proof.
    induction n as [|n IH]; intros m st pile l H Hle; [discriminate|].
    destruct m as [|m]; [lia|]. cbn [pile_collect] in *.
    destruct (pile_next step (Datatypes.S n) st pile) as [x|] eqn:E; [|discriminate].
    rewrite (pile_next_mono _ (Datatypes.S m) _ _ _ E) by lia.
    destruct x as [[[r st'] rest]|]; [|exact H].
    destruct (pile_collect step n st' rest) as [l'|] eqn:E2; [|discriminate].
    rewrite (IH m _ _ _ E2) by lia. exact H.
  Qed.

  Lemma Runs_collect st pile out :
    Runs st pile out -> exists n, forall m, n <= m -> pile_collect step m st pile = Some out.
  Proof.
    intros H. assert (exists n, pile_collect step n st pile = Some out) as [n Hn].
    2:{ exists n. intros m Hm. eapply pile_collect_mono; eauto. }
    induction H as [st|st r rest out _ [n IH]|st f p st' pushed rest out Hs _ [n IH]].
    - exists 1. reflexivity.
    - exists (Datatypes.S n). cbn. rewrite IH. reflexivity.
    - exists (Datatypes.S n). destruct n as [|n]; [discriminate|].
      change (pile_collect step (Datatypes.S n) st' (rev pushed ++ rest)) with
        (match pile_next step (Datatypes.S n) st' (rev pushed ++ rest) with
         | None => None | Some None => Some []
         | Some (Some (r, st'', rest')) =>
             match pile_collect step n st'' rest' with None => None | Some l => Some (r :: l) end
         end) in IH.
      change (pile_collect step (Datatypes.S (Datatypes.S n)) st (Next f p :: rest)) with
        (match (let (st', pushed) := step st f p in pile_next step (Datatypes.S n) st' (rev pushed ++ rest)) with
         | None => None | Some None => Some []
         | Some (Some (r, st'', rest')) =>
             match pile_collect step (Datatypes.S n) st'' rest' with None => None | Some l => Some (r :: l) end
         end).
      rewrite Hs.
      destruct (pile_next step (Datatypes.S n) st' (rev pushed ++ rest)) as [[[[r st''] rest']|]|]; auto.
      destruct (pile_collect step n st'' rest') as [l|] eqn:E2; [|discriminate].
      rewrite (pile_collect_mono _ (Datatypes.S n) _ _ _ E2) by lia. exact IH.
  Qed.
End Runs.

(** ** All positions with the variables bound above them, in the order the pile visits them *)
Definition pcons (i : nat) (x : list nat * formula * list var) : list nat * formula * list var :=
  let '(p, g, c) := x in (i :: p, g, c).

Fixpoint pos (bv : list var) (f : formula) : list (list nat * formula * list var) :=
  match f with
  | FVar _ => [([], f, bv)]
  | FFun _ args =>
      (fix go i l := match l with
                     | [] => []
                     | a :: l' => go (S i) l' ++ map (pcons i) (pos bv a)
                     end) 0 args ++ [([], f, bv)]
  | FQ _ vs b => map (pcons 0) (pos (bv ++ vs) b) ++ [([], f, bv)]
  end.

Fixpoint poss (bv : list var) (i : nat) (l : list formula) : list (list nat * formula * list var) :=
  match l with
  | [] => []
  | a :: l' => poss bv (S i) l' ++ map (pcons i) (pos bv a)
  end.

Lemma pos_fun bv s args : pos bv (FFun s args) = poss bv 0 args ++ [([], FFun s args, bv)].
Proof.
  cbn. f_equal. generalize 0. induction args as [|a l IH]; intro n; cbn; [reflexivity|].
  rewrite IH. reflexivity.
Qed.

Lemma in_poss bv : forall l i x,
    In x (poss bv i l) <->
    exists k a y, nth_error l k = Some a /\ In y (pos bv a) /\ x = pcons (i + k) y.
Proof.
  induction l as [|a l IH]; intros i x; cbn.
  - split; [easy|]. intros (k & a & y & H & _). destruct k; discriminate.
  - rewrite in_app_iff, IH, in_map_iff. split.
    + intros [(k & b & y & H1 & H2 & H3)|(y & H1 & H2)].
      * exists (S k), b, y. repeat split; auto. subst; f_equal; lia.
      * exists 0, a, y. repeat split; auto. subst; f_equal; lia.
    + intros ([|k] & b & y & H1 & H2 & H3); cbn in H1.
      * right. exists y. injection H1 as <-. split; [subst; f_equal; lia|auto].
      * left. exists k, b, y. repeat split; auto. subst; f_equal; lia.
Qed.

Definition ppath (x : list nat * formula * list var) := fst (fst x).
Definition pform (x : list nat * formula * list var) := snd (fst x).
Definition pctx (x : list nat * formula * list var) := snd x.

Lemma ppath_pcons i x : ppath (pcons i x) = i :: ppath x.
Proof. destruct x as [[p g] c]; reflexivity. Qed.

Lemma NoDup_app_intro {A} (l1 l2 : list A) :
  NoDup l1 -> NoDup l2 -> (forall x, In x l1 -> ~ In x l2) -> NoDup (l1 ++ l2).
Proof.
  induction l1 as [|a l1 IH]; intros H1 H2 H; cbn; [auto|].
  inversion H1; subst. constructor.
  - rewrite in_app_iff. intros [?|?]; [auto|]. apply (H a); cbn; auto.
  - apply IH; auto. intros x Hx. apply H. cbn; auto.
Qed.

Lemma map_pcons_path i l : map ppath (map (pcons i) l) = map (cons i) (map ppath l).
Proof. rewrite !map_map. apply map_ext. intros; apply ppath_pcons. Qed.

Lemma NoDup_map_cons (i : nat) (l : list (list nat)) : NoDup l -> NoDup (map (cons i) l).
Proof.
  induction 1 as [|x l Hx _ IH]; cbn; constructor; auto.
  rewrite in_map_iff. intros (y & E & Hy). injection E as ->. auto.
Qed.

Lemma pos_nodup : forall f bv, NoDup (map ppath (pos bv f)).
Proof.
  induction f as [v|s args IH|q vs b IH] using formula_ind'; intros bv.
  - cbn. constructor; [easy|constructor].
  - rewrite pos_fun, map_app. apply NoDup_app_intro.
    + generalize 0. induction IH as [|a l Ha _ IHl]; intros i; cbn; [constructor|].
      rewrite map_app, map_pcons_path. apply NoDup_app_intro; auto.
      * apply NoDup_map_cons; auto.
      * intros p Hp Hp'. apply in_map_iff in Hp' as (p' & <- & _).
        apply in_map_iff in Hp as (x & E & Hx).
        apply in_poss in Hx as (k & c & y & _ & _ & ->).
        rewrite ppath_pcons in E. injection E as E _. lia.
    + cbn. constructor; [easy|constructor].
    + intros p Hp [<-|[]]. apply in_map_iff in Hp as (x & E & Hx).
      apply in_poss in Hx as (k & c & y & _ & _ & ->). rewrite ppath_pcons in E. discriminate.
  - cbn. rewrite map_app, map_pcons_path. apply NoDup_app_intro.
    + apply NoDup_map_cons; auto.
    + cbn. constructor; [easy|constructor].
    + intros p Hp [<-|[]]. apply in_map_iff in Hp as (x & E & _). discriminate.
Qed.

Lemma pos_sound : forall f bv p g c, In (p, g, c) (pos bv f) ->
    at_path f p g /\
    (forall i, (exists v, In v c /\ vid v = i) <-> (exists v, In v bv /\ vid v = i) \/ binds_above f p i).
Proof.
  induction f as [v|s args IH|q vs b IH] using formula_ind'; intros bv p g c H.
  - cbn in H. destruct H as [E|[]]. injection E as <- <- <-. split; [constructor|].
    intros i. split; [auto|]. intros [?|H]; [auto|inversion H].
  - rewrite pos_fun, in_app_iff in H. destruct H as [H|[E|[]]].
    + apply in_poss in H as (k & a & [[p' g'] c'] & H1 & H2 & E). cbn in E. injection E as -> -> ->.
      rewrite Forall_forall in IH.
      destruct (IH a (nth_error_In _ _ H1) _ _ _ _ H2) as [Ha Hb].
      split; [econstructor; eauto|]. intros i. rewrite Hb. split.
      * intros [?|?]; [auto|right; econstructor; eauto].
      * intros [?|Hba]; [auto|right]. inversion Hba; subst. congruence.
    + injection E as <- <- <-. split; [constructor|].
      intros i. split; [auto|]. intros [?|Hba]; [auto|inversion Hba].
  - cbn in H. rewrite in_app_iff in H. destruct H as [H|[E|[]]].
    + apply in_map_iff in H as ([[p' g'] c'] & E & H). cbn in E. injection E as <- <- <-.
      destruct (IH _ _ _ _ H) as [Ha Hb]. split; [constructor; auto|].
      intros i. rewrite Hb. split.
      * intros [(v & Hv & E)|?]; [|right; apply ba_quant; auto].
        rewrite in_app_iff in Hv. destruct Hv; [left; eauto|right; econstructor; eauto].
      * intros [(v & Hv & E)|Hba].
        -- left. exists v. rewrite in_app_iff; auto.
        -- inversion Hba; subst; [left; eexists; rewrite in_app_iff; eauto|right; auto].
    + injection E as <- <- <-. split; [constructor|].
      intros i. split; [auto|]. intros [?|Hba]; [auto|inversion Hba].
Qed.

Lemma pos_complete : forall f p g, at_path f p g -> forall bv, exists c, In (p, g, c) (pos bv f).
Proof.
  induction 1 as [f|s args i p a g Hi _ IH|q vs b p g _ IH]; intros bv.
  - exists bv. destruct f; [cbn; auto|rewrite pos_fun, in_app_iff; cbn; auto|cbn; rewrite in_app_iff; cbn; auto].
  - destruct (IH bv) as [c Hc]. exists c. rewrite pos_fun, in_app_iff. left.
    apply in_poss. exists i, a, (p, g, c). auto.
  - destruct (IH (bv ++ vs)) as [c Hc]. exists c. cbn. rewrite in_app_iff. left.
    apply in_map_iff. exists (p, g, c). auto.
Qed.

Lemma at_path_fun f p g g' : at_path f p g -> at_path f p g' -> g = g'.
Proof.
  intros H. revert g'. induction H; intros g' H'; inversion H'; subst; auto.
  apply IHat_path. congruence.
Qed.

(** From a filter on positions to [enumerates]. *)
Definition select {U} (sel : list nat * formula * list var -> option U) l : list U :=
  flat_map (fun x => match sel x with Some u => [u] | None => [] end) l.

Lemma NoDup_map_filter {A B} (h : A -> B) (t : A -> bool) l :
  NoDup (map h l) -> NoDup (map h (filter t l)).
Proof.
  induction l as [|a l IH]; cbn; [auto|]. intros H. inversion H; subst.
  destruct (t a); cbn; auto. constructor; auto.
  intros Hin. apply H2. apply in_map_iff in Hin as (x & E & Hx). apply filter_In in Hx as [Hx _].
  apply in_map_iff. eauto.
Qed.

Lemma select_enum {U} f sel (keep : list nat -> formula -> U -> Prop) :
  (forall p g c u, In (p, g, c) (pos [] f) -> (sel (p, g, c) = Some u <-> keep p g u)) ->
  enumerates f keep (select sel (pos [] f)).
Proof.
  intros Hsel.
  exists (map ppath (filter (fun x => match sel x with Some _ => true | None => false end) (pos [] f))).
  split; [|split; [|split]].
  - apply NoDup_map_filter, pos_nodup.
  - clear Hsel. induction (pos [] f) as [|x l IH]; cbn; [reflexivity|].
    destruct (sel x); cbn; rewrite IH; reflexivity.
  - assert (Hg : forall l, (forall x, In x l -> In x (pos [] f)) ->
      forall n p u,
        nth_error (map ppath (filter (fun x => match sel x with Some _ => true | None => false end) l)) n = Some p ->
        nth_error (select sel l) n = Some u -> exists g, at_path f p g /\ keep p g u).
    { induction l as [|x l IH]; intros Hl n p u H1 H2; [destruct n; discriminate|].
      cbn in H1, H2. destruct (sel x) as [w|] eqn:E; cbn in H1, H2.
      - destruct n as [|n]; cbn in H1, H2.
        + injection H1 as <-; injection H2 as <-. destruct x as [[p g] c].
          assert (Hx : In (p, g, c) (pos [] f)) by (apply Hl; cbn; auto).
          exists g. split; [apply (pos_sound _ _ _ _ _ Hx)|]. eapply Hsel; eauto.
        + eapply IH; eauto. intros y Hy; apply Hl; cbn; auto.
      - eapply IH; eauto. intros y Hy; apply Hl; cbn; auto. }
    apply Hg; auto.
  - intros p g u Hp Hk. destruct (pos_complete _ _ _ Hp []) as [c Hc].
    apply in_map_iff. exists (p, g, c). split; [reflexivity|]. apply filter_In. split; [auto|].
    apply (Hsel _ _ _ _ Hc) in Hk. rewrite Hk. reflexivity.
Qed.

Lemma select_app {U} (sel : _ -> option U) l1 l2 : select sel (l1 ++ l2) = select sel l1 ++ select sel l2.
Proof. apply flat_map_app. Qed.

Lemma select_pcons {U} (sel sel' : _ -> option U) i l :
  (forall x, In x l -> sel (pcons i x) = sel' x) -> select sel (map (pcons i) l) = select sel' l.
Proof.
  induction l as [|x l IH]; intros H; cbn; [reflexivity|].
  rewrite H by (cbn; auto). f_equal. apply IH. intros y Hy; apply H; cbn; auto.
Qed.

(** ** The four traversals *)
Definition sel_used (x : list nat * formula * list var) : option var :=
  match pform x with FVar v => Some v | _ => None end.
Definition sel_all (x : list nat * formula * list var) : option formula := Some (pform x).
Definition sel_depth (d : nat) (x : list nat * formula * list var) : option nat := Some (d + length (ppath x)).
Definition sel_free (x : list nat * formula * list var) : option var :=
  match pform x with
  | FVar v => if existsb (fun b => var_eqb b v) (pctx x) then None else Some v
  | _ => None
  end.

Lemma select_fun {U} (sel : _ -> option U) bv s args :
  select sel (pos bv (FFun s args)) =
  select sel (poss bv 0 args) ++ match sel ([], FFun s args, bv) with Some u => [u] | None => [] end.
Proof. rewrite pos_fun, select_app. f_equal. unfold select; cbn. apply app_nil_r. Qed.

Lemma select_quant {U} (sel : _ -> option U) bv q vs b :
  select sel (pos bv (FQ q vs b)) =
  select sel (map (pcons 0) (pos (bv ++ vs) b)) ++ match sel ([], FQ q vs b, bv) with Some u => [u] | None => [] end.
Proof. cbn [pos]. rewrite select_app. f_equal. unfold select; cbn. apply app_nil_r. Qed.

Lemma select_poss_cons {U} (sel : _ -> option U) bv n a l :
  select sel (poss bv n (a :: l)) = select sel (poss bv (S n) l) ++ select sel (map (pcons n) (pos bv a)).
Proof. cbn [poss]. apply select_app. Qed.

Lemma used_runs : forall f bv st rest out,
    Runs used_step st rest out ->
    Runs used_step st (Next f tt :: rest) (select sel_used (pos bv f) ++ out).
Proof.
  induction f as [v|s args IH|q vs b IH] using formula_ind'; intros bv [] rest out H.
  - econstructor; [reflexivity|]. cbn. constructor. exact H.
  - econstructor; [reflexivity|]. cbn [children]. rewrite app_nil_r, select_fun. cbn [sel_used pform fst snd].
    rewrite app_nil_r.
    generalize 0. revert rest out H. induction IH as [|a l Ha _ IHl]; intros rest out H n; [exact H|].
    rewrite select_poss_cons. cbn [map rev]. rewrite <- !app_assoc. apply IHl.
    rewrite (select_pcons _ sel_used) by (intros [[??]?] _; reflexivity). apply Ha, H.
  - econstructor; [reflexivity|]. rewrite select_quant. cbn [sel_used pform fst snd]. rewrite !app_nil_r.
    rewrite (select_pcons _ sel_used) by (intros [[??]?] _; reflexivity). apply IH, H.
Qed.

Lemma all_runs : forall f bv st rest out,
    Runs all_step st rest out ->
    Runs all_step st (Next f tt :: rest) (select sel_all (pos bv f) ++ out).
Proof.
  induction f as [v|s args IH|q vs b IH] using formula_ind'; intros bv [] rest out H.
  - econstructor; [reflexivity|]. cbn. constructor. exact H.
  - econstructor; [reflexivity|]. cbn [children rev]. rewrite <- app_assoc.
    rewrite select_fun, <- app_assoc. cbn [sel_all pform fst snd app].
    apply (R_res all_step tt (FFun s args)) in H.
    revert H. generalize (Resutl (P:=unit) (FFun s args) :: rest) as rest'.
    generalize (FFun s args :: out) as out'.
    generalize 0. induction IH as [|a l Ha _ IHl]; intros n out' rest' H; [exact H|].
    rewrite select_poss_cons. cbn [map rev]. rewrite <- !app_assoc. apply IHl.
    rewrite (select_pcons _ sel_all) by (intros [[??]?] _; reflexivity). apply Ha, H.
  - econstructor; [reflexivity|]. rewrite select_quant, <- app_assoc.
    rewrite (select_pcons _ sel_all) by (intros [[??]?] _; reflexivity). apply IH.
    constructor. exact H.
Qed.

Lemma depth_runs : forall f bv d st rest out,
    Runs depth_step st rest out ->
    Runs depth_step st (Next f d :: rest) (select (sel_depth d) (pos bv f) ++ out).
Proof.
  induction f as [v|s args IH|q vs b IH] using formula_ind'; intros bv d [] rest out H.
  - econstructor; [reflexivity|]. cbn. rewrite Nat.add_0_r. constructor. exact H.
  - econstructor; [reflexivity|]. cbn [children rev]. rewrite <- app_assoc.
    rewrite select_fun, <- app_assoc. cbn [sel_depth ppath fst snd app length].
    rewrite Nat.add_0_r.
    apply (R_res depth_step tt d) in H.
    revert H. generalize (Resutl (U:=nat) (P:=nat) d :: rest) as rest'.
    generalize (d :: out) as out'.
    remember (d + 1) as d1 eqn:Ed1.
    generalize 0. induction IH as [|a l Ha _ IHl]; intros n out' rest' H; [exact H|].
    rewrite select_poss_cons. cbn [map rev]. rewrite <- !app_assoc. apply IHl.
    rewrite (select_pcons _ (sel_depth d1)); [apply Ha, H|].
    intros [[??]?] _; unfold sel_depth, ppath, pcons; cbn. f_equal; lia.
  - econstructor; [reflexivity|]. rewrite select_quant, <- app_assoc. cbn [sel_depth ppath fst snd app length].
    rewrite Nat.add_0_r.
    rewrite (select_pcons _ (sel_depth (d + 1))).
    + apply IH. constructor. exact H.
    + intros [[??]?] _; unfold sel_depth, ppath, pcons; cbn. f_equal; lia.
Qed.

Lemma free_runs : forall f bv st rest out,
    firstn (length bv) st = bv ->
    (forall st', firstn (length bv) st' = bv -> Runs free_step st' rest out) ->
    Runs free_step st (Next f (length bv) :: rest) (select sel_free (pos bv f) ++ out).
Proof.
  induction f as [v|s args IH|q vs b IH] using formula_ind'; intros bv st rest out Hst H.
  - eapply R_next; [reflexivity|]. unfold select, sel_free; cbn.
    rewrite Hst. destruct (existsb _ bv); cbn; [|constructor]; apply H; apply firstn_all.
  - eapply R_next; [reflexivity|]. rewrite Hst, select_fun. cbn [sel_free pform fst snd]. rewrite app_nil_r.
    assert (Hg : forall st, firstn (length bv) st = bv ->
      Runs free_step st (rev (map (fun a => Next a (length bv)) args) ++ rest) (select sel_free (poss bv 0 args) ++ out)).
    2:{ apply Hg, firstn_all. }
    clear st Hst. generalize 0. revert rest out H.
    induction IH as [|a l Ha _ IHl]; intros rest out H n st Hst; [apply H, Hst|].
    rewrite select_poss_cons. cbn [map rev]. rewrite <- !app_assoc. apply IHl; [|exact Hst].
    intros st' Hst'.
    rewrite (select_pcons _ sel_free) by (intros [[??]?] _; reflexivity). apply Ha; auto.
  - eapply R_next; [reflexivity|]. rewrite Hst, select_quant. cbn [sel_free pform fst snd rev app].
    rewrite app_nil_r.
    rewrite (select_pcons _ sel_free) by (intros [[??]?] _; reflexivity). apply IH.
    + apply firstn_all.
    + intros st' Hst'. apply H.
      rewrite <- (firstn_skipn (length (bv ++ vs)) st'), Hst', <- app_assoc.
      rewrite firstn_app, Nat.sub_diag. cbn. rewrite firstn_all, app_nil_r. reflexivity.
Qed.

Lemma used_vars_run f :
  exists n out, (forall m, n <= m -> used_vars m f = Some out) /\ out = select sel_used (pos [] f).
Proof.
  destruct (Runs_collect _ _ _ _ (used_runs f [] tt [] [] (R_nil _ _))) as [n Hn].
  exists n, (select sel_used (pos [] f)). rewrite app_nil_r in Hn. auto.
Qed.
Lemma all_terms_run f :
  exists n out, (forall m, n <= m -> all_terms m f = Some out) /\ out = select sel_all (pos [] f).
Proof.
  destruct (Runs_collect _ _ _ _ (all_runs f [] tt [] [] (R_nil _ _))) as [n Hn].
  exists n, (select sel_all (pos [] f)). rewrite app_nil_r in Hn. auto.
Qed.
Lemma depths_run f :
  exists n out, (forall m, n <= m -> depths m f = Some out) /\ out = select (sel_depth 0) (pos [] f).
Proof.
  destruct (Runs_collect _ _ _ _ (depth_runs f [] 0 tt [] [] (R_nil _ _))) as [n Hn].
  exists n, (select (sel_depth 0) (pos [] f)). rewrite app_nil_r in Hn. auto.
Qed.
Lemma free_vars_run f :
  exists n out, (forall m, n <= m -> free_vars m f = Some out) /\ out = select sel_free (pos [] f).
Proof.
  destruct (Runs_collect _ _ _ _ (free_runs f [] [] [] [] eq_refl (fun st _ => R_nil _ st))) as [n Hn].
  exists n, (select sel_free (pos [] f)). rewrite app_nil_r in Hn. auto.
Qed.

Lemma free_vars_exact f :
  exists n out, (forall m, n <= m -> free_vars m f = Some out) /\
    enumerates f (fun p g v => g = FVar v /\ ~ binds_above f p (vid v)) out.
Proof.
  destruct (free_vars_run f) as (n & out & H & ->). exists n, (select sel_free (pos [] f)). split; [exact H|].
  apply select_enum. intros p g c u Hin. unfold sel_free; cbn.
  destruct (pos_sound _ _ _ _ _ Hin) as [_ Hc].
  destruct g as [v| |]; [|split; [discriminate|intros [? _]; discriminate]..].
  destruct (existsb (fun b => var_eqb b v) c) eqn:E.
  - apply existsb_exists in E as (b & Hb & Eb). apply Nat.eqb_eq in Eb.
    split; [discriminate|]. intros [Ev Hn]. injection Ev as ->. exfalso. apply Hn.
    destruct (proj1 (Hc (vid u))) as [(? & [] & _)|?]; eauto.
  - split.
    + intros Ev; injection Ev as ->. split; [reflexivity|]. intros Hb.
      destruct (proj2 (Hc (vid u)) (or_intror Hb)) as (b & Hb1 & Hb2).
      assert (existsb (fun b => var_eqb b u) c = true); [|congruence].
      apply existsb_exists. exists b. split; [auto|]. apply Nat.eqb_eq; auto.
    + intros [Ev _]; injection Ev as ->; reflexivity.
Qed.

Lemma used_vars_exact f :
  exists n out, (forall m, n <= m -> used_vars m f = Some out) /\
    enumerates f (fun _ g v => g = FVar v) out.
Proof.
  destruct (used_vars_run f) as (n & out & H & ->). exists n, (select sel_used (pos [] f)). split; [exact H|].
  apply select_enum. intros p g c u Hin. unfold sel_used; cbn.
  destruct g; split; intros E; try discriminate; congruence.
Qed.

Lemma all_depth_exact f :
  exists n ts ds ps,
    (forall m, n <= m -> all_terms m f = Some ts /\ depths m f = Some ds) /\
    NoDup ps /\
    Forall2 (fun p g => at_path f p g) ps ts /\
    ds = map (@length nat) ps /\
    (forall p g, at_path f p g -> In p ps).
Proof.
  destruct (all_terms_run f) as (n1 & ts & H1 & E1).
  destruct (depths_run f) as (n2 & ds & H2 & E2).
  exists (n1 + n2), ts, ds, (map ppath (pos [] f)). split; [|split; [|split; [|split]]].
  - intros m Hm. split; [apply H1|apply H2]; lia.
  - apply pos_nodup.
  - subst ts. assert (Hall : forall x, In x (pos [] f) -> at_path f (ppath x) (pform x)).
    { intros [[p g] c] Hx. apply (pos_sound _ _ _ _ _ Hx). }
    clear E2 H1 H2. induction (pos [] f) as [|x l IH]; cbn; constructor.
    + apply Hall; cbn; auto.
    + apply IH. intros y Hy; apply Hall; cbn; auto.
  - subst ds. rewrite map_map. clear. induction (pos [] f) as [|x l IH]; cbn; [reflexivity|].
    unfold select in *; cbn in *; congruence.
  - intros p g Hp. destruct (pos_complete _ _ _ Hp []) as [c Hc].
    apply in_map_iff. exists (p, g, c). auto.
Qed.

(** Occurrence forms used by other parts of the development. *)
Lemma used_vars_in f n out v :
  (forall m, n <= m -> used_vars m f = Some out) -> (In v out <-> exists p, at_path f p (FVar v)).
Proof.
  intros H. destruct (used_vars_exact f) as (n' & out' & H' & ps & _ & Hlen & Hs & Hc).
  assert (out' = out) as ->.
  { pose proof (H (n + n') ltac:(lia)). pose proof (H' (n + n') ltac:(lia)). congruence. }
  split.
  - intros Hin. apply In_nth_error in Hin as (k & Hk).
    destruct (nth_error ps k) as [p|] eqn:E.
    + destruct (Hs _ _ _ E Hk) as (g & Hp & ->). eauto.
    + apply nth_error_None in E. assert (nth_error out k <> None) by congruence.
      apply nth_error_Some in H0. lia.
  - intros (p & Hp). pose proof (Hc _ _ _ Hp eq_refl) as Hin. apply In_nth_error in Hin as (k & Hk).
    destruct (nth_error out k) as [u|] eqn:E.
    + destruct (Hs _ _ _ Hk E) as (g & Hp' & ->). pose proof (at_path_fun _ _ _ _ Hp Hp') as E'.
      injection E' as ->. eapply nth_error_In; eauto.
    + apply nth_error_None in E. assert (nth_error ps k <> None) by congruence.
      apply nth_error_Some in H0. lia.
Qed.
