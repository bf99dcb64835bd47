(** C28: the variables that the axioms of cells introduce are new. *)
From Coq Require Import List Arith Bool Lia.
From Verif Require Import Syntax_Model Traversal_Model Subst_Model Traversal_Spec Traversal_Proofs Semantics_Spec Subst_Spec Subst_Proofs Order_Model Order_Spec Order_Props
  Macro_Model Macro_Spec Macro_Proofs Macro_Props.
Import ListNotations.

Lemma steps_vars steps : exists n vss, (forall k, n <= k -> mapM (occuring_variables k) steps = Some vss) /\
  forall v, In v (concat vss) <-> exists s, In s steps /\ (occurs v (ps_msg s) \/ occurs v (ps_cond s)).
Proof.
  induction steps as [|s steps (n & vss & H1 & H2)].
  - exists 0, []. split; [reflexivity|]. intros v. split; [intros []|intros (s & [] & _)].
  - destruct (used_with_runs [ps_msg s; ps_cond s]) as (out & Hr & Hin). destruct (Runs_collect _ _ _ _ Hr) as [n' Hn].
    exists (Nat.max n n'), (out :: vss). split.
    + intros k Hk. cbn [mapM]. unfold occuring_variables at 1. unfold used_vars_with. rewrite Hn by lia. rewrite H1 by lia. reflexivity.
    + intros v. cbn [concat]. rewrite in_app_iff, H2, Hin. split.
      * intros [(f & [<-|[<-|[]]] & Hv)|(x & Hx & Hv)]; [exists s|exists s|exists x]; cbn; auto.
      * intros (x & [<-|Hx] & Hv); [left|right; exists x; auto]. destruct Hv as [Hv|Hv]; eexists; (split; [|exact Hv]); cbn; auto.
Qed.
(** The variables that count. *)
Definition counted (steps : list pstep) (cells : list mcell) (v : var) : Prop :=
  (exists s, In s steps /\ (occurs v (ps_msg s) \/ occurs v (ps_cond s))) \/ (exists c a, In c cells /\ In a (ce_asgs c) /\ In v (as_fresh a)).
Lemma fold_max_in l : forall a, fold_left Nat.max l a = a \/ In (fold_left Nat.max l a) l.
Proof.
  induction l as [|b l IH]; intros a; cbn; [auto|]. destruct (IH (Nat.max a b)) as [E|E]; [rewrite E|auto]. destruct (Nat.max_spec a b) as [[_ ->]|[_ ->]]; auto.
Qed.
(** The first number for a new variable is above every variable of a message or a condition, bound or not, and above the additional variables
    of every assignment; it is the least such number. *)
Theorem C28_max_var : forall steps cells, exists n m, (forall k, n <= k -> protocol_max_var k steps cells = Some m) /\
  (forall v, counted steps cells v -> vid v < m) /\ (m = 1 \/ exists v, counted steps cells v /\ m = S (vid v)).
Proof.
  intros steps cells. destruct (steps_vars steps) as (n & vss & H1 & H2).
  set (vs := concat vss ++ flat_map (fun c => flat_map as_fresh (ce_asgs c)) cells).
  assert (Hin : forall v, In v vs <-> counted steps cells v).
  { intros v. unfold vs, counted. rewrite in_app_iff, H2, in_flat_map. split; (intros [H|H]; [left; exact H|right]).
    - destruct H as (c & Hc & H). apply in_flat_map in H as (a & Ha & Hv). exists c, a. auto.
    - destruct H as (c & a & Hc & Ha & Hv). exists c. split; [exact Hc|]. apply in_flat_map. exists a. auto. }
  exists n, (match ids_max (map vid vs) with Some m => m | None => 0 end + 1). split; [|split].
  - intros k Hk. unfold protocol_max_var. rewrite H1 by exact Hk. reflexivity.
  - intros v Hv. apply Hin in Hv. pose proof (proj2 (max_var_or_max_gt vs 0) v Hv) as H. unfold max_var_or_max in H. destruct (ids_max (map vid vs)); lia.
  - unfold ids_max. destruct (map vid vs) as [|a l] eqn:E; [left; reflexivity|right].
    assert (In (fold_left Nat.max l a) (map vid vs)) as H by (rewrite E; destruct (fold_max_in l a) as [->|H]; [left; reflexivity|right; exact H]).
    apply in_map_iff in H as (v & Ev & Hv). exists v. split; [apply Hin, Hv|lia].
Qed.
Print Assumptions C28_max_var.

(** So in every protocol whose steps use their parameters the axioms of a cell mean what they should.
    Missing: as for [C28_cell_axioms_partial]. *)
Theorem C28_used_parameters_partial : forall M steps cells c, In c cells ->
  (forall a, In a (ce_asgs c) -> In (as_step a) steps /\ NoDup (map vid (asg_vars a)) /\
    (forall v, In v (ps_vars (as_step a)) -> occurs v (ps_msg (as_step a)) \/ occurs v (ps_cond (as_step a))) /\
    (forall f i, In f (as_content a :: as_args a) -> occurs_free i f -> In i (map vid (asg_vars a)))) ->
  exists n m, (forall k, n <= k -> protocol_max_var k steps cells = Some m) /\
  forall rho fs, cell_axioms m c = Some fs ->
  (Forall (fun f => holds (M:=M) f rho) fs <->
   cell_written M (ce_fun c) (ce_args c) (writes M rho c) /\ cell_kept M (ce_fun c) (ce_args c) (writes M rho c)).
Proof.
  intros M steps cells c Hc H. destruct (C28_max_var steps cells) as (n & m & H1 & H2 & _). exists n, m. split; [exact H1|].
  apply C28_cell_axioms_partial. intros a Ha. destruct (H a Ha) as (A1 & A2 & A3 & A4). split; [exact A2|]. split; [|exact A4].
  intros v Hv. apply H2. apply in_app_or in Hv as [Hv|Hv]; [left|right; exists c, a; auto]. exists (as_step a). auto.
Qed.
Print Assumptions C28_used_parameters_partial.

(** A step [A(i, j)] that uses [i] in its message and [j], under a quantifier over a higher variable, in its condition; the cell [c[i] := f(j)]. *)
Definition c28_i : var := mkVar 1 (SIndex 0).
Definition c28_j : var := mkVar 4 (SIndex 0).
Definition c28_E : pstep := mkPStep 1 [c28_i; c28_j] (mk_forall [mkVar 6 SMessage] (FFun (Fuser 3) [FVar (mkVar 6 SMessage); FVar c28_j])) (FFun (Fuser 0) [FVar c28_i]).
Definition c28_cell_E : mcell := mkCell 0 [SIndex 0] [mkAsg c28_E [FVar c28_i] (FFun (Fuser 1) [FVar c28_j]) []].
Example C28_used_parameters_example : protocol_max_var 30 [x_init; c28_E] [c28_cell_E] = Some 7 /\
  exists fs, cell_axioms 7 c28_cell_E = Some fs /\ length fs = 2 /\ forall M rho, Forall (fun f => holds (M:=M) f rho) fs <->
    cell_written M 0 [SIndex 0] (writes M rho c28_cell_E) /\ cell_kept M 0 [SIndex 0] (writes M rho c28_cell_E).
Proof.
  split; [reflexivity|]. eexists. split; [reflexivity|]. split; [reflexivity|]. intros M rho.
  destruct (C28_used_parameters_partial M [x_init; c28_E] [c28_cell_E] c28_cell_E (or_introl eq_refl)) as (n & m & H1 & H2).
  - intros a [<-|[]]. split; [right; left; reflexivity|]. split; [repeat constructor; cbn; intuition discriminate|]. split.
    + intros v [<-|[<-|[]]]; [left|right].
      * exists [0]. eapply at_fun; [reflexivity|constructor].
      * exists [0; 1]. apply at_quant. eapply at_fun; [reflexivity|constructor].
    + intros f i [<-|[<-|[]]] (p & v & Hp & <- & _); cbn.
      * inversion Hp as [|? ? k x p' ? Hk Hp'|]; subst. destruct k as [|[|k]]; cbn in Hk; [|discriminate..]. injection Hk as <-. inversion Hp'; subst. auto.
      * inversion Hp; subst. auto.
  - assert (P : protocol_max_var (30 + n) [x_init; c28_E] [c28_cell_E] = Some 7) by reflexivity. rewrite (H1 (30 + n)) in P by lia. injection P as ->.
    apply H2. reflexivity.
Qed.
