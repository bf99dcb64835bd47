(** C28, C29, and the axioms of C30. *)
From Coq Require Import List Arith Bool Lia.
From Verif Require Import Syntax_Model Traversal_Model Subst_Model Traversal_Spec Semantics_Spec Semantics_Proofs Subst_Spec Subst_Proofs Order_Model Order_Spec
  Binding_Proofs Order_Proofs Order_Steps_Proofs Order_Props Macro_Model Macro_Spec Macro_Proofs Macro_Exec_Proofs.
Import ListNotations.

(** ** C28 *)
(** The generated axioms hold exactly when the cell holds what is assigned at every assigning step instance and is kept
    otherwise, provided the parameters of the steps are below [max_var].
    Missing: restricted to happening points (refuted below), and parameters not below [max_var] (refuted below). *)
Theorem C28_cell_axioms_partial : forall M m c,
  (forall a, In a (ce_asgs c) -> asg_ok m a) -> forall rho fs, cell_axioms m c = Some fs ->
  (Forall (fun f => holds (M:=M) f rho) fs <->
   cell_written M (ce_fun c) (ce_args c) (writes M rho c) /\ cell_kept M (ce_fun c) (ce_args c) (writes M rho c)).
Proof. exact cell_axioms_iff. Qed.
Print Assumptions C28_cell_axioms_partial.

(** Two steps writing different constants to one cell. *)
Definition c28_A : pstep := mkPStep 1 [] TRUE TRUE.
Definition c28_B : pstep := mkPStep 2 [] TRUE TRUE.
Definition c28_cell : mcell := mkCell 0 [] [mkAsg c28_A [] (FFun (Fuser 1) []) []; mkAsg c28_B [] (FFun (Fuser 2) []) []].

(** A parameter [i], used in the message; cell [c[i] := f(i)]. *)
Definition c28_C : pstep := mkPStep 1 [mkVar 0 (SIndex 0)] TRUE (FFun (Fuser 0) [FVar (mkVar 0 (SIndex 0))]).
Definition c28_cell_i : mcell :=
  mkCell 0 [SIndex 0] [mkAsg c28_C [FVar (mkVar 0 (SIndex 0))] (FFun (Fuser 1) [FVar (mkVar 0 (SIndex 0))]) []].
Example C28_example :
  protocol_max_var 20 [x_init; c28_C] [c28_cell_i] = Some 1 /\
  (forall a, In a (ce_asgs c28_cell_i) -> asg_ok 1 a) /\
  exists f g, cell_axioms 1 c28_cell_i = Some [f; g] /\
    let M fi := finM 3 (fun s ds => match s, ds with
                          | Fcell 0, [i; d] => fi i d | Fuser 1, [i] => i + 5 | Feval _, [d] => d
                          | _, _ => x_fint s ds end) in
    (** right: written at A(i), at the non-happening point too; wrong: the write is forgotten *)
    Forall (fun h => holds (M:=M (fun i d => match i with
                                   | 0 => if (d =? 1) || (d =? 2) then 5 else 3
                                   | 1 => if d =? 2 then 6 else 3
                                   | _ => i + 5 end)) h (fun _ => 0)) [f; g] /\
    ~ holds (M:=M (fun _ _ => 3)) g (fun _ => 0) /\ holds (M:=M (fun _ _ => 3)) f (fun _ => 0).
Proof.
  split; [reflexivity|]. split.
  - intros a [<-|[]]. split; [repeat constructor; cbn; auto|split].
    + intros v [<-|[]]. cbn; lia.
    + intros f i [<-|[<-|[]]] (p & v & Hp & <- & _); cbn; left.
      * inversion Hp as [|? ? k x p' ? Hk Hp'|]; subst. destruct k as [|[|k]]; cbn in Hk; [|discriminate..].
        injection Hk as <-. inversion Hp'; subst. reflexivity.
      * inversion Hp; subst. reflexivity.
  - eexists. eexists. split; [reflexivity|]. split; [repeat constructor; vm_compute; reflexivity|]. vm_compute. split; [discriminate|reflexivity].
Qed.

(** Full claim refuted: the axioms speak about step instances that do not happen, which are all the same point, so an
    execution where neither of two steps writing different values happens does not satisfy them. *)
Lemma cell_unhappened : forall M i tr u, is_trace M i tr u ->
  is_time M (inst M 1 []) -> is_time M (inst M 2 []) -> ~ In (inst M 1 []) tr -> ~ In (inst M 2 []) tr ->
  forall rho m fs, cell_axioms m c28_cell = Some fs -> Forall (fun f => holds (M:=M) f rho) fs ->
  fint M (Fuser 1) [] = fint M (Fuser 2) [].
Proof.
  intros M i tr u Ht T1 T2 N1 N2 rho m fs Hf H.
  assert (Hok : forall a, In a (ce_asgs c28_cell) -> asg_ok m a).
  { intros a [<-|[<-|[]]]; (split; [constructor|split; [intros v []|]]);
      intros f j [<-|[]] (p & v & Hp & _); inversion Hp as [|? ? k x p' ? Hk Hp'|]; subst; destruct k; discriminate. }
  apply (cell_axioms_iff M m c28_cell Hok rho fs Hf) in H as [H _].
  assert (E1 : inst M 1 [] = u) by (destruct (proj1 (tr_points M i tr u Ht _) T1); [contradiction|auto]).
  assert (E2 : inst M 2 [] = u) by (destruct (proj1 (tr_points M i tr u Ht _) T2); [contradiction|auto]).
  pose proof (H _ [] (or_introl eq_refl) (Forall2_nil _)) as A. pose proof (H _ [] (or_intror (or_introl eq_refl)) (Forall2_nil _)) as B.
  cbn in A, B. specialize (A T1 (Forall2_nil _)). specialize (B T2 (Forall2_nil _)). rewrite E1 in A. rewrite E2 in B.
  rewrite <- A, <- B. reflexivity.
Qed.
Theorem C28_unhappened_writes_refuted : forall M i tr u, is_trace M i tr u ->
  is_time M (inst M 1 []) -> is_time M (inst M 2 []) -> ~ In (inst M 1 []) tr -> ~ In (inst M 2 []) tr ->
  forall rho m fs, cell_axioms m c28_cell = Some fs -> Forall (fun f => holds (M:=M) f rho) fs ->
  fint M (Fuser 1) [] = fint M (Fuser 2) [].
Proof. exact cell_unhappened. Qed.
Print Assumptions C28_unhappened_writes_refuted.

(** Such an execution: only [init] happens. *)
Example C28_unhappened_example :
  let M := finM 1 (fun s ds => match s, ds with
             | Fhappens, [d] => b2n (d =? 0) | Fleq, [0; 0] => 1 | Fpred, _ => 1 | Fstep 0, _ => 0 | Fstep _, _ => 1
             | Fuser k, _ => k | _, _ => 0 end) in
  is_trace M 0 [0] 1 /\ inst M 1 [] = 1 /\ inst M 2 [] = 1 /\ fint M (Fuser 1) [] <> fint M (Fuser 2) [] /\
  exists fs, cell_axioms 1 c28_cell = Some fs.
Proof.
  intros M. assert (Nth : forall k d, nth_error [0] k = Some d <-> k = 0 /\ d = 0).
  { intros [|k] d; cbn; split; try (intros H; injection H as <-; auto); try (intros [? ->]; auto; discriminate).
    destruct k; discriminate. }
  split; [|split; [reflexivity|split; [reflexivity|split; [discriminate|eexists; reflexivity]]]].
  constructor; try reflexivity.
  - intros d. unfold is_time; cbn. lia.
  - cbn. lia.
  - repeat constructor; cbn; auto.
  - intros d _. unfold tholds; cbn. split; [destruct d; [auto|discriminate]|intros [<-|[]]; reflexivity].
  - intros a b _ _. split.
    + unfold tholds; cbn. destruct a as [|a], b as [|b]; cbn; try discriminate. intros _. exists 0, 0. auto.
    + intros (i & j & Hi & Hj & _). apply Nth in Hi as [_ ->]. apply Nth in Hj as [_ ->]. reflexivity.
  - intros a b _ _. split; [discriminate|]. intros (i & j & Hi & Hj & H). apply Nth in Hi as [-> _]. apply Nth in Hj as [-> _]. lia.
  - intros a b _ _. exists false. reflexivity.
  - intros k a b Ha Hb. apply Nth in Hb as [Hb _]. discriminate.
Qed.

(** Full claim refuted a second time: [max_var] ignores parameters that do not occur in the message or the condition, so
    the axioms' own time variable may be captured. *)
Lemma sfin_all_spec (lo hi : nat) p :
  forallb p (seq lo (S hi - lo)) = true <-> forall d, lo <= d <= hi -> p d = true.
Proof.
  rewrite forallb_forall. split; intros H d Hd; apply H; [apply in_seq|apply in_seq in Hd]; lia.
Qed.
Definition sfinM (lo hi : sort -> nat) (fi : fsym -> list nat -> nat) : structure :=
  mkStructure nat (fun s d => lo s <= d <= hi s) b2n n2b n2b_b2n Nat.eqb Nat.eqb_eq
    (fun s p => forallb p (seq (lo s) (S (hi s) - lo s)))
    (fun s p => sfin_all_spec (lo s) (hi s) p) fi.

Definition c28_D : pstep :=
  mkPStep 1 [mkVar 0 (SIndex 0); mkVar 1 (SIndex 0)] TRUE (FFun (Fuser 0) [FVar (mkVar 0 (SIndex 0))]).
Definition c28_cell_D : mcell := mkCell 0 [] [mkAsg c28_D [] (FFun (Fuser 1) []) []].
Definition c28_M : structure :=
  sfinM (fun s => match s with SIndex _ => 5 | _ => 0 end) (fun s => match s with SIndex _ => 5 | _ => 2 end)
    (fun s ds => match s, ds with
       | Fhappens, [d] => b2n (d <? 2) | Fleq, [a; b] => b2n ((a <=? b) && (b <? 2)) | Flt, [a; b] => b2n ((a <? b) && (b <? 2))
       | Fpred, [1] => 0 | Fpred, _ => 2 | Fstep 0, _ => 0 | Fstep _, _ => 1
       | Fcell _, [1] => 9 | Fcell _, _ => 8 | Fuser 1, _ => 9 | Feval _, [d] => d | _, _ => 0 end).
Lemma cell_captured : exists M i tr u rho steps c m fs,
  is_trace M i tr u /\ steps_distinct M (signature steps) /\ steps_exhaustive M (signature steps) /\
  (forall fuel, 30 <= fuel -> protocol_max_var fuel steps [c] = Some m) /\ cell_axioms m c = Some fs /\
  cell_written M (ce_fun c) (ce_args c) (writes M rho c) /\ cell_kept M (ce_fun c) (ce_args c) (writes M rho c) /\
  ~ Forall (fun f => holds (M:=M) f rho) fs.
Proof.
  exists c28_M, 0, [0; 1], 2, (fun _ => 5), [x_init; c28_D], c28_cell_D, 1. eexists.
  assert (Nth : forall k d, nth_error [0; 1] k = Some d <-> k = d /\ d < 2).
  { intros [|[|k]] d; cbn; split; try (intros H; injection H as <-; lia); try (intros [<- H]; auto; lia).
    destruct k; discriminate. }
  assert (Pts : forall d, is_time c28_M d -> d = 0 \/ d = 1 \/ d = 2) by (intros d; unfold is_time; cbn; lia).
  assert (L : forall a b, (exists i j, nth_error [0; 1] i = Some a /\ nth_error [0; 1] j = Some b /\ i <= j) <-> a <= b /\ b < 2).
  { intros a b. split; [intros (i & j & Hi & Hj & H); apply Nth in Hi, Hj; lia|].
    intros [H H']. exists a, b. rewrite !Nth. lia. }
  assert (L' : forall a b, (exists i j, nth_error [0; 1] i = Some a /\ nth_error [0; 1] j = Some b /\ i < j) <-> a < b /\ b < 2).
  { intros a b. split; [intros (i & j & Hi & Hj & H); apply Nth in Hi, Hj; lia|].
    intros [H H']. exists a, b. rewrite !Nth. lia. }
  assert (Sg : forall f ss ds, In (f, ss) (signature [x_init; c28_D]) -> args_of c28_M ss ds -> f = 0 /\ ds = [] \/ f = 1 /\ ds = [5; 5]).
  { intros f ss ds [E|[E|[]]] H; injection E as <- <-; [left|right]; split; auto.
    - inversion H; auto.
    - inversion H as [|? d ? ? Hd Hn]; subst. inversion Hn as [|? d' ? ? Hd' Hn']; subst. inversion Hn'; subst. cbn in Hd, Hd'.
      f_equal; [lia|f_equal; lia]. }
  assert (Ds : forall ds, args_of c28_M [SIndex 0; SIndex 0] ds -> ds = [5; 5]).
  { intros ds H. inversion H as [|? d ? ? Hd Hn]; subst. inversion Hn as [|? d' ? ? Hd' Hn']; subst. inversion Hn'; subst. cbn in Hd, Hd'.
    f_equal; [lia|f_equal; lia]. }
  split; [|split; [|split; [|split; [|split; [|split; [|split]]]]]].
  - constructor; try reflexivity.
    + intros d. unfold is_time; cbn. lia.
    + cbn. lia.
    + repeat constructor; cbn; lia.
    + intros d Hd. apply Pts in Hd as [->|[->| ->]]; unfold tholds; cbn; intuition (auto; try discriminate; try lia).
    + intros a b Ha Hb. rewrite L. apply Pts in Ha as [->|[->| ->]]; apply Pts in Hb as [->|[->| ->]]; unfold tholds; cbn; intuition (try discriminate; try lia).
    + intros a b Ha Hb. rewrite L'. apply Pts in Ha as [->|[->| ->]]; apply Pts in Hb as [->|[->| ->]]; unfold tholds; cbn; intuition (try discriminate; try lia).
    + intros a b _ _. eexists; reflexivity.
    + intros k a b Ha Hb. apply Nth in Ha, Hb. destruct Ha as [-> Ha], Hb as [<- Hb]. destruct a as [|a]; [reflexivity|lia].
  - intros f ss g ss' ds ds' Hf Hg Hds Hds' Hh Heq.
    destruct (Sg _ _ _ Hf Hds) as [[-> ->]|[-> ->]], (Sg _ _ _ Hg Hds') as [[-> ->]|[-> ->]]; auto; discriminate.
  - intros d Hd Hh Hn. apply Pts in Hd as [->|[->| ->]].
    + apply (Hn 0 [] []); [left; reflexivity|constructor|reflexivity].
    + apply (Hn 1 [SIndex 0; SIndex 0] [5; 5]); [right; left; reflexivity|repeat constructor; cbn; lia|reflexivity].
    + discriminate.
  - intros fuel H. do 30 (destruct fuel as [|fuel]; [lia|]). reflexivity.
  - reflexivity.
  - intros w ds [<-|[]] Hds _ _. cbn in Hds. rewrite (Ds ds Hds). reflexivity.
  - intros es t Hes Ht Hn. inversion Hes; subst. apply Pts in Ht as [->|[->| ->]]; try reflexivity. exfalso.
    apply (Hn _ [5; 5] (or_introl eq_refl)); [repeat constructor; cbn; lia|]. split; reflexivity.
  - intros H. inversion H as [|? ? H1 _]; subst. vm_compute in H1. discriminate.
Qed.
Theorem C28_unused_parameter_refuted : exists M i tr u rho steps c m fs,
  is_trace M i tr u /\ steps_distinct M (signature steps) /\ steps_exhaustive M (signature steps) /\
  (forall fuel, 30 <= fuel -> protocol_max_var fuel steps [c] = Some m) /\ cell_axioms m c = Some fs /\
  cell_written M (ce_fun c) (ce_args c) (writes M rho c) /\ cell_kept M (ce_fun c) (ce_args c) (writes M rho c) /\
  ~ Forall (fun f => holds (M:=M) f rho) fs.
Proof. exact cell_captured. Qed.
Print Assumptions C28_unused_parameter_refuted.

(** ** C29 *)
(** With the recursive definition, [exec] at a point of a trace is the conjunction of the conditions of the points after
    [init] up to it, so of all points when the condition of [init] holds. Missing: the condition of [init] itself (the
    generated axioms state [exec(init)] whatever it is), and the direct definition, which is the default (refuted). *)
Lemma exec_rec : forall M init others tr u,
  is_trace M (inst M (ps_fun init) []) tr u -> ps_vars init = [] -> proper_steps (init :: others) ->
  steps_exhaustive M (signature (init :: others)) ->
  forall rho, Forall (fun f => holds (M:=M) f rho) (exec_axioms false true init others) ->
  (forall k d, nth_error tr k = Some d ->
     (exec_at M d = true <-> forall j e, 1 <= j <= k -> nth_error tr j = Some e -> cond_at M e = true)) /\
  (cond_at M (inst M (ps_fun init) []) = true -> exec_correct M tr).
Proof.
  intros M init others tr u Ht Hi Hp He rho H.
  pose proof (exec_recursive_correct M init others tr u Ht Hp Hi He rho H) as R. split; [exact R|].
  intros Hc k d Hk. rewrite (R k d Hk). split.
  - intros Hall [|j] e Hj Hje; [|apply (Hall (S j)); auto; lia].
    rewrite (tr_first M _ tr u Ht) in Hje. injection Hje as <-. exact Hc.
  - intros Hall j e Hj. apply Hall. lia.
Qed.
Theorem C29_recursive_exec_partial : forall M init others tr u,
  is_trace M (inst M (ps_fun init) []) tr u -> ps_vars init = [] -> proper_steps (init :: others) ->
  steps_exhaustive M (signature (init :: others)) ->
  forall rho, Forall (fun f => holds (M:=M) f rho) (exec_axioms false true init others) ->
  (forall k d, nth_error tr k = Some d ->
     (exec_at M d = true <-> forall j e, 1 <= j <= k -> nth_error tr j = Some e -> cond_at M e = true)) /\
  (cond_at M (inst M (ps_fun init) []) = true -> exec_correct M tr).
Proof. exact exec_rec. Qed.
Print Assumptions C29_recursive_exec_partial.

(** Conversely these axioms hold when [exec] is that conjunction. *)
Theorem C29_recursive_exec_sound_partial : forall M init others tr u,
  is_trace M (inst M (ps_fun init) []) tr u -> proper_steps (init :: others) -> ps_vars init = [] ->
  steps_distinct M (signature (init :: others)) -> forall rho,
  (forall d, is_time M d -> exists b, vcond M (fint M (Fmacro MExec) [d]) = dinj M b) ->
  (forall s ds, In s others -> args_of M (map vsort (ps_vars s)) ds -> is_time M (inst M (ps_fun s) ds)) ->
  (forall k d, nth_error tr k = Some d ->
    (exec_at M d = true <-> forall j e, 1 <= j <= k -> nth_error tr j = Some e -> cond_at M e = true)) ->
  Forall (fun f => holds (M:=M) f rho) (exec_axioms false true init others).
Proof. exact exec_recursive_sound. Qed.
Print Assumptions C29_recursive_exec_sound_partial.

(** The trace [init; A(0); A(1)] where the condition of [A(0)] fails and that of [A(1)] holds. *)
Definition c29_M (exec : nat -> nat) : structure :=
  finM 3 (fun s ds => match s, ds with
    | Feval _, [d] => d | Fmacro MCondition, [d] => b2n (negb (d =? 1)) | Fmacro MExec, [d] => exec d | _, _ => x_fint s ds end).
Definition c29_exec (d : nat) : nat := b2n (d =? 0).
Lemma c29_trace exec : is_trace (c29_M exec) 0 [0; 1; 2] 3.
Proof. destruct x_trace. constructor; assumption. Qed.
Lemma c29_correct : exec_correct (c29_M c29_exec) [0; 1; 2].
Proof.
  intros k d Hk. apply x_nth in Hk as [-> Hd]. destruct d as [|d].
  - split; [|reflexivity]. intros _ j e Hj He. assert (j = 0) as -> by lia. injection He as <-. reflexivity.
  - split; [destruct d as [|[|d]]; [discriminate..|lia]|]. intros H. exfalso. assert (E := H 1 1 ltac:(lia) eq_refl). discriminate.
Qed.
Example C29_example : Forall (fun f => holds (M:=c29_M c29_exec) f (fun _ => 0)) (exec_axioms false true x_init [x_A]) /\
  exec_at (c29_M c29_exec) 2 = false /\ cond_at (c29_M c29_exec) 2 = true.
Proof. repeat constructor. Qed.

(** Full claim refuted for the direct definition: in a trace where a condition fails before one that holds, the right
    [exec] does not satisfy the axiom. *)
Lemma exec_dir : forall M i tr u, is_trace M i tr u -> forall rho j k d e,
  nth_error tr j = Some d -> nth_error tr k = Some e -> j <= k -> cond_at M d = false -> cond_at M e = true ->
  exec_correct M tr -> forall init others direct, use_direct direct false = true /\
    ~ Forall (fun f => holds (M:=M) f rho) (exec_axioms direct false init others).
Proof.
  intros M i tr u Ht rho j k d e Hj Hk Hjk Hd He Hex init others direct. split; [destruct direct; reflexivity|].
  intros H. unfold exec_axioms in H. replace (use_direct direct false) with true in H by (destruct direct; reflexivity).
  apply Forall_app in H as [_ H]. apply Forall_app in H as [_ H]. inversion H as [|? ? H1 _]; subst.
  pose proof (exec_direct_says M i tr u rho Ht H1 e (nth_error_In _ _ Hk)) as Says.
  rewrite He in Says. apply (Hex k e Hk) in Hj; auto. congruence.
Qed.
Theorem C29_direct_exec_refuted : forall M i tr u, is_trace M i tr u -> forall rho j k d e,
  nth_error tr j = Some d -> nth_error tr k = Some e -> j <= k -> cond_at M d = false -> cond_at M e = true ->
  exec_correct M tr -> forall init others direct, use_direct direct false = true /\
    ~ Forall (fun f => holds (M:=M) f rho) (exec_axioms direct false init others).
Proof. exact exec_dir. Qed.
Print Assumptions C29_direct_exec_refuted.

Example C29_direct_example : ~ Forall (fun f => holds (M:=c29_M c29_exec) f (fun _ => 0)) (exec_axioms false false x_init [x_A]).
Proof.
  apply (C29_direct_exec_refuted (c29_M c29_exec) 0 [0; 1; 2] 3 (c29_trace _) (fun _ => 0) 1 2 1 2); try reflexivity; [lia|].
  exact c29_correct.
Qed.

(** The direct definition does hold for an [exec] that only looks at the current condition. *)
Theorem C29_direct_exec_partial : forall M i tr u rho, is_trace M i tr u ->
  holds (M:=M) exec_direct rho -> forall d, In d tr -> exec_at M d = cond_at M d.
Proof. exact exec_direct_says. Qed.
Print Assumptions C29_direct_exec_partial.
Example C29_direct_partial_example :
  holds (M:=c29_M (fun d => b2n (negb (d =? 1)))) exec_direct (fun _ => 0) /\ exec_at (c29_M (fun d => b2n (negb (d =? 1)))) 2 = true.
Proof. vm_compute. auto. Qed.

(** ** C30 *)
(** The generated axioms say: at a happening instance of a step, the macros evaluate to the step's own terms with the
    instance's values for the parameters. *)
Theorem C30_macro_axioms_partial : forall M steps, (forall s, In s steps -> NoDup (map vid (ps_vars s))) -> forall rho,
  Forall (fun f => holds (M:=M) f rho) (map msg_cond_axiom steps) <-> macros_correct M rho steps.
Proof. exact msg_cond_iff. Qed.
Print Assumptions C30_macro_axioms_partial.

Example C30_axioms_example :
  let M cell := finM 3 (fun s ds => match s, ds with
     | Feval _, [d] => d | Fmacro MCondition, [_] => 1 | Fmacro MMessage, [d] => cell d | Fuser 0, [i] => i + 5 | _, _ => x_fint s ds end) in
  holds (M:=M (fun d => d + 4)) (msg_cond_axiom c28_C) (fun _ => 0) /\ ~ holds (M:=M (fun d => 4)) (msg_cond_axiom c28_C) (fun _ => 0).
Proof. vm_compute. split; [reflexivity|discriminate]. Qed.

(** Replacing the parameters of a step by arguments ([apply_message], [apply_condition]) is right when the parameters
    are the variables 1 to n. *)
Lemma apply_right : forall s args g, map vid (ps_vars s) = seq 1 (length (ps_vars s)) ->
  (apply_message s args = Some g -> replaces (first_listed (combine (map vid (ps_vars s)) args)) (ps_msg s) g) /\
  (apply_condition s args = Some g -> replaces (first_listed (combine (map vid (ps_vars s)) args)) (ps_cond s) g).
Proof.
  intros s args g E. unfold apply_message, apply_condition. rewrite <- E.
  split; intros H; [exact (proj1 (c05 _ _ (ps_msg s)) g H)|exact (proj1 (c05 _ _ (ps_cond s)) g H)].
Qed.
Theorem C30_apply_partial : forall s args g, map vid (ps_vars s) = seq 1 (length (ps_vars s)) ->
  (apply_message s args = Some g -> replaces (first_listed (combine (map vid (ps_vars s)) args)) (ps_msg s) g) /\
  (apply_condition s args = Some g -> replaces (first_listed (combine (map vid (ps_vars s)) args)) (ps_cond s) g).
Proof. exact apply_right. Qed.
Print Assumptions C30_apply_partial.

(** Refuted in general: parsed steps number their parameters from 0 (C22), and then every parameter is replaced by the
    argument of the previous one or not at all. *)
Definition c30_step : pstep :=
  mkPStep 1 [mkVar 0 (SIndex 0); mkVar 1 (SIndex 0)] TRUE (FFun (Fuser 0) [FVar (mkVar 0 (SIndex 0)); FVar (mkVar 1 (SIndex 0))]).
Lemma apply_wrong : exists s a b g, map vid (ps_vars s) = seq 0 (length (ps_vars s)) /\
  apply_message s [a; b] = Some g /\ ~ replaces (first_listed (combine (map vid (ps_vars s)) [a; b])) (ps_msg s) g /\
  g = FFun (Fuser 0) [FVar (mkVar 0 (SIndex 0)); a].
Proof.
  exists c30_step, (FFun (Fuser 7) []), (FFun (Fuser 8) []). eexists. split; [reflexivity|]. split; [reflexivity|]. split; [|reflexivity].
  intros H.
  assert (H2 : replaces (first_listed (combine (map vid (ps_vars c30_step)) [FFun (Fuser 7) []; FFun (Fuser 8) []])) (ps_msg c30_step)
                 (FFun (Fuser 0) [FFun (Fuser 7) []; FFun (Fuser 8) []])).
  { apply (proj1 (c05 _ _ (ps_msg c30_step))). reflexivity. }
  pose proof (proj1 (proj2 (proj2 (c05 (map vid (ps_vars c30_step)) [FFun (Fuser 7) []; FFun (Fuser 8) []] (ps_msg c30_step))))) as E.
  apply E in H. apply E in H2. congruence.
Qed.
Theorem C30_apply_refuted : exists s a b g, map vid (ps_vars s) = seq 0 (length (ps_vars s)) /\
  apply_message s [a; b] = Some g /\ ~ replaces (first_listed (combine (map vid (ps_vars s)) [a; b])) (ps_msg s) g /\
  g = FFun (Fuser 0) [FVar (mkVar 0 (SIndex 0)); a].
Proof. exact apply_wrong. Qed.
Print Assumptions C30_apply_refuted.
