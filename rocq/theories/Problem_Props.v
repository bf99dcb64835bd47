(** C41-C43: the lemma chain, the declarations and the construction of a protocol. *)
From Coq Require Import List Arith Bool Lia Permutation Sorting.Sorted.
From Verif Require Import Syntax_Model Semantics_Spec Semantics_Proofs Problem_Model Problem_Spec Problem_Proofs.
Import ListNotations.

(** ** C41 *)

(** With lemmas, the problems are one per lemma and one for the query, in order; the assertions of each are those of the problem, [true]
    and the earlier lemmas; then nothing more. *)
Theorem C41_problems : forall (p : problem) (k : nat),
  (k < List.length (pb_lemmas p) -> exists pk, yielded k (pbl_new p true) = Some pk /\
     nth_error (pb_lemmas p) k = Some (pb_query pk) /\ pb_assertions pk = pb_assertions p ++ TRUE :: firstn k (pb_lemmas p)) /\
  (k = List.length (pb_lemmas p) -> exists pk, yielded k (pbl_new p true) = Some pk /\
     pb_query pk = pb_query p /\ pb_assertions pk = pb_assertions p ++ TRUE :: pb_lemmas p) /\
  (List.length (pb_lemmas p) < k -> yielded k (pbl_new p true) = None) /\
  pbl_len (pbl_new p true) = S (List.length (pb_lemmas p)).
Proof.
  intros p k. split; [|split; [|split]].
  - intros H. rewrite iterate_lemmas by lia. eexists. split; [reflexivity|]. cbn [pb_query pb_assertions]. split; [|reflexivity].
    rewrite app_nth1 by assumption. apply nth_error_nth'. assumption.
  - intros ->. rewrite iterate_lemmas by lia. eexists. split; [reflexivity|]. cbn [pb_query pb_assertions]. split; [|rewrite firstn_all; reflexivity].
    rewrite app_nth2, Nat.sub_diag by lia. reflexivity.
  - intros H. apply yielded_past. rewrite app_length. cbn. lia.
  - unfold pbl_len, pbl_new. cbn. rewrite app_length. cbn. lia.
Qed.
Print Assumptions C41_problems.

Example C41_problems_example : let a := FFun (Fuser 0) [] in let l1 := FFun (Fuser 1) [] in let l2 := FFun (Fuser 2) [] in let q := FFun (Fuser 3) [] in
  map (fun k => option_map (fun p => (pb_assertions p, pb_query p)) (yielded k (pbl_new (mkProblem [a] [l1; l2] q) true))) [0; 1; 2; 3] =
  [Some ([a; TRUE], l1); Some ([a; TRUE; l1], l2); Some ([a; TRUE; l1; l2], q); None].
Proof. reflexivity. Qed.

(** Without, the problem itself and nothing more; only then may it be written to a single file. *)
Theorem C41_one : forall (p : problem) (k : nat),
  yielded 0 (pbl_new p false) = Some p /\ yielded (S k) (pbl_new p false) = None /\ (forall b, assert_one (pbl_new p b) = negb b) /\
  (forall it, assert_one it = true -> yielded 0 it <> None /\ yielded (S k) it = None).
Proof.
  intros p k. split; [reflexivity|]. split; [destruct k; reflexivity|]. split; [intros []; reflexivity|].
  intros [q []] H; try discriminate H. split; [discriminate|]. destruct k; reflexivity.
Qed.
Print Assumptions C41_one.

(** If every problem is valid then so are all the lemmas and the query, from the assertions alone. *)
Theorem C41_sound : forall (K : structure -> Prop) (p : problem),
  (forall k pk, yielded k (pbl_new p true) = Some pk -> follows K (pb_assertions pk) (pb_query pk)) ->
  follows K (pb_assertions p) (pb_query p) /\ (forall l, In l (pb_lemmas p) -> follows K (pb_assertions p) l).
Proof.
  intros K p H. pose proof (lemmas_sound K p H) as G. split; [|intros l Hl]; apply G; apply in_or_app; [right; left; reflexivity|left; assumption].
Qed.
Print Assumptions C41_sound.

(** Not vacuous: a lemma that helps. *)
Example C41_sound_example : let a := FFun (Fuser 0) [] in let b := FFun (Fuser 1) [] in let c := FFun (Fuser 2) [] in
  let p := mkProblem [a; fimp a b; fimp b c] [b] c in
  forall k pk, yielded k (pbl_new p true) = Some pk -> follows (fun _ => True) (pb_assertions pk) (pb_query pk).
Proof.
  intros a b c p k pk H. assert (Hb : forall (M : structure) (rho : env M), holds a rho -> holds (fimp a b) rho -> holds b rho).
  { intros M rho Ha Hab. rewrite holds_imp in Hab. auto. }
  assert (Hc : forall (M : structure) (rho : env M), holds b rho -> holds (fimp b c) rho -> holds c rho).
  { intros M rho Hx Hbc. rewrite holds_imp in Hbc. auto. }
  destruct k as [|[|k]].
  - injection H as <-. intros M _ rho Hall. apply Hb; apply Hall; cbn; tauto.
  - injection H as <-. intros M _ rho Hall. apply Hc; apply Hall; cbn; tauto.
  - unfold pbl_new in H. rewrite yielded_past in H by (cbn; lia). discriminate.
Qed.

(** Running all of them reports either one result per problem, each from running that problem, or the error of the first problem that
    has one. *)
Theorem C41_run : forall (X R E : Type) (run : X -> problem -> X * (R + E)) (p : problem) (x : X), exists n out, forall m, n <= m ->
  auto_run run m x (pbl_new p true) = Some out /\
  match out with
  | inl rs => List.length rs = S (List.length (pb_lemmas p)) /\
              forall k, k <= List.length (pb_lemmas p) -> exists pk y r,
                yielded k (pbl_new p true) = Some pk /\ snd (run y pk) = inl r /\ nth_error rs k = Some r
  | inr e => exists k pk y, yielded k (pbl_new p true) = Some pk /\ snd (run y pk) = inr e /\
               forall j, j < k -> exists pj y r, yielded j (pbl_new p true) = Some pj /\ snd (run y pj) = inl r
  end.
Proof.
  intros X R E run p x. destruct (auto_run_lemmas run (pb_lemmas p ++ [pb_query p]) (pb_assertions p) TRUE x) as (n & out & H).
  exists n, out. intros m Hm. destruct (H m Hm) as [H1 H2]. split; [exact H1|]. destruct out as [rs|e]; [|exact H2].
  rewrite app_length in H2. cbn [List.length] in H2. destruct H2 as [H2 H3]. split; [lia|]. intros k Hk. apply H3. lia.
Qed.
Print Assumptions C41_run.

Example C41_run_example : let run := fun (x : nat) (p : problem) => (S x, if List.length (pb_assertions p) <? 4 then inl (List.length (pb_assertions p)) else inr x) in
  auto_run run 9 0 (pbl_new (mkProblem [TRUE] [TRUE] TRUE) true) = Some (inl [2; 3]) /\
  auto_run run 9 0 (pbl_new (mkProblem [TRUE] [TRUE; TRUE; TRUE] TRUE) true) = Some (inr 2).
Proof. split; reflexivity. Qed.

(** ** C42 *)

(** Every function that is not built in is declared once for every time it is listed, as a constructor of its sort or by itself. *)
Theorem C42_declared_once : forall (F : Type) (builtin always ta : F -> bool) (outsort : F -> option nat) (symbolic : bool)
  (keep : nat -> bool) (ss : list nat) (fs : list F) (le : declaration F -> declaration F -> bool) (ds : list (declaration F)),
  declare builtin always ta outsort symbolic keep ss fs = Some ds ->
  Permutation (flat_map declares (sort_decls le ds)) (filter (fun f => negb (builtin f)) fs) /\
  (forall f, In (DFun f) (sort_decls le ds) -> always f = false /\ (ta f = false \/ symbolic = false)) /\
  (forall l s cs f, In (DDataTypes l) (sort_decls le ds) -> In (s, cs) l -> In f cs ->
     outsort f = Some s /\ (always f = true \/ ta f = true /\ symbolic = true)) /\
  (exists l, filter (fun d => match d with DDataTypes _ => true | _ => false end) (sort_decls le ds) = [DDataTypes l] /\ StronglySorted lt (map fst l)).
Proof.
  intros F builtin always ta outsort symbolic keep ss fs le ds H. unfold declare in H.
  destruct (partition_functions builtin always ta outsort symbolic fs [] []) as [[m free]|] eqn:E; [|discriminate]. injection H as <-.
  destruct (partition_spec builtin always ta outsort symbolic fs [] [] m free E) as (H1 & H2 & H3 & H4); [constructor|]. cbn in H1.
  set (ds := map DSort (filter keep ss) ++ map DFun free ++ [DDataTypes m]). pose proof (sort_perm le ds) as HP.
  assert (HD : forall d, In d (sort_decls le ds) -> In d ds) by (intros d; apply (Permutation_in _ HP)).
  split; [|split; [|split]].
  - assert (A1 : forall l, flat_map declares (map DSort l) = @nil F) by (induction l; cbn; auto).
    assert (A2 : forall l, flat_map declares (map DFun l) = (l : list F)) by (induction l; cbn; congruence).
    rewrite (flat_map_perm declares _ _ HP). unfold ds. rewrite !flat_map_app, A1, A2. cbn. rewrite app_nil_r. exact H1.
  - intros f Hf. apply HD in Hf. unfold ds in Hf. apply in_app_or in Hf. destruct Hf as [Hf|Hf]; [apply in_map_iff in Hf; destruct Hf as (? & ? & _); discriminate|].
    apply in_app_or in Hf. destruct Hf as [Hf|[Hf|[]]]; [|discriminate]. apply in_map_iff in Hf. destruct Hf as (g & [= ->] & Hg).
    destruct (H3 _ Hg) as [[]|Hc]. unfold is_cons in Hc. apply orb_false_elim in Hc. destruct Hc as [Hc1 Hc2]. split; [assumption|]. apply andb_false_iff. assumption.
  - intros l s cs f Hl Hs Hf. apply HD in Hl. unfold ds in Hl. apply in_app_or in Hl. destruct Hl as [Hl|Hl]; [apply in_map_iff in Hl; destruct Hl as (? & ? & _); discriminate|].
    apply in_app_or in Hl. destruct Hl as [Hl|[Hl|[]]]; [apply in_map_iff in Hl; destruct Hl as (? & ? & _); discriminate|]. injection Hl as <-.
    destruct (H4 _ _ _ Hs Hf) as [(? & [] & _)|[Hc Ho]]. split; [assumption|]. unfold is_cons in Hc. apply orb_prop in Hc. destruct Hc as [Hc|Hc]; [auto|].
    apply andb_prop in Hc. auto.
  - exists m. split; [|assumption]. apply Permutation_length_1_inv. symmetry.
    assert (HF : forall l l' : list (declaration F), Permutation l l' ->
      Permutation (filter (fun d => match d with DDataTypes _ => true | _ => false end) l) (filter (fun d => match d with DDataTypes _ => true | _ => false end) l')).
    { clear. induction 1 as [|x l l' _ IH|x y l|l l' l'' _ IH1 _ IH2]; cbn; [reflexivity|destruct x; auto|destruct x, y; try reflexivity; apply perm_swap|etransitivity; eassumption]. }
    assert (A1 : forall l, filter (fun d : declaration F => match d with DDataTypes _ => true | _ => false end) (map DSort l) = []) by (induction l; cbn; auto).
    assert (A2 : forall l, filter (fun d : declaration F => match d with DDataTypes _ => true | _ => false end) (map DFun l) = []) by (induction l; cbn; auto).
    rewrite (HF _ _ HP). unfold ds. rewrite !filter_app, A1, A2. reflexivity.
Qed.
Print Assumptions C42_declared_once.

(** The file lists sorts before datatypes and datatypes before functions, so a function's sorts are declared before it. *)
Theorem C42_order : forall (F : Type) (le : declaration F -> declaration F -> bool) (ds : list (declaration F)),
  (forall d e, le d e = true -> rank d <= rank e) -> (forall d e, le d e = false -> rank e <= rank d) ->
  Permutation (sort_decls le ds) ds /\ StronglySorted (fun a b => rank a <= rank b) (sort_decls le ds).
Proof. intros F le ds H1 H2. split; [apply sort_perm|]. apply sort_sorted; assumption. Qed.
Print Assumptions C42_order.

(** It fails only on a constructor without a sort, and keeps the sorts that are asked for. *)
Theorem C42_total : forall (F : Type) (builtin always ta : F -> bool) (outsort : F -> option nat) (symbolic : bool)
  (keep : nat -> bool) (ss : list nat) (fs : list F),
  (forall f, In f fs -> always f = true \/ ta f = true -> outsort f <> None) ->
  exists ds, declare builtin always ta outsort symbolic keep ss fs = Some ds /\
    forall s, In (DSort s) ds <-> In s ss /\ keep s = true.
Proof.
  intros F builtin always ta outsort symbolic keep ss fs H. unfold declare.
  destruct (partition_functions builtin always ta outsort symbolic fs [] []) as [[m free]|] eqn:E.
  - eexists. split; [reflexivity|]. intros s. rewrite !in_app_iff, in_map_iff. split.
    + intros [(x & [= ->] & Hx)|[Hx|[Hx|[]]]]; [apply filter_In in Hx; assumption|apply in_map_iff in Hx; destruct Hx as (? & ? & _); discriminate|discriminate].
    + intros Hs. left. exists s. split; [reflexivity|]. apply filter_In. assumption.
  - exfalso. apply (partition_total builtin always ta outsort symbolic fs) in E; [assumption|]. intros f Hf _ Hc. apply H; [assumption|].
    unfold is_cons in Hc. apply orb_prop in Hc. destruct Hc as [?|Hc]; [auto|]. apply andb_prop in Hc. tauto.
Qed.
Print Assumptions C42_total.

(** Functions 0-1 built in, 2-3 names, 4-7 of the term algebra, the rest plain. *)
Example C42_example : let bi := fun f => f <? 2 in let nm := fun f => (2 <=? f) && (f <? 4) in let ta := fun f => (4 <=? f) && (f <? 8) in
  let out := fun f => Some (if nm f then 1 else if f =? 5 then 3 else 2) in
  option_map (sort_decls (fun a b => rank a <=? rank b)) (declare bi nm ta out true (fun s => 5 <=? s) [1; 5; 6] [9; 6; 0; 2; 5; 3; 4; 8]) =
    Some [DSort 5; DSort 6; DDataTypes [(1, [2; 3]); (2, [6; 4]); (3, [5])]; DFun 9; DFun 8] /\
  option_map (sort_decls (fun a b => rank a <=? rank b)) (declare bi nm ta out false (fun s => 5 <=? s) [1; 5; 6] [9; 6; 0; 2; 5; 3; 4; 8]) =
    Some [DSort 5; DSort 6; DDataTypes [(1, [2; 3])]; DFun 9; DFun 6; DFun 5; DFun 4; DFun 8].
Proof. split; reflexivity. Qed.

(** ** C43 *)

(** The steps are kept, init comes first, and there is no protocol without init. *)
Theorem C43_steps : forall (S : Type) (is_init : S -> bool) (l : list S),
  match protocol_steps is_init l with
  | Some l' => Permutation l' l /\
               exists s i rest, l' = s :: rest /\ steps_without_init l' = Some rest /\ is_init s = true /\ nth_error l i = Some s /\
                 (forall j s', j < i -> nth_error l j = Some s' -> is_init s' = false)
  | None => forall s, In s l -> is_init s = false
  end.
Proof.
  intros S is_init l. unfold protocol_steps. destruct (position is_init l) as [i|] eqn:E; [|apply position_none; assumption].
  destruct (position_some is_init l i E) as (s & H1 & H2 & H3). destruct (swap0_total i l s H1) as (l' & El). rewrite El.
  destruct (swap0_perm i l l' El) as [P H0]. split; [assumption|]. destruct l' as [|s' rest]; [cbn in H0; congruence|].
  exists s', i, rest. cbn in H0. replace s' with s by congruence. repeat split; try assumption.
Qed.
Print Assumptions C43_steps.

(** If there is one init step, the other steps are the rest. *)
Theorem C43_without_init : forall (S : Type) (is_init : S -> bool) (l l' rest : list S),
  List.length (filter is_init l) = 1 -> protocol_steps is_init l = Some l' -> steps_without_init l' = Some rest ->
  Permutation rest (filter (fun s => negb (is_init s)) l).
Proof.
  intros S is_init l l' rest H1 E Er. pose proof (C43_steps S is_init l) as H. rewrite E in H. destruct H as (P & s & i & r & -> & Es & Hs & _).
  rewrite Es in Er. injection Er as <-.
  assert (HF : forall (p : S -> bool) l l', Permutation l l' -> Permutation (filter p l) (filter p l')).
  { clear. induction 1 as [|x l l' _ IH|x y l|l l' l'' _ IH1 _ IH2]; cbn; [reflexivity|destruct (p x); auto|destruct (p x), (p y); try reflexivity; apply perm_swap|etransitivity; eassumption]. }
  rewrite <- (HF _ _ _ P). cbn. rewrite Hs. cbn. apply HF with (p := is_init) in P. cbn in P. rewrite Hs in P.
  apply Permutation_length in P. rewrite H1 in P. cbn in P. assert (N : filter is_init r = []) by (destruct (filter is_init r); [reflexivity|cbn in P; lia]).
  clear -N. induction r as [|x r IH]; cbn in *; [constructor|]. destruct (is_init x); [discriminate|]. cbn. constructor. apply IH. assumption.
Qed.
Print Assumptions C43_without_init.

Example C43_example : protocol_steps (Nat.eqb 0) [3; 1; 0; 2] = Some [0; 1; 3; 2] /\ steps_without_init [0; 1; 3; 2] = Some [1; 3; 2] /\
  protocol_steps (Nat.eqb 0) [3; 1] = None /\ List.length (filter (Nat.eqb 0) [3; 1; 0; 2]) = 1.
Proof. repeat split. Qed.
