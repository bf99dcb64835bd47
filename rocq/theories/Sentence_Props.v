(** C96: the assertions of a file are sentences. *)
From Coq Require Import List Arith Bool Lia.
From Verif Require Import Syntax_Model Syntax_Proofs Sort_Model Traversal_Spec Semantics_Spec Order_Model Macro_Model Graph_Model Expander_Spec Evaluate_Model Problem_Model File_Model
  Expander_Props Assumption_Model Assumption_Spec Assumption_Props Sentence_Spec Sentence_Proofs.
From Verif Require File_Props.
Import ListNotations.

(** With any options and in both realms, no axiom of a file has a free variable when the variables of the key of each encryption that is the message,
    the condition or the content of a cell are among those of its randomness or of its message. *)
Theorem C96_sentences_partial : forall sig table r vampire_flag defined preprocess anc scmp mfuel fuel w no_bitstring legacy skolem n split le ds axs,
  whole_file sig table r vampire_flag defined preprocess anc scmp mfuel fuel w no_bitstring legacy skolem n split le = Some (ds, axs) ->
  scoped_whole table w -> answers_cells anc (wp_cells w) -> keys_covered w ->
  forall a, In a axs -> closed_axiom a.
Proof.
  intros sig table r vf defined pre anc scmp mfuel fuel w nb legacy skolem n split le ds axs H HS Hans HK a Ha.
  pose proof (whole_closed _ _ _ _ _ _ _ _ _ _ _ HS Hans HK _ _ _ _ _ _ _ _ H) as F. rewrite Forall_forall in F. exact (F a Ha).
Qed.
Print Assumptions C96_sentences_partial.

(** ** Examples *)

(** The free ids and the quantifiers of a formula, computed. *)
Fixpoint free_ids (f : formula) : list nat :=
  match f with
  | FVar v => [vid v]
  | FFun _ args => flat_map free_ids args
  | FQ _ vs b => filter (fun i => negb (existsb (Nat.eqb i) (map vid vs))) (free_ids b)
  end.
Lemma free_ids_spec f i : In i (free_ids f) <-> occurs_free i f.
Proof.
  induction f as [v|s args IH|q vs b IH] using formula_ind'; cbn [free_ids].
  - split.
    + intros [<-|[]]. exists [], v. split; [constructor|]. split; [reflexivity|]. intros H. inversion H.
    + intros (p & w & Hp & Hi & _). inversion Hp; subst. left. reflexivity.
  - rewrite Forall_forall in IH. rewrite in_flat_map. split.
    + intros (a & Ha & Hi). apply (IH a Ha) in Hi as (p & v & Hp & Hv & Hn). apply In_nth_error in Ha as (k & Hk). exists (k :: p), v. split; [econstructor; eassumption|]. split; [exact Hv|].
      intros H. inversion H; subst. match goal with E : nth_error args k = Some _ |- _ => rewrite Hk in E; injection E as <- end. contradiction.
    + intros (p & v & Hp & Hv & Hn). inversion Hp; subst. exists a. assert (Ha : In a args) by (eapply nth_error_In; eassumption). split; [exact Ha|]. apply (IH a Ha).
      eexists _, v. split; [eassumption|]. split; [reflexivity|]. intros H. apply Hn. econstructor; eassumption.
  - rewrite filter_In, IH, negb_true_iff. split.
    + intros ((p & v & Hp & Hv & Hn) & Hb). exists (0 :: p), v. split; [constructor; exact Hp|]. split; [exact Hv|]. intros H. inversion H; subst; [|contradiction].
      assert (existsb (Nat.eqb (vid v)) (map vid vs) = true); [|congruence]. apply existsb_exists. exists (vid v). split; [|apply Nat.eqb_refl]. match goal with E : vid _ = vid v |- _ => rewrite <- E end. apply in_map. assumption.
    + intros (p & v & Hp & Hv & Hn). inversion Hp; subst. split.
      * eexists _, v. split; [eassumption|]. split; [reflexivity|]. intros H. apply Hn. apply ba_quant. exact H.
      * destruct (existsb _ _) eqn:E; [|reflexivity]. apply existsb_exists in E as (j & Hj & Ej). apply Nat.eqb_eq in Ej. subst j. apply in_map_iff in Hj as (u & Eu & Hu). destruct Hn. eapply ba_here; eassumption.
Qed.

Fixpoint parts (f : formula) : list formula :=
  f :: match f with FVar _ => [] | FFun _ args => flat_map parts args | FQ _ _ b => parts b end.
Lemma parts_spec f p g : at_path f p g -> In g (parts f).
Proof.
  induction 1 as [f|s args i p a g Hn Hp IH|q vs b p g Hp IH]; [destruct f; left; reflexivity| |]; right.
  - apply in_flat_map. exists a. split; [eapply nth_error_In; eassumption|exact IH].
  - exact IH.
Qed.
Definition is_plain (f : formula) : bool := forallb (fun g => match g with FQ _ _ _ => false | _ => true end) (parts f).
Lemma is_plain_spec f : is_plain f = true -> plain f.
Proof. intros H p q vs b Hp. apply parts_spec in Hp. unfold is_plain in H. rewrite forallb_forall in H. specialize (H _ Hp). discriminate. Qed.
(** Quantifiers are only below connectives. *)
Definition well_placed (f : formula) : bool :=
  forallb (fun g => match g with FFun (Fb CEq) _ => is_plain g | FFun (Fb _) _ => true | FFun _ _ => is_plain g | _ => true end) (parts f).
Lemma well_placed_spec f : well_placed f = true -> sorted_terms f.
Proof.
  intros H p s args Hp Hs. apply parts_spec in Hp. unfold well_placed in H. rewrite forallb_forall in H. specialize (H _ Hp). apply is_plain_spec. cbn beta iota in H.
  destruct Hs as [Hs|(-> & _)]; [|exact H]. destruct s; try exact H. destruct Hs.
Qed.
Definition ids_in (vs : list var) (f : formula) : bool := forallb (fun i => existsb (Nat.eqb i) (map vid vs)) (free_ids f).
Lemma ids_in_spec vs fs : forallb (ids_in vs) fs = true -> scoped fs vs.
Proof.
  intros H f i Hf Hi. rewrite forallb_forall in H. specialize (H f Hf). unfold ids_in in H. rewrite forallb_forall in H. apply free_ids_spec in Hi. specialize (H i Hi).
  apply existsb_exists in H as (j & Hj & E). apply Nat.eqb_eq in E. subst j. exact Hj.
Qed.

(** Two more steps that encrypt: with [covered], the randomness has the index of the key. *)
Definition w_enc (covered : bool) (k : nat) (v : var) : pstep :=
  mkPStep k [v] (FFun (Fta TTrue) [])
    (FFun (Fuser 3) [FFun (Fuser 0) []; FFun (Fcast SMessage) [FFun (Fname 4) (if covered then [FVar v] else [])]; FFun (Fcast SMessage) [FFun (Fname 3) [FVar v]]]).
Definition w_gen96 (covered : bool) : gen_problem :=
  mkGen (gp_sorts w_gen) (gp_funs w_gen ++ [Fname 4; Fstep 2; Fstep 3]) [SMessage; SCondition] [w_init; w_auth; w_enc covered 2 (mkVar 0 (SIndex 0)); w_enc covered 3 (mkVar 1 (SIndex 0))] []
    (gp_asserts w_gen) (gp_query w_gen).
Definition w_whole96 (covered : bool) : whole_problem := mkWhole (w_gen96 covered) [w_cell] (wp_assumptions w_whole) [] [].
Definition w_sig96 (covered : bool) (f : fsym) : option (list sort * sort) :=
  match f with Fname 4 => Some (if covered then [SIndex 0] else [], SName) | _ => w_sig f end.
Notation w_file96 covered r :=
  (whole_file (w_sig96 covered) (fun _ => None) r false true true w_anc w_scmp 50 300 (w_whole96 covered) false false 0 0 100 File_Props.ex_le).
Lemma w96_scoped covered : scoped_whole (fun _ => None) (w_whole96 covered).
Proof.
  split.
  - intros o [].
  - intros s Hs. cbn in Hs. members; subst; (split; split; [repeat (constructor; [cbn; intuition discriminate|]); constructor|split; [apply ids_in_spec; destruct covered; reflexivity|apply is_plain_spec; destruct covered; reflexivity]|
      repeat (constructor; [cbn; intuition discriminate|]); constructor|split; [apply ids_in_spec; destruct covered; reflexivity|apply is_plain_spec; destruct covered; reflexivity]]).
  - intros s l [= <- _]. reflexivity.
  - intros c a Hc Ha. cbn in Hc. members; subst. cbn in Ha. members; subst. split; [split; [repeat (constructor; [cbn; intuition discriminate|]); constructor|split; [apply ids_in_spec; reflexivity|apply is_plain_spec; reflexivity]]|].
    apply ids_in_spec. reflexivity.
  - intros k q H. discriminate.
  - intros g Hg i Hi. apply free_ids_spec in Hi. cbn in Hg. members; subst; exact Hi.
  - intros g Hg. apply well_placed_spec. inversion Hg as [g' Hi E|E|g' Hi E|g' Hi E|s Hi E|s Hi E|c a Hc Ha E]; subst; cbn in *; members; subst; try (destruct covered; reflexivity); cbn in Ha; members; subst; reflexivity.
Qed.
Lemma w96_covered : keys_covered (w_whole96 true).
Proof.
  intros enc dec fail m n l k i Hin Hp Hi. assert (E : enc = 3) by (cbn in Hin; members; congruence). subst enc. right.
  inversion Hp as [g' Hg E|E|g' Hg E|g' Hg E|s Hg E|s Hg E|c a Hc Ha E]; subst; cbn in *; members; subst; try discriminate; try (injection E as <- <- <- <-; apply free_ids_spec; apply free_ids_spec in Hi; exact Hi).
  cbn in Ha. members; subst. discriminate.
Qed.
Definition open_axiom (a : eaxiom) : bool := match a with ABase f => negb (match free_ids f with [] => true | _ => false end) | _ => false end.
Example C96_sentences_example : exists ds axs ds' axs',
  w_file96 true RSymbolic = Some (ds, axs) /\ w_file96 true REvaluated = Some (ds', axs') /\ length axs = 251 /\ length axs' = 74 /\
  scoped_whole (fun _ => None) (w_whole96 true) /\ answers_cells w_anc (wp_cells (w_whole96 true)) /\ keys_covered (w_whole96 true).
Proof.
  do 4 eexists. split; [vm_compute; reflexivity|]. split; [vm_compute; reflexivity|]. split; [reflexivity|]. split; [reflexivity|].
  split; [apply w96_scoped|]. split; [exact w_answers|exact w96_covered].
Qed.

Lemma open_found {D} (o : option (D * list eaxiom)) : match o with Some (_, axs) => existsb open_axiom axs | None => false end = true ->
  exists ds axs f i, o = Some (ds, axs) /\ In (ABase f) axs /\ occurs_free i f.
Proof.
  destruct o as [[ds axs]|]; [|discriminate]. intros E. apply existsb_exists in E as (a & Ha & E). destruct a as [f|? ? ?]; [|discriminate E]. unfold open_axiom in E.
  destruct (free_ids f) as [|i l] eqn:Ef; [discriminate E|]. exists ds, axs, f, i. split; [reflexivity|]. split; [exact Ha|]. apply free_ids_spec. rewrite Ef. left. reflexivity.
Qed.
Lemma w96_open r : match w_file96 false r with Some (_, axs) => existsb open_axiom axs | None => false end = true.
Proof. destruct r; vm_compute; reflexivity. Qed.
(** Without the last hypothesis it is false: of two encryptions with the same randomness and message, the variables of the second key are left out of
    the quantifier (the list of the free variables has the second randomness twice and the second key never). Both realms. *)
Theorem C96_sentences_refuted : forall r, exists sig w anc ds axs f i,
  whole_file sig (fun _ => None) r false true true anc w_scmp 50 300 w false false 0 0 100 File_Props.ex_le = Some (ds, axs) /\
  scoped_whole (fun _ => None) w /\ answers_cells anc (wp_cells w) /\ In (ABase f) axs /\ occurs_free i f.
Proof.
  intros r. destruct (open_found _ (w96_open r)) as (ds & axs & f & i & E & Ha & Hi).
  exists (w_sig96 false), (w_whole96 false), w_anc, ds, axs, f, i. split; [exact E|]. split; [apply w96_scoped|]. split; [exact w_answers|]. split; [exact Ha|exact Hi].
Qed.
Print Assumptions C96_sentences_refuted.
