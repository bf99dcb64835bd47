(** C108: functions are applied to as many arguments as they are declared with. *)
From Coq Require Import List Arith Bool Lia.
From Verif Require Import Syntax_Model Syntax_Proofs Sort_Model Traversal_Spec Semantics_Spec Order_Model Macro_Model Graph_Model Expander_Spec Evaluate_Model Problem_Model File_Model
  File_Spec Expander_Props Assumption_Model Assumption_Spec Assumption_Props Sentence_Props Arity_Spec Arity_Proofs.
From Verif Require File_Props Smt_Model Smt_Spec Smt_Props.
Import ListNotations.

(** With any options and in both realms: in every axiom of a file, every function of the problem has as many arguments as its signature, every symbol of the
    logic as many as it takes, and every other function, the splitting predicates, one. *)
Theorem C108_arities : forall sig table r vampire_flag defined preprocess anc scmp mfuel fuel w no_bitstring legacy skolem n split le ds axs,
  whole_file sig table r vampire_flag defined preprocess anc scmp mfuel fuel w no_bitstring legacy skolem n split le = Some (ds, axs) ->
  counts_whole sig table w -> answers_cells anc (wp_cells w) -> (forall i, split <= i -> ~ In (Fuser i) (gp_funs (wp_gen w))) ->
  forall a, In a axs -> counts_axiom sig (gp_funs (wp_gen w)) a.
Proof.
  intros sig table r vf defined pre anc scmp mfuel fuel w nb legacy skolem n split le ds axs H HS Hans Hfr a Ha.
  pose proof (whole_counts _ _ _ _ _ _ _ _ _ _ _ HS Hans _ _ _ _ _ _ _ _ Hfr H) as F. rewrite Forall_forall in F. exact (F a Ha).
Qed.
Print Assumptions C108_arities.

(** How an axiom is handed to the printer. *)
Inductive handed : eaxiom -> Smt_Model.axm -> Prop :=
| ha_base f : handed (ABase f) (Smt_Model.XBase f)
| ha_theory f : handed (ABase f) (Smt_Model.XTheory f)
| ha_query f : handed (ABase f) (Smt_Model.XQuery f)
| ha_rewrite fn vs l t : handed (ARewrite vs l t) (Smt_Model.XRewrite fn vs l t).
Lemma counts_arities sig funs f : counts sig funs f -> Smt_Spec.arities f.
Proof.
  induction f as [v|s args IH|q vs b IH] using formula_ind'; intros H; constructor.
  - pose proof (H [] s args (at_here _)) as T. destruct s as [| |c| | | |c| | | | | | | | | | | | |]; try exact I; try exact T; destruct c; try exact I; exact T.
  - apply Forall_forall. intros a Ha. rewrite Forall_forall in IH. apply IH; [exact Ha|]. apply In_nth_error in Ha as (k & Hk). intros p g l Hp. eapply H. econstructor; eassumption.
  - apply IH. intros p g l Hp. eapply H. constructor. exact Hp.
Qed.
(** The printer accepts all of them: a file is written for every generated problem. *)
Theorem C108_printed : forall sig table r vampire_flag defined preprocess anc scmp mfuel fuel w no_bitstring legacy skolem n split le ds axs xs kind o,
  whole_file sig table r vampire_flag defined preprocess anc scmp mfuel fuel w no_bitstring legacy skolem n split le = Some (ds, axs) ->
  counts_whole sig table w -> answers_cells anc (wp_cells w) -> (forall i, split <= i -> ~ In (Fuser i) (gp_funs (wp_gen w))) ->
  Forall2 handed axs xs -> exists file, Smt_Model.file_of kind o xs = Some file.
Proof.
  intros sig table r vf defined pre anc scmp mfuel fuel w nb legacy skolem n split le ds axs xs kind o H HS Hans Hfr HX.
  pose proof (C108_arities _ _ _ _ _ _ _ _ _ _ _ _ _ _ _ _ _ _ _ H HS Hans Hfr) as F. apply Forall_forall in F.
  assert (HA : Forall Smt_Spec.axiom_arities xs).
  { clear -F HX. induction HX as [|a x axs xs Hx HX IH]; constructor; inversion F; subst; auto. destruct Hx; cbn in *; try (eapply counts_arities; eassumption).
    match goal with K : _ /\ _ |- _ => destruct K end. split; eapply counts_arities; eassumption. }
  destruct (Smt_Proofs.file_meaning kind o xs HA) as (cs & E & _). eexists. exact E.
Qed.
Print Assumptions C108_printed.

(** ** Examples *)
Definition numberb (sig : fsym -> option (list sort * sort)) (s : fsym) (n : nat) : bool := match sig s with Some (ins, _) => Nat.eqb n (length ins) | None => true end.
Definition takesb (sig : fsym -> option (list sort * sort)) (funs : list fsym) (s : fsym) (n : nat) : bool :=
  match s with
  | Fb CAnd | Fb COr | Fta TAnd | Fta TOr | Fskolem _ | Ftmp _ => true
  | Fb CTrue | Fb CFalse | Fta TTrue | Fta TFalse => Nat.eqb n 0
  | Fb CNot | Fta TNot | Fhappens | Fpred | Feval _ | Fcast _ | Fmacro _ => Nat.eqb n 1
  | Fb CImplies | Fb CEq | Fta TImplies | Fta TIff | Fta TEq | Flt | Fgt | Fleq | Fsubterm _ => Nat.eqb n 2
  | Fite | Fta TIte => Nat.eqb n 3
  | Fstep _ | Fcell _ | Fname _ | Fquant _ => numberb sig s n
  | Fuser _ => if existsb (fsym_eqb s) funs then numberb sig s n else Nat.eqb n 1
  | Fuser_eval i => numberb sig (Fuser i) n
  end.
Lemma numberb_spec sig funs s n : numberb sig s n = true -> declares_number sig funs s n.
Proof. unfold numberb. intros H _ ins out E. rewrite E in H. apply Nat.eqb_eq in H. exact H. Qed.
Lemma takesb_spec sig funs s n : takesb sig funs s n = true -> takes sig funs s n.
Proof.
  destruct s as [| |c| | | |c| | | | | | | | | | | | |]; cbn [takesb takes]; try (intros; exact I); try apply Nat.eqb_eq; try apply numberb_spec; try (destruct c; try (intros; exact I); apply Nat.eqb_eq).
  destruct (existsb _ funs) eqn:E; intros H.
  - split; [apply numberb_spec; exact H|]. intros N. apply existsb_exists in E as (g & Hg & E). apply fsym_eqb_eq in E. subst g. contradiction.
  - apply Nat.eqb_eq in H. split; [|auto]. intros Hin. assert (existsb (fsym_eqb (Fuser i)) funs = true); [|congruence]. apply existsb_exists. exists (Fuser i). split; [exact Hin|]. apply fsym_eqb_eq. reflexivity.
Qed.
Definition countsb sig funs (f : formula) : bool := forallb (fun g => match g with FFun s args => takesb sig funs s (length args) | _ => true end) (parts f).
Lemma countsb_spec sig funs f : countsb sig funs f = true -> counts sig funs f.
Proof. intros H p s args Hp. apply parts_spec in Hp. unfold countsb in H. rewrite forallb_forall in H. apply takesb_spec. exact (H _ Hp). Qed.

Lemma w96_counts covered : counts_whole (w_sig96 covered) (fun _ => None) (w_whole96 covered).
Proof.
  assert (HF : forallb (fun f => match w_sig96 covered f with Some (ins, _) => takesb (w_sig96 covered) (gp_funs (w_gen96 covered)) f (length ins) | None => true end) (gp_funs (w_gen96 covered)) = true)
    by (destruct covered; vm_compute; reflexivity).
  split.
  - intros f ins out Hf E. rewrite forallb_forall in HF. specialize (HF f Hf). rewrite E in HF. apply takesb_spec. exact HF.
  - intros s Hs. apply numberb_spec. cbn in Hs. members; subst; destruct covered; reflexivity.
  - intros c a Hc Ha. cbn in Hc. members; subst. cbn in Ha. members; subst. right. left. reflexivity.
  - intros c Hc. apply numberb_spec. cbn in Hc. members; subst; destruct covered; reflexivity.
  - intros k q E. discriminate.
  - intros o f [].
  - intros c a t Hc Ha Ht. apply countsb_spec. cbn in Hc. members; subst. cbn in Ha. members; subst. cbn in Ht. members; subst; destruct covered; reflexivity.
  - intros g Hg. apply countsb_spec. inversion Hg as [g' Hi E|E|g' Hi E|g' Hi E|s Hi E|s Hi E|c a Hc Ha E]; subst; cbn in *; members; subst; try (destruct covered; vm_compute; reflexivity); cbn in Ha; members; subst; destruct covered; vm_compute; reflexivity.
  - intros a Ha. cbn [w_whole96 wp_assumptions w_whole] in Ha. members; subst; try exact I; repeat split; try (apply numberb_spec; destruct covered; reflexivity); intros N; destruct N; destruct covered; cbn; tauto.
Qed.
Lemma w96_split covered : forall i, 100 <= i -> ~ In (Fuser i) (gp_funs (wp_gen (w_whole96 covered))).
Proof. intros i Hi H. cbn in H. members; try discriminate; injection H as <-; lia. Qed.
(** The hypotheses are met by the file of 251 axioms of C96, and by that of 74 in the evaluated realm; the splitting predicates are in use. *)
Example C108_example : exists ds axs ds' axs',
  w_file96 true RSymbolic = Some (ds, axs) /\ w_file96 true REvaluated = Some (ds', axs') /\ length axs = 251 /\ length axs' = 74 /\
  existsb (fun a => match a with ABase g => existsb (fsym_eqb (Fuser 101)) (fst (term_parts g)) | _ => false end) axs = true /\
  counts_whole (w_sig96 true) (fun _ => None) (w_whole96 true) /\ answers_cells w_anc (wp_cells (w_whole96 true)) /\ (forall i, 100 <= i -> ~ In (Fuser i) (gp_funs (wp_gen (w_whole96 true)))).
Proof.
  do 4 eexists. split; [vm_compute; reflexivity|]. split; [vm_compute; reflexivity|]. split; [reflexivity|]. split; [reflexivity|]. split; [vm_compute; reflexivity|].
  split; [apply w96_counts|]. split; [exact w_answers|apply w96_split].
Qed.

(** The hypothesis on assumptions is needed: with a [fail] that takes an argument, the axioms of int-ctxt apply it to none. *)
Definition w_misnamed : whole_problem := mkWhole (w_gen96 true) [w_cell] [ACtxt 3 4 5] [] [].
Theorem C108_fail_needed : exists ds axs f p,
  whole_file (w_sig96 true) (fun _ => None) RSymbolic false true true w_anc w_scmp 50 300 w_misnamed false false 0 0 100 File_Props.ex_le = Some (ds, axs) /\
  In (ABase f) axs /\ at_path f p (FFun (Fuser 5) []) /\ In (Fuser 5) (gp_funs (w_gen96 true)) /\ w_sig96 true (Fuser 5) = Some ([SMessage], SMessage).
Proof.
  assert (HE : match whole_file (w_sig96 true) (fun _ => None) RSymbolic false true true w_anc w_scmp 50 300 w_misnamed false false 0 0 100 File_Props.ex_le with
               | Some (_, axs) => existsb (fun a => match a with ABase f => existsb (fun g => match g with FFun (Fuser 5) [] => true | _ => false end) (parts f) | _ => false end) axs | None => false end = true) by (vm_compute; reflexivity).
  destruct (whole_file _ _ _ _ _ _ _ _ _ _ _ _ _ _ _ _ _) as [[ds axs]|]; [|discriminate]. apply existsb_exists in HE as (a & Ha & E). destruct a as [f|]; [|discriminate].
  apply existsb_exists in E as (g & Hg & E). destruct g as [|s args|]; try discriminate. destruct s; try discriminate. do 6 (destruct i as [|i]; try discriminate). destruct args; [|discriminate].
  assert (HP : forall f g, In g (parts f) -> exists p, at_path f p g).
  { clear. induction f as [v|s args IH|q vs b IH] using formula_ind'; intros g [<-|H]; try (exists []; constructor); try destruct H.
    - apply in_flat_map in H as (a & Ha & H). rewrite Forall_forall in IH. destruct (IH a Ha g H) as (p & Hp). apply In_nth_error in Ha as (k & Hk). exists (k :: p). econstructor; eassumption.
    - destruct (IH g H) as (p & Hp). exists (0 :: p). constructor. exact Hp. }
  destruct (HP f _ Hg) as (p & Hp). exists ds, axs, f, p. split; [reflexivity|]. split; [exact Ha|]. split; [exact Hp|]. split; [cbn; tauto|reflexivity].
Qed.
Print Assumptions C108_fail_needed.
