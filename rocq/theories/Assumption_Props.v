(** C92 and C93 for the whole file: with the axioms and declarations of the cryptographic assumptions. *)
From Coq Require Import List Arith Bool Lia Permutation.
From Verif Require Import Syntax_Model Syntax_Proofs Semantics_Spec Sort_Model Order_Model Macro_Model Graph_Model Evaluate_Model Problem_Model Problem_Spec File_Model File_Spec File_Proofs
  Expander_Props Assumption_Model Assumption_Spec Assumption_Proofs.
From Verif Require File_Props.
From Verif Require Parser_Model.
Import ListNotations.

(** What every command line runs has [defined = true]. In the symbolic realm with the default treatment of bitstrings, every symbol of every axiom,
    those of the assumptions included, is one of the solver or declared. *)
Theorem C92_whole_symbolic_partial : forall sig table vampire_flag preprocess anc scmp mfuel fuel w legacy skolem n split le ds axs,
  whole_file sig table RSymbolic vampire_flag true preprocess anc scmp mfuel fuel w false legacy skolem n split le = Some (ds, axs) ->
  closed_whole sig table w -> answers_cells anc (wp_cells w) ->
  forall a f, In a axs -> axiom_uses f a -> logical f \/ declared ds f.
Proof.
  intros sig table vf pre anc scmp mfuel fuel w legacy skolem n split le ds axs HW HC Hans a f Ha Hf.
  destruct (whole_parts _ _ _ _ _ _ _ _ _ _ _ _ _ _ _ _ _ _ _ HW) as (ds0 & a12 & a3 & o & HG & HO & HP & -> & _).
  pose proof (asserts_readable _ _ _ _ _ _ _ _ _ _ _ (fun _ => True) HG (cw_gen _ _ _ HC) (fun _ _ => I) eq_refl eq_refl) as H. rewrite Forall_forall in H.
  assert (H0 : In a (a12 ++ a3) -> logical f \/ declared ds f).
  { intros Hi. destruct (proj1 (H a Hi) f Hf) as [Hl|Hd]; [left; exact Hl|right]. apply (declared_whole ds ds0 o); [exact HP|left; exact Hd]. }
  apply in_app_or in Ha as [Ha|Ha]; [apply H0; apply in_or_app; left; exact Ha|]. apply in_app_or in Ha as [Ha|Ha]; [|apply H0; apply in_or_app; right; exact Ha].
  pose proof (crypto_readable _ _ _ _ _ _ _ _ _ _ _ _ _ _ _ _ _ _ HC (fun _ => True) (fun _ _ => I) eq_refl Hans _ _ _ _ HG HO HP) as Hc. rewrite Forall_forall in Hc.
  exact (proj1 (Hc a Ha) f Hf).
Qed.
Print Assumptions C92_whole_symbolic_partial.

(** With any options a symbol without declaration is the evaluated function of a function of the problem, and only the assertions and the query, which come last, have one. *)
Theorem C92_whole_partial : forall sig table r vampire_flag preprocess anc scmp mfuel fuel w no_bitstring legacy skolem n split le ds axs,
  whole_file sig table r vampire_flag true preprocess anc scmp mfuel fuel w no_bitstring legacy skolem n split le = Some (ds, axs) ->
  closed_whole sig table w -> answers_cells anc (wp_cells w) ->
  exists theories own, axs = theories ++ own /\ length own = S (length (gp_asserts (wp_gen w))) /\
    (forall a f, In a theories -> axiom_uses f a -> logical f \/ declared ds f) /\
    (forall a f, In a own -> axiom_uses f a -> logical f \/ declared ds f \/ exists i, f = Fuser_eval i /\ In (Fuser i) (gp_funs (wp_gen w))).
Proof.
  intros sig table r vf pre anc scmp mfuel fuel w nb legacy skolem n split le ds axs HW HC Hans.
  destruct (whole_parts _ _ _ _ _ _ _ _ _ _ _ _ _ _ _ _ _ _ _ HW) as (ds0 & a12 & a3 & o & HG & HO & HP & -> & HL).
  exists (a12 ++ map ABase (o_axioms o)), a3. split; [apply app_assoc|]. split; [exact HL|]. split.
  - intros a f Ha Hf. apply in_app_or in Ha as [Ha|Ha].
    + destruct (parts _ _ _ _ _ _ _ _ _ _ _ HG) as (d1 & d2 & b1 & b2 & b3 & P1 & P2 & P3 & P4 & P5 & P6 & P7).
      assert (HA : a12 = b1 ++ b2).
      { rewrite app_assoc in P7. assert (HL' : length a3 = length (map ABase b3)).
        { rewrite map_length, HL. symmetry. clear -P5. assert (HM : forall A B (g : A -> option B) l l', Subst_Model.mapM g l = Some l' -> length l' = length l).
          { induction l as [|x l IH]; intros l' H; cbn in H; [injection H as <-; reflexivity|]. destruct (g x); [|discriminate]. destruct (Subst_Model.mapM g l) eqn:E; [|discriminate]. injection H as <-. cbn. f_equal. apply IH. reflexivity. }
          apply HM in P5. rewrite P5, app_length. cbn. lia. }
        clear -P7 HL'. revert a12 P7. generalize (b1 ++ b2) as c. induction c as [|y c IH]; intros [|x l] E; cbn in E.
        - reflexivity.
        - apply (f_equal (@length eaxiom)) in E. cbn in E. rewrite app_length in E. lia.
        - apply (f_equal (@length eaxiom)) in E. cbn in E. rewrite app_length in E. lia.
        - injection E as -> E. f_equal. apply IH. exact E. }
      pose proof (generated_readable _ _ _ _ _ _ _ _ _ _ _ (fun _ => True) HG (cw_gen _ _ _ HC) (fun _ _ => I) _ _ P3 P4) as H. rewrite Forall_forall in H. rewrite HA in Ha.
      destruct (proj1 (H a Ha) f Hf) as [Hl|Hd]; [left; exact Hl|right]. apply (declared_whole ds ds0 o); [exact HP|left; exact Hd].
    + pose proof (crypto_readable _ _ _ _ _ _ _ _ _ _ _ _ _ _ _ _ _ _ HC (fun _ => True) (fun _ _ => I) eq_refl Hans _ _ _ _ HG HO HP) as Hc. rewrite Forall_forall in Hc.
      exact (proj1 (Hc a Ha) f Hf).
  - intros a f Ha Hf. pose proof (asserts_nearly _ _ _ _ _ _ _ _ _ _ _ (fun _ => True) HG (cw_gen _ _ _ HC) (fun _ _ => I)) as H. rewrite Forall_forall in H.
    destruct (proj1 (H a (in_or_app _ _ _ (or_intror Ha))) f Hf) as [[Hl|Hd]|He]; [left; exact Hl| |right; right; exact He].
    right. left. apply (declared_whole ds ds0 o); [exact HP|left; exact Hd].
Qed.
Print Assumptions C92_whole_partial.

(** No symbol is declared twice, the subterm relations and the splitting predicates included. *)
Theorem C92_whole_once : forall sig table r vampire_flag defined preprocess anc scmp mfuel fuel w no_bitstring legacy skolem n split le ds axs,
  whole_file sig table r vampire_flag defined preprocess anc scmp mfuel fuel w no_bitstring legacy skolem n split le = Some (ds, axs) ->
  listed_once sig (wp_gen w) -> fresh_symbols w n split -> NoDup (flat_map declares ds).
Proof.
  intros sig table r vf df pre anc scmp mfuel fuel w nb legacy skolem n split le ds axs HW HL HF.
  destruct (whole_parts _ _ _ _ _ _ _ _ _ _ _ _ _ _ _ _ _ _ _ HW) as (ds0 & a12 & a3 & o & HG & HO & HP & -> & _).
  eapply Permutation_NoDup; [symmetry; apply Permutation_flat_map; exact HP|]. rewrite flat_map_app. apply NoDup_app_intro.
  - eapply functions_once; eassumption.
  - exact (proj1 (proj2 (proj2 (numbered_assumptions _ _ _ _ _ _ _ _ _ _ _ _ _ _ _ HO)))).
  - intros g Hg Hg'. destruct (parts _ _ _ _ _ _ _ _ _ _ _ HG) as (d1 & d2 & b1 & b2 & b3 & P1 & P2 & _ & _ & _ & P6 & _).
    assert (HK : forall f, g = GF f -> (forall s, f <> Feval s) -> (forall i, f <> Fuser_eval i) -> (forall i, f <> Fskolem i) -> logical f \/ In f (gp_funs (wp_gen w))).
    { intros f -> N1 N2 N3. eapply declared_fun; try eassumption. right. apply declared_in. exact Hg. }
    pose proof (numbered_assumptions _ _ _ _ _ _ _ _ _ _ _ _ _ _ _ HO) as (_ & _ & _ & HN).
    destruct (HN g Hg') as [(i & -> & Hi)|(i & -> & Hi)]; (destruct (HK _ eq_refl) as [Hl|Hin]; [discriminate|discriminate|discriminate|inversion Hl|]).
    + exact (fr_subterm _ _ _ HF i (proj1 Hi) Hin).
    + exact (fr_split _ _ _ HF i (proj1 Hi) Hin).
Qed.
Print Assumptions C92_whole_once.

(** The functions that a declared subterm relation commutes with are declared. *)
Theorem C92_commuting : forall sig table r vampire_flag defined preprocess anc scmp mfuel fuel w no_bitstring legacy skolem n split le ds axs,
  whole_file sig table r vampire_flag defined preprocess anc scmp mfuel fuel w no_bitstring legacy skolem n split le = Some (ds, axs) ->
  forall f c g, In (Problem_Model.DSubterm f c) ds -> In g c -> exists h, g = GF h /\ (logical h \/ declared ds h).
Proof.
  intros sig table r vf df pre anc scmp mfuel fuel w nb legacy skolem n split le ds axs HW f c g Hd Hg.
  destruct (whole_parts _ _ _ _ _ _ _ _ _ _ _ _ _ _ _ _ _ _ _ HW) as (ds0 & a12 & a3 & o & HG & HO & HP & -> & _).
  assert (H : Forall (tame w) (o_decls o)) by (eapply assumptions_tame; exact HO). rewrite Forall_forall in H.
  assert (Hr : forall h, In h (gp_funs (wp_gen w)) -> logical h \/ declared ds h).
  { intros h Hh. eapply in_readable; [exact HP|]. destruct (parts _ _ _ _ _ _ _ _ _ _ _ HG) as (d1 & d2 & b1 & b2 & b3 & P1 & P2 & _ & _ & _ & P6 & _).
    eapply readable_known; [exact HG|exact P1|exact P2|exact P6|]. right. left. exact Hh. }
  assert (Hd' : In (Problem_Model.DSubterm f c) (o_decls o)).
  { apply (Permutation_in _ HP) in Hd. apply in_app_or in Hd as [Hd|Hd]; [|exact Hd]. exfalso. eapply no_subterm_declared; eassumption. }
  destruct (H _ Hd' g Hg) as (h & -> & Hh). exists h. split; [reflexivity|]. apply Hr. exact Hh.
Qed.
Print Assumptions C92_commuting.

(** Every sort of a bound variable is that of the solver or declared. *)
Theorem C93_whole_partial : forall sig table r vampire_flag preprocess anc scmp mfuel fuel w no_bitstring legacy skolem n split le ds axs,
  whole_file sig table r vampire_flag true preprocess anc scmp mfuel fuel w no_bitstring legacy skolem n split le = Some (ds, axs) ->
  closed_whole sig table w -> answers_cells anc (wp_cells w) -> constructed sig (wp_gen w) ->
  forall a s, In a axs -> axiom_quantifies s a -> declared_sort ds s.
Proof.
  intros sig table r vf pre anc scmp mfuel fuel w nb legacy skolem n split le ds axs HW HC Hans HS a s Ha Hs.
  destruct (whole_parts _ _ _ _ _ _ _ _ _ _ _ _ _ _ _ _ _ _ _ HW) as (ds0 & a12 & a3 & o & HG & HO & HP & -> & _).
  assert (HD : forall s, In s (gp_sorts (wp_gen w)) -> declared_sort ds s).
  { intros t Ht. destruct (sorts_declared _ _ _ _ _ _ _ _ _ _ _ HG (cw_gen _ _ _ HC) HS t Ht) as [E|(d & Hd & E)]; [left; exact E|right]. exists d. split; [|exact E].
    apply (Permutation_in _ (Permutation_sym HP)). apply in_or_app. left. exact Hd. }
  pose proof (asserts_nearly _ _ _ _ _ _ _ _ _ _ _ (declared_sort ds) HG (cw_gen _ _ _ HC) HD) as H. rewrite Forall_forall in H.
  apply in_app_or in Ha as [Ha|Ha]; [exact (proj2 (H a (in_or_app _ _ _ (or_introl Ha))) s Hs)|]. apply in_app_or in Ha as [Ha|Ha]; [|exact (proj2 (H a (in_or_app _ _ _ (or_intror Ha))) s Hs)].
  pose proof (crypto_readable _ _ _ _ _ _ _ _ _ _ _ _ _ _ _ _ _ _ HC (declared_sort ds) HD eq_refl Hans _ _ _ _ HG HO HP) as Hc. rewrite Forall_forall in Hc.
  exact (proj2 (Hc a Ha) s Hs).
Qed.
Print Assumptions C93_whole_partial.

(** No sort is declared twice. *)
Theorem C93_whole_once : forall sig table r vampire_flag defined preprocess anc scmp mfuel fuel w no_bitstring legacy skolem n split le ds axs,
  whole_file sig table r vampire_flag defined preprocess anc scmp mfuel fuel w no_bitstring legacy skolem n split le = Some (ds, axs) ->
  listed_once sig (wp_gen w) -> NoDup (flat_map declares_sort ds).
Proof.
  intros sig table r vf df pre anc scmp mfuel fuel w nb legacy skolem n split le ds axs HW HL.
  destruct (whole_parts _ _ _ _ _ _ _ _ _ _ _ _ _ _ _ _ _ _ _ HW) as (ds0 & a12 & a3 & o & HG & HO & HP & -> & _).
  eapply Permutation_NoDup; [symmetry; apply Permutation_flat_map; exact HP|]. rewrite flat_map_app.
  assert (H : Forall (tame w) (o_decls o)) by (eapply assumptions_tame; exact HO).
  assert (E : flat_map declares_sort (o_decls o) = []).
  { clear -H. induction H as [|d l Hd Hl IH]; [reflexivity|]. cbn. rewrite IH. destruct d; cbn in Hd; try contradiction; reflexivity. }
  rewrite E, app_nil_r. eapply sorts_once; eassumption.
Qed.
Print Assumptions C93_whole_once.

(** ** A problem *)
Definition i0 : var := mkVar 0 (SIndex 0).
Definition m0 : var := mkVar 0 SMessage.
Definition w_sig (f : fsym) : option (list sort * sort) :=
  match f with
  | Fuser 0 => Some ([], SMessage)
  | Fuser 1 => Some ([SMessage; SMessage], SMessage)
  | Fuser 2 => Some ([SMessage; SMessage; SMessage], SCondition)
  | Fuser 3 => Some ([SMessage; SMessage; SMessage], SMessage)
  | Fuser 4 => Some ([SMessage; SMessage], SMessage)
  | Fuser 5 => Some ([SMessage], SMessage)
  | Fta TTrue | Fta TFalse => Some ([], SCondition)
  | Fta TNot => Some ([SCondition], SCondition)
  | Fta TIte => Some ([SCondition; SMessage; SMessage], SMessage)
  | Fta TEq => Some ([SMessage; SMessage], SCondition)
  | Fta _ => Some ([SCondition; SCondition], SCondition)
  | Fmacro MInput | Fmacro MMessage => Some ([SStep], SMessage)
  | Fmacro _ => Some ([SStep], SCondition)
  | Fcell _ => Some ([SIndex 0; SStep], SMessage)
  | Fcast _ => Some ([SName], SMessage)
  | Fname _ => Some ([SIndex 0], SName)
  | Fstep 0 => Some ([], SStep)
  | Fstep _ => Some ([SIndex 0], SStep)
  | Fpred => Some ([SStep], SStep)
  | Feval s => Some ([s], evaluated_sort s)
  | Fsubterm _ => Some ([], SBool)
  | Fhappens => Some ([SStep], SBool)
  | Flt | Fgt | Fleq => Some ([SStep; SStep], SBool)
  | _ => None
  end.
Definition nonce_of (i : nat) : formula := FFun (Fcast SMessage) [FFun (Fname i) [FVar i0]].
Definition w_step : formula := FFun (Fstep 1) [FVar i0].
Definition w_input : formula := FFun (Fmacro MInput) [w_step].
(** A step that outputs the tag of a nonce when its input is a valid tag of the content of a cell, the cell, and the assumptions. *)
Definition w_out : formula := FFun (Fuser 1) [nonce_of 1; nonce_of 0].
Definition w_cond : formula := FFun (Fuser 2) [w_input; nonce_of 1; nonce_of 0].
Definition w_secret : formula := FFun (Fuser 3) [nonce_of 1; nonce_of 2; nonce_of 3].
Definition w_init : pstep := mkPStep 0 [] (FFun (Fta TTrue) []) (FFun (Fuser 0) []).
Definition w_auth : pstep := mkPStep 1 [i0] w_cond w_out.
Definition w_cell : mcell := mkCell 0 [SIndex 0] [mkAsg w_auth [FVar i0] (nonce_of 2) []].
Definition w_gen : gen_problem :=
  mkGen (BUILT_IN_SORTS ++ [SIndex 0])
    (BUILT_IN_FUNCTIONS ++ [Fuser 1; Fuser 2; Fuser 3; Fuser 4; Fuser 5; Fname 0; Fname 1; Fname 2; Fname 3; Fcell 0; Fstep 0; Fstep 1]) [SMessage; SCondition]
    [w_init; w_auth] []
    [FQ QForall [m0] (FFun (Fb CEq) [FFun (Feval SMessage) [FFun (Fuser 5) [FVar m0]]; FFun (Feval SMessage) [FVar m0]])]
    (FQ QForall [i0] (FFun (Fb CImplies) [FFun Fhappens [w_step]; FFun (Feval SCondition) [FFun (Fuser 2) [w_input; FFun (Fuser 4) [w_secret; nonce_of 3]; nonce_of 0]]])).
Definition w_whole : whole_problem := mkWhole w_gen [w_cell] [AUnfolding true true; ANonce; ACell; AUf 1 2 false; AEuf 1 2 5; ACtxt 3 4 0] [] [].
Definition w_anc (_ : mref) : option ancestors := Some (mkAnc true [w_cell]).
Definition w_scmp (a b : sort) : comparison := Nat.compare (code a) (code b).
Definition w_file (r : realm) (vampire : bool) := whole_file w_sig (fun _ => None) r vampire true true w_anc w_scmp 50 200 w_whole false false 0 0 100 File_Props.ex_le.

Ltac members := repeat match goal with
  | H : _ \/ _ |- _ => destruct H as [H|H]
  | H : In _ (_ :: _) |- _ => destruct H as [H|H]
  | H : In _ [] |- _ => destruct H
  | H : False |- _ => destruct H
  end.
(** The symbols, sorts and variables of a term, computed. *)
Fixpoint term_parts (f : formula) : list fsym * list sort :=
  match f with
  | FVar v => ([], [vsort v])
  | FFun s args => (s :: flat_map (fun a => fst (term_parts a)) args, flat_map (fun a => snd (term_parts a)) args)
  | FQ _ vs b => (fst (term_parts b), map vsort vs ++ snd (term_parts b))
  end.
Lemma term_parts_spec f : (forall s, uses s f -> In s (fst (term_parts f))) /\ (forall s, quantifies s f -> In s (snd (term_parts f))) /\ (forall v, occurs v f -> In (vsort v) (snd (term_parts f))).
Proof.
  induction f as [v|s args IH|q vs b IH] using formula_ind'; cbn [term_parts fst snd].
  - split; [intros s H; inversion H|split; [intros s H; inversion H|]]. intros w (p & Hp). inversion Hp; subst. left. reflexivity.
  - rewrite Forall_forall in IH. split; [|split].
    + intros g H. inversion H; subst; [left; reflexivity|]. right. apply in_flat_map. exists a. split; [assumption|]. apply IH; assumption.
    + intros g H. inversion H; subst. apply in_flat_map. exists a. split; [assumption|]. apply IH; assumption.
    + intros v (p & Hp). inversion Hp; subst. apply in_flat_map. exists a. assert (Ha : In a args) by (eapply nth_error_In; eassumption). split; [exact Ha|]. apply IH; [exact Ha|]. eexists. eassumption.
  - destruct IH as (I1 & I2 & I3). split; [|split].
    + intros g H. inversion H; subst. auto.
    + intros g H. inversion H; subst; apply in_or_app; [left; apply in_map; assumption|right; auto].
    + intros v (p & Hp). inversion Hp; subst. apply in_or_app. right. apply I3. eexists. eassumption.
Qed.
Definition knownb (f : fsym) : bool :=
  match f with Fb _ | Fite => true | Feval SMessage | Feval SCondition => true | _ => existsb (fsym_eqb f) (gp_funs w_gen) end.
Lemma knownb_known f : knownb f = true -> known w_gen f.
Proof.
  intros H. assert (HE : existsb (fsym_eqb f) (gp_funs w_gen) = true -> known w_gen f).
  { intros E. apply existsb_exists in E as (g & Hg & E). apply fsym_eqb_eq in E. subst g. right. left. exact Hg. }
  destruct f; try (apply HE; exact H); try (left; constructor). right. right. exists s. split; [reflexivity|]. destruct s; try (cbn in H; discriminate); cbn; tauto.
Qed.
Definition term_ok (f : formula) : bool := forallb knownb (fst (term_parts f)) && forallb (fun s => existsb (sort_eqb s) (gp_sorts w_gen)) (snd (term_parts f)).
Lemma term_ok_spec f : term_ok f = true -> within_known w_gen f /\ forall v, occurs v f -> In (vsort v) (gp_sorts w_gen).
Proof.
  unfold term_ok. intros H. apply andb_true_iff in H as [H1 H2]. rewrite forallb_forall in H1, H2. destruct (term_parts_spec f) as (S1 & S2 & S3).
  assert (HS : forall s, In s (snd (term_parts f)) -> In s (gp_sorts w_gen)).
  { intros s Hs. specialize (H2 s Hs). apply existsb_exists in H2 as (t & Ht & E). apply sort_eqb_eq in E. subst t. exact Ht. }
  split; [split|]; [intros g Hg; apply knownb_known; apply H1; auto|intros s Hs; auto|intros v Hv; auto].
Qed.
Lemma w_terms g : problem_term w_whole g -> term_ok g = true.
Proof. intros H. inversion H as [g' Hi E|E|g' Hi E|g' Hi E|s Hi E|s Hi E|c a Hc Ha E]; subst; cbn in *; members; subst; try reflexivity; cbn in Ha; members; subst; reflexivity. Qed.
Lemma w_closed_gen : closed_problem w_sig (fun _ => None) w_gen.
Proof.
  split.
  - intros f Hf. apply in_or_app. left. exact Hf.
  - intros f Hf. apply in_or_app. left. exact Hf.
  - intros s Hs. cbn in Hs. members; subst; cbn; tauto.
  - intros s Hs. cbn in Hs. members; subst; cbn; [split; [tauto|intros v []]|split; [tauto|]]. intros v [<-|[]]; cbn; tauto.
  - intros o [].
  - intros g Hg. apply term_ok_spec. cbn in Hg. members; subst; reflexivity.
  - intros k q Hk Hq. discriminate.
  - intros i Hi. cbn in Hi. members; try discriminate; injection Hi as <-; discriminate.
  - intros f args out s Hf Hsig Hs. cbn in Hf. members; subst; try discriminate Hsig; cbn in Hsig; injection Hsig as <- <-; members; subst; cbn; tauto.
Qed.
Lemma w_closed : closed_whole w_sig (fun _ => None) w_whole.
Proof.
  split.
  - exact w_closed_gen.
  - split; cbn; tauto.
  - intros a f Ha Hf. cbn in Ha. members; subst; cbn in Hf; members; subst; cbn; tauto.
  - intros g Hg. apply term_ok_spec. apply w_terms. exact Hg.
  - intros g v Hg Hv. apply w_terms in Hg. apply term_ok_spec in Hg as [_ Hg]. exact (Hg v Hv).
  - intros c Hc. cbn in Hc. members; subst. split; [cbn; tauto|]. intros s Hs. cbn in Hs. members; subst. cbn. tauto.
  - intros c a Hc Ha. cbn in Hc. members; subst. cbn in Ha. members; subst. split; [cbn; tauto|]. split; [intros v Hv; cbn in Hv; members; subst; cbn; tauto|].
    intros g Hg. cbn in Hg. members; subst. apply term_ok_spec. reflexivity.
Qed.
Lemma w_answers : answers_cells w_anc (wp_cells w_whole).
Proof. intros x a ce [= <-] H. exact H. Qed.
Lemma w_constructed : constructed w_sig (wp_gen w_whole).
Proof.
  split; [exists 0, [SIndex 0]; split; [cbn; tauto|reflexivity]|reflexivity|reflexivity| |]; intros i Hi; cbn in Hi; members; discriminate.
Qed.
Lemma w_once : listed_once w_sig (wp_gen w_whole).
Proof.
  split; cbn [gp_funs gp_evs gp_sorts w_gen w_whole wp_gen].
  - cbn. repeat (constructor; [cbn; intuition discriminate|]). constructor.
  - repeat (constructor; [cbn; intuition discriminate|]). constructor.
  - cbn. repeat (constructor; [cbn; intuition discriminate|]). constructor.
  - intros f Hf. cbn in Hf. members; subst; exact I.
  - intros f args s Hf Hsig. cbn in Hf. members; subst; try discriminate Hsig; cbn in Hsig; try injection Hsig as <- <-; eauto.
Qed.
Lemma w_fresh : fresh_symbols w_whole 0 100.
Proof. split; intros i Hi H; cbn in H; members; try discriminate; injection H as <-; lia. Qed.

(** The hypotheses are met, in both realms and with both kinds of relations; the relations and the splitting predicates are declared and in use. *)
Example C92_whole_example : exists ds axs ds' axs' ds'' axs'',
  w_file RSymbolic true = Some (ds, axs) /\ w_file RSymbolic false = Some (ds', axs') /\ w_file REvaluated false = Some (ds'', axs'') /\
  length axs = 102 /\ length axs' = 245 /\ length axs'' = 68 /\
  declared ds (Fsubterm 1) /\ declared ds (Fuser 100) /\ declared ds (Fuser 101) /\ declared ds' (Fsubterm 55) /\ declared ds'' (Fsubterm 0) /\ ~ declared ds'' (Fuser 100) /\
  existsb (fun a => match a with ABase g => existsb (fsym_eqb (Fuser 101)) (fst (term_parts g)) | _ => false end) axs = true /\ closed_whole w_sig (fun _ => None) w_whole /\ answers_cells w_anc (wp_cells w_whole) /\
  constructed w_sig (wp_gen w_whole) /\ listed_once w_sig (wp_gen w_whole) /\ fresh_symbols w_whole 0 100.
Proof.
  do 6 eexists. split; [vm_compute; reflexivity|]. split; [vm_compute; reflexivity|]. split; [vm_compute; reflexivity|].
  split; [reflexivity|]. split; [reflexivity|]. split; [reflexivity|].
  do 5 (split; [rewrite declared_in; vm_compute; tauto|]). split; [rewrite declared_in; vm_compute; intuition discriminate|].
  split; [vm_compute; reflexivity|split; [exact w_closed|split; [exact w_answers|split; [exact w_constructed|split; [exact w_once|exact w_fresh]]]]].
Qed.
