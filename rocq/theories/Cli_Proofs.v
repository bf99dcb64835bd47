(** Proofs about the options of the command line. *)
From Coq Require Import List Arith NArith Bool Lia.
From Verif Require Import Syntax_Model Smt_Model Problem_Model Problem_Spec Problem_Proofs Cli_Model Cli_Spec.
From Verif Require Runner_Model Problem_Props.
Import ListNotations.

(** ** Flags are bits *)
Lemma contains_bit : forall x i, contains x (N.shiftl 1 i) = N.testbit x i.
Proof.
  intros x i. unfold contains. rewrite N.shiftl_1_l. destruct (N.testbit x i) eqn:E.
  - apply N.eqb_eq. apply N.bits_inj. intros j. rewrite N.land_spec, N.pow2_bits_eqb. destruct (N.eqb_spec i j) as [<-|_]; [rewrite E; reflexivity|apply andb_false_r].
  - apply N.eqb_neq. intros H. assert (K : N.testbit (N.land x (2 ^ i)) i = N.testbit (2 ^ i) i) by (rewrite H; reflexivity).
    rewrite N.land_spec, E, N.pow2_bits_true in K. discriminate.
Qed.
Lemma bitflag_bit : forall b f i, N.testbit (bitflag b f) i = b && N.testbit f i.
Proof. intros [] f i; [reflexivity|apply N.bits_0]. Qed.

Ltac fold_bits := unfold LEMMA, ASSERT_THEORY, SKOLEMNISE, LEGACY_EVALUATE, NO_BITSTRING, ASSERT_NOT, ASSERT_GROUND, IGNORE_LEMMAS, DISALLOW_SHADOWING,
  NON_SMT_STANDARD, EVALUATE, CRYPTOGRAPHY, PREPROCESS_INPUTS, PREPROCESS_CELLS, DEFINED, PREPROCESS_INSTANCES, VAMPIRE, SVAMPIRE, SZ3, SCVC5 in *;
  rewrite ?contains_bit; rewrite ?N.lor_spec, ?N.ldiff_spec, ?bitflag_bit, ?N.lor_spec, ?bitflag_bit.
Ltac shift_bits := repeat match goal with |- context [N.testbit (N.shiftl 1 ?a) ?b] =>
  let v := eval vm_compute in (N.testbit (N.shiftl 1 a) b) in change (N.testbit (N.shiftl 1 a) b) with v end.
Ltac tidy := rewrite ?andb_true_r, ?andb_false_r, ?orb_false_r, ?orb_true_r, ?orb_false_l, ?andb_true_l, ?andb_false_l; cbn [negb orb andb].
Ltac bits := fold_bits; shift_bits; tidy.

Section Env.
  Context {path T : Type} (v z c : path) (s : T).
  Notation env := (env_of v z c s).

  Lemma env_symbolic : forall a, en_symbolic (env a) = ar_symbolic a.
  Proof. intros a. unfold env_of. destruct (ar_command a) as [[u|t]|]; reflexivity. Qed.
  Lemma env_rewrite : forall a, is_empty (en_rewrite (env a)) = negb (ar_eval_rewrite a || ar_crypto_rewrite a).
  Proof. intros a. unfold env_of. destruct (ar_command a) as [[u|t]|]; cbn; destruct (ar_eval_rewrite a), (ar_crypto_rewrite a); reflexivity. Qed.
  Lemma env_define : forall a, define_subterm (env a) = true.
  Proof. intros a. unfold define_subterm, env_of. destruct (ar_command a) as [[u|t]|]; cbn [en_subterm]; [|destruct (tf_cvc5 t)|]; bits; reflexivity. Qed.
  Lemma env_preprocess : forall a, preprocess_instances (env a) = negb (ar_no_preprocessing a).
  Proof.
    intros a. unfold preprocess_instances. rewrite env_define. unfold env_of. destruct (ar_command a) as [[u|t]|]; cbn [en_subterm]; [|destruct (tf_cvc5 t)|]; bits; reflexivity.
  Qed.
  Lemma env_vampire : forall a, use_vampire_subterm (env a) = ar_vampire_subterm a && ar_symbolic a && negb (wants_standard a).
  Proof.
    intros a. unfold use_vampire_subterm. rewrite env_symbolic. unfold wants_standard, env_of. destruct (ar_command a) as [[u|t]|]; cbn [en_subterm]; [|destruct (tf_cvc5 t)|]; bits; reflexivity.
  Qed.
  Lemma env_legacy : forall a, use_legacy_evaluate (env a) = ar_legacy_evaluate a && ar_symbolic a.
  Proof.
    intros a. unfold use_legacy_evaluate. rewrite env_symbolic. unfold env_of. destruct (ar_command a) as [[u|t]|]; cbn [en_flags]; [|destruct (tf_cvc5 t)|]; bits; reflexivity.
  Qed.
  Lemma env_bitstring : forall a, no_bitstring_functions (env a) = ar_no_bitstring a && ar_symbolic a.
  Proof.
    intros a. unfold no_bitstring_functions, env_of. destruct (ar_command a) as [[u|t]|]; cbn [en_flags]; [|destruct (tf_cvc5 t)|]; bits; reflexivity.
  Qed.
  Lemma env_ignored : forall a, are_lemmas_ignored (env a) = match ar_command a with Some (Auto u) => au_ignore_lemmas u | _ => false end.
  Proof.
    intros a. unfold are_lemmas_ignored, env_of. destruct (ar_command a) as [[u|t]|]; cbn [en_flags]; [|destruct (tf_cvc5 t)|]; bits; reflexivity.
  Qed.
  Lemma env_lemmas : forall a, use_lemmas (env a) =
    Some match ar_command a with None => true | Some (Auto u) => au_lemmas u && negb (au_ignore_lemmas u) | Some (ToFile t) => tf_lemmas t end.
  Proof.
    intros a. unfold use_lemmas. rewrite env_ignored. unfold env_of. destruct (ar_command a) as [[u|t]|]; cbn [en_flags]; [|destruct (tf_cvc5 t)|]; bits.
    - destruct (au_lemmas u), (au_ignore_lemmas u); reflexivity.
    - destruct (tf_lemmas t); reflexivity.
    - destruct (tf_lemmas t); reflexivity.
    - reflexivity.
  Qed.
  Lemma env_shadowing : forall a, allow_shadowing (env a) = negb (ar_disallow_shadowing a) || is_auto a.
  Proof.
    intros a. unfold allow_shadowing, is_auto, env_of. destruct (ar_command a) as [[u|t]|]; cbn [en_flags]; [|destruct (tf_cvc5 t)|]; bits; try reflexivity;
      destruct (ar_disallow_shadowing a); reflexivity.
  Qed.
  Lemma env_smt : forall a, smt_options_of (env a) =
    mkOptions (match ar_command a with Some (ToFile t) => tf_assert_theory t && negb (tf_cvc5 t) | _ => false end) false
      (negb (ar_eval_rewrite a || ar_crypto_rewrite a))
      (match ar_command a with Some (ToFile t) => tf_assert_ground t && negb (tf_cvc5 t) | _ => false end).
  Proof.
    intros a. unfold smt_options_of. rewrite env_rewrite. unfold env_of. destruct (ar_command a) as [[u|t]|]; cbn [en_flags]; [|destruct (tf_cvc5 t)|]; bits; try reflexivity.
  Qed.
  Lemma write_smt : forall k (e : environment path T), smt_options_of (write_env k e) =
    match k with
    | Runner_Model.Vampire => mkOptions true true (is_empty (en_rewrite e)) (contains (en_flags e) ASSERT_GROUND)
    | Runner_Model.Z3 => mkOptions false false (is_empty (en_rewrite e)) false
    end.
  Proof. intros [] e; unfold smt_options_of; cbn [write_env with_flags en_flags en_rewrite]; bits; reflexivity. Qed.
  Lemma write_subterm : forall k (e : environment path T), subterm_declaration_of (write_env k e) = subterm_declaration_of e.
  Proof. intros [] e; reflexivity. Qed.
End Env.

(** ** Standard files *)
Lemma command_standard : forall kind o a k, use_assert_theory o = false -> use_assert_not o = false -> no_rewrite o = true -> use_assert_ground o = false ->
  command_of kind o a = Some k -> standard k.
Proof.
  intros kind o a k H1 H2 H3 H4 E. destruct a as [|f|s f|f|f|fn vs l r]; cbn in E; rewrite ?H1, ?H2, ?H3, ?H4 in E.
  - injection E as <-. constructor.
  - destruct (smt_of kind f); [|discriminate]. injection E as <-. constructor.
  - destruct (smt_of kind f); [|discriminate]. injection E as <-. constructor.
  - destruct (smt_of kind f); [|discriminate]. injection E as <-. constructor.
  - destruct (smt_of kind f); [|discriminate]. injection E as <-. constructor.
  - destruct (smt_of kind l); [|discriminate]. destruct (smt_of kind r); [|discriminate]. injection E as <-. constructor.
Qed.
Lemma file_standard : forall kind o axs cs, use_assert_theory o = false -> use_assert_not o = false -> no_rewrite o = true -> use_assert_ground o = false ->
  file_of kind o axs = Some cs -> Forall standard cs.
Proof.
  intros kind o axs cs H1 H2 H3 H4 E. unfold file_of in E.
  match type of E with option_map _ (?g axs) = _ => set (go := g) in * end.
  assert (HG : forall l ks, go l = Some ks -> Forall standard ks).
  { induction l as [|a l IH]; intros ks Hk; cbn in Hk; [injection Hk as <-; constructor|].
    destruct (command_of kind o a) as [k|] eqn:Ek; [|discriminate]. fold go in Hk. destruct (go l) as [ks'|] eqn:El; [|discriminate]. injection Hk as <-.
    constructor; [eapply command_standard; eassumption|auto]. }
  destruct (go axs) as [ks|] eqn:Eg; [|discriminate]. injection E as <-. apply Forall_app. split; [eapply HG; eassumption|repeat constructor].
Qed.

(** ** Files *)
Section Runs.
  Context {path T : Type} (v z c : path) (s : T) (which mkdir mkparent : path -> bool) (writable : target path -> bool).
  Notation env := (env_of v z c s).
  Notation run_ast := (run_from_ast v z c s which mkdir mkparent writable).

  (** What is saved in a directory. *)
  Lemma save_all_prefix : forall fuel loc i it files ok, save_all writable fuel loc i it = Some (files, ok) ->
    forall k, (k < length files -> exists p, yielded k it = Some p /\ nth_error files k = Some (Entry loc (i + k), p) /\ writable (Entry loc (i + k)) = true) /\
              (ok = true -> k = length files -> yielded k it = None) /\
              (ok = false -> k = length files -> yielded k it <> None /\ writable (Entry loc (i + k)) = false).
  Proof.
    induction fuel as [|fuel IH]; intros loc i it files ok E k; cbn in E; [discriminate|].
    destruct (pbl_next it) as [[p|] it'] eqn:En.
    - destruct (writable (Entry loc i)) eqn:Ew.
      + destruct (save_all writable fuel loc (S i) it') as [[fs o]|] eqn:Es; [|discriminate]. injection E as <- <-. cbn [fst snd length].
        destruct k as [|k].
        * repeat split; intros; try lia. exists p. rewrite Nat.add_0_r. cbn. rewrite En. auto.
        * specialize (IH _ _ _ _ _ Es k). destruct IH as (I1 & I2 & I3). cbn [yielded nth_error]. rewrite En. replace (i + S k) with (S i + k) by lia. repeat split; intros.
          -- apply I1. lia.
          -- apply I2; [assumption|lia].
          -- destruct I3; [assumption|lia|assumption].
          -- destruct I3; [assumption|lia|assumption].
      + injection E as <- <-. cbn. repeat split; intros; try discriminate; try lia; subst k; cbn; rewrite ?En, ?Nat.add_0_r; [discriminate|assumption].
    - injection E as <- <-. cbn. repeat split; intros; try discriminate; try lia. subst k. cbn. rewrite En. reflexivity.
  Qed.
  Lemma save_all_total : forall fuel loc i it, (exists k, k < fuel /\ yielded k it = None) -> save_all writable fuel loc i it <> None.
  Proof.
    induction fuel as [|fuel IH]; intros loc i it (k & Hk & Ey); [lia|]. cbn. destruct (pbl_next it) as [[p|] it'] eqn:En; [|discriminate].
    destruct (writable (Entry loc i)); [|discriminate]. destruct k as [|k]; [cbn in Ey; rewrite En in Ey; discriminate|]. cbn in Ey. rewrite En in Ey.
    specialize (IH loc (S i) it'). destruct (save_all writable fuel loc (S i) it'); [discriminate|]. exfalso. apply IH; [exists k; split; [lia|assumption]|reflexivity].
  Qed.

  Lemma run_total : forall a p, run_ast a p <> None /\ run_ast a p <> Some Panic.
  Proof.
    intros a p. unfold run_from_ast. rewrite env_lemmas. set (b := match ar_command a with None => true | Some (Auto u) => _ | Some (ToFile t) => _ end).
    destruct (output_location a) as [loc|]; [|destruct (solvers which (en_config (env a))); split; discriminate].
    destruct b eqn:Eb.
    - unfold run_to_dir. destruct (mkdir loc); [|split; discriminate].
      match goal with |- context [save_all writable ?n loc 0 ?it] => pose proof (save_all_total n loc 0 it) as H; destruct (save_all writable n loc 0 it) as [r|] end; [split; discriminate|].
      exfalso. apply H; [|reflexivity]. exists (S (length (pb_lemmas (parsed (env a) p)))).
      destruct (Problem_Props.C41_problems (parsed (env a) p) (S (length (pb_lemmas (parsed (env a) p))))) as (_ & _ & H3 & H4). rewrite H4. split; [lia|]. apply H3. lia.
    - unfold run_to_file. destruct (mkparent loc); [|split; discriminate]. destruct (assert_one _); [|split; discriminate].
      destruct (pbl_next _) as [[q|] it']; [destruct (writable (At loc))|]; split; discriminate.
  Qed.
End Runs.
