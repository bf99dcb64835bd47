(** C94 and C95: what the options of the command line do, and what a run with them writes or calls. *)
From Coq Require Import List Arith NArith Bool Lia.
From Verif Require Import Syntax_Model Smt_Model Problem_Model Problem_Spec Problem_Proofs Cli_Model Cli_Spec Cli_Proofs.
From Verif Require Runner_Model Problem_Props Search_Model.
Import ListNotations.

(** ** C94: options *)

(** Each question that the program asks is answered by the options of its own, whatever the others are; asking never panics. *)
Theorem C94_options_partial : forall (path T : Type) (v z c : path) (s : T) (a : args path T),
  let e := env_of v z c s a in
  en_symbolic e = ar_symbolic a /\ with_general_crypto_axiom e = ar_symbolic a /\
  use_legacy_evaluate e = ar_legacy_evaluate a && ar_symbolic a /\
  no_bitstring_functions e = ar_no_bitstring a && ar_symbolic a /\
  preprocess_instances e = negb (ar_no_preprocessing a) /\ define_subterm e = true /\
  use_vampire_subterm e = ar_vampire_subterm a && ar_symbolic a && negb (wants_standard a) /\
  match ar_command a with
  | None => use_lemmas e = Some true /\ are_lemmas_ignored e = false
  | Some (Auto u) => use_lemmas e = Some (au_lemmas u && negb (au_ignore_lemmas u)) /\ are_lemmas_ignored e = au_ignore_lemmas u
  | Some (ToFile t) => use_lemmas e = Some (tf_lemmas t) /\ are_lemmas_ignored e = false /\ allow_shadowing e = negb (ar_disallow_shadowing a) /\
      use_assert_theory (smt_options_of e) = tf_assert_theory t && negb (tf_cvc5 t) /\
      use_assert_ground (smt_options_of e) = tf_assert_ground t && negb (tf_cvc5 t)
  end /\
  no_rewrite (smt_options_of e) = negb (ar_eval_rewrite a || ar_crypto_rewrite a).
Proof.
  intros path T v z c s a e. subst e. unfold with_general_crypto_axiom. rewrite env_symbolic, env_legacy, env_bitstring, env_preprocess, env_define, env_vampire, env_lemmas, env_ignored, env_smt, env_shadowing.
  unfold is_auto. destruct (ar_command a) as [[u|t]|]; cbn; rewrite ?orb_false_r; auto 20.
Qed.
Print Assumptions C94_options_partial.
Example C94_options_example :
  let a := mkArgs (path:=nat) (T:=nat) false true true false true true true true false (Some (ToFile (mkToFile 0 true true true true))) in
  let e := env_of 1 2 3 1 a in
  use_legacy_evaluate e = true /\ no_bitstring_functions e = true /\ preprocess_instances e = false /\ use_vampire_subterm e = false /\
  use_assert_theory (smt_options_of e) = false /\ use_lemmas e = Some true.
Proof. vm_compute. auto 10. Qed.

(** With [--cvc5] and without rewrite rules, every file is standard. *)
Theorem C94_standard_partial : forall (path T : Type) (v z c : path) (s : T) (a : args path T),
  wants_standard a = true -> ar_eval_rewrite a = false -> ar_crypto_rewrite a = false -> writes_standard (env_of v z c s a).
Proof.
  intros path T v z c s a Hs H1 H2. split.
  - unfold subterm_declaration_of. rewrite env_vampire, Hs, andb_false_r. reflexivity.
  - intros kind axs cs. rewrite env_smt. unfold wants_standard in Hs. destruct (ar_command a) as [[u|t]|]; try discriminate. rewrite Hs, H1, H2, !andb_false_r. apply file_standard; reflexivity.
Qed.
Print Assumptions C94_standard_partial.

(** The file for Z3 is standard without rewrite rules and the subterm relations of Vampire, whatever the command. *)
Theorem C94_z3_partial : forall (path T : Type) (v z c : path) (s : T) (a : args path T),
  ar_eval_rewrite a = false -> ar_crypto_rewrite a = false -> ar_vampire_subterm a && ar_symbolic a = false ->
  writes_standard (write_env Runner_Model.Z3 (env_of v z c s a)).
Proof.
  intros path T v z c s a H1 H2 H3. split.
  - rewrite write_subterm. unfold subterm_declaration_of. rewrite env_vampire, H3. reflexivity.
  - intros kind axs cs. rewrite write_smt, env_rewrite, H1, H2. apply file_standard; reflexivity.
Qed.
Print Assumptions C94_z3_partial.
Example C94_standard_example :
  let a := mkArgs (path:=nat) (T:=nat) false false true true false true true true true (Some (ToFile (mkToFile 0 true true true true))) in
  wants_standard a = true /\ ar_eval_rewrite a = false /\ ar_crypto_rewrite a = false /\
  exists kind axs cs, file_of kind (smt_options_of (env_of 1 2 3 1 a)) axs = Some cs /\ length cs = 4.
Proof.
  intros a. do 3 (split; [reflexivity|]). exists (fun _ => Search_Model.KRegular []), [XTheory TRUE; XGround SMessage TRUE; XQuery TRUE]. eexists. split; vm_compute; reflexivity.
Qed.

(** The file for Vampire uses its own commands for theories and the query, and nothing else that was not asked for. *)
Theorem C94_vampire : forall (path T : Type) (v z c : path) (s : T) (a : args path T),
  let e := write_env Runner_Model.Vampire (env_of v z c s a) in
  smt_options_of e = mkOptions true true (negb (ar_eval_rewrite a || ar_crypto_rewrite a)) (match ar_command a with Some (ToFile t) => tf_assert_ground t && negb (tf_cvc5 t) | _ => false end) /\
  subterm_declaration_of e = (if ar_vampire_subterm a && ar_symbolic a && negb (wants_standard a) then DeclareSubterm else DeclareFunctions).
Proof.
  intros path T v z c s a e. subst e. rewrite write_subterm, write_smt. unfold subterm_declaration_of. rewrite env_vampire, env_rewrite. split; [|reflexivity].
  pose proof (f_equal use_assert_ground (env_smt v z c s a)) as H. cbn [use_assert_ground smt_options_of] in H. rewrite H. reflexivity.
Qed.
Print Assumptions C94_vampire.

(** [--cvc5] does not give a standard file: rules stay. *)
Theorem C94_standard_refuted : exists (a : args nat nat), wants_standard a = true /\ ~ writes_standard (env_of 1 2 3 1 a).
Proof.
  exists (mkArgs true false false false false false false false false (Some (ToFile (mkToFile 0 false false true false)))). split; [reflexivity|]. intros (_ & H).
  specialize (H (fun _ => Search_Model.KRegular []) [XRewrite None [] TRUE TRUE] _ eq_refl). inversion H as [|? ? H1 _]. inversion H1.
Qed.
Print Assumptions C94_standard_refuted.
(** Nor is the file for Z3 standard: with [--symbolic --vampire-subterm] it declares a relation of Vampire. *)
Theorem C94_z3_refuted : exists (a : args nat nat), is_auto a = true /\ ar_eval_rewrite a = false /\ ar_crypto_rewrite a = false /\
  subterm_declaration_of (write_env Runner_Model.Z3 (env_of 1 2 3 1 a)) = DeclareSubterm.
Proof. exists (mkArgs false false true false false false false true false None). vm_compute. auto. Qed.
Print Assumptions C94_z3_refuted.
(** [--skolemnise] changes nothing, and neither does [--disallow-shadowing] when solvers are called. *)
Theorem C94_skolemnise_refuted : forall (path T : Type) (v z c : path) (s : T) (a : args path T) (b : bool),
  same_environment (env_of v z c s (with_skolemnise b a)) (env_of v z c s a).
Proof.
  intros path T v z c s a b. unfold same_environment, with_general_crypto_axiom. rewrite !env_symbolic, !env_legacy, !env_bitstring, !env_preprocess, !env_define, !env_vampire, !env_lemmas, !env_ignored, !env_smt, !env_shadowing.
  repeat split; try reflexivity.
  - unfold env_of. cbn. destruct (ar_command a) as [[u|t]|]; reflexivity.
  - intros k. rewrite !write_smt, !env_rewrite. pose proof (f_equal use_assert_ground (env_smt v z c s (with_skolemnise b a))) as H1.
    pose proof (f_equal use_assert_ground (env_smt v z c s a)) as H2. cbn [use_assert_ground smt_options_of] in H1, H2. rewrite H1, H2. reflexivity.
Qed.
Print Assumptions C94_skolemnise_refuted.
Theorem C94_shadowing_refuted : forall (path T : Type) (v z c : path) (s : T) (a : args path T), is_auto a = true ->
  allow_shadowing (env_of v z c s (with_shadowing true a)) = true /\ env_of v z c s (with_shadowing true a) = env_of v z c s (with_shadowing false a).
Proof.
  intros path T v z c s a H. split.
  - rewrite env_shadowing. unfold is_auto in *. cbn. exact H.
  - unfold env_of, is_auto in *. cbn. destruct (ar_command a) as [[u|t]|]; try reflexivity. discriminate.
Qed.
Print Assumptions C94_shadowing_refuted.
(** The rules of the evaluation and of the cryptography cannot be asked for separately. *)
Theorem C94_rewrite_refuted : forall (path T : Type) (v z c : path) (s : T) (a : args path T),
  same_environment (env_of v z c s (with_rewrite true false a)) (env_of v z c s (with_rewrite false true a)).
Proof.
  intros path T v z c s a. unfold same_environment, with_general_crypto_axiom. rewrite !env_symbolic, !env_legacy, !env_bitstring, !env_preprocess, !env_define, !env_vampire, !env_lemmas, !env_ignored, !env_smt, !env_shadowing.
  repeat split; try reflexivity.
  - unfold env_of. cbn. destruct (ar_command a) as [[u|t]|]; reflexivity.
  - intros k. rewrite !write_smt, !env_rewrite. pose proof (f_equal use_assert_ground (env_smt v z c s (with_rewrite true false a))) as H1.
    pose proof (f_equal use_assert_ground (env_smt v z c s (with_rewrite false true a))) as H2. cbn [use_assert_ground smt_options_of] in H1, H2. rewrite H1, H2. reflexivity.
Qed.
Print Assumptions C94_rewrite_refuted.
(** [auto] is the default command, yet writing it down turns the lemmas off. *)
Theorem C94_default_refuted : forall (path T : Type) (v z c : path) (s : T) (a : args path T),
  use_lemmas (env_of v z c s (with_command None a)) = Some true /\
  use_lemmas (env_of v z c s (with_command (Some (Auto (mkAuto false 5 s None false v z c false false false))) a)) = Some false.
Proof. intros. rewrite !env_lemmas. split; reflexivity. Qed.
Print Assumptions C94_default_refuted.

(** ** C95: runs *)
Section Runs.
  Context {path T : Type} (v z c : path) (s : T) (which mkdir mkparent : path -> bool) (writable : target path -> bool).
  Notation run_ast := (run_from_ast v z c s which mkdir mkparent writable).

(** A run ends and does not panic because of its options. *)
Theorem C95_total : forall a p, run_ast a p <> None /\ run_ast a p <> Some Panic.
Proof. intros. apply run_total. Qed.

(** [to-file] without lemmas writes the problem to the location, and nothing else. *)
Theorem C95_one : forall a t p, ar_command a = Some (ToFile t) -> tf_lemmas t = false ->
  run_ast a p = Some (if mkparent (tf_location t) && writable (At (tf_location t)) then Wrote [(At (tf_location t), p)] true else Wrote [] false).
Proof.
  intros a t p Hc Hl. unfold run_from_ast, output_location. rewrite env_lemmas, Hc, Hl. unfold parsed. rewrite env_ignored, Hc. cbn. unfold run_to_file. cbn.
  destruct (mkparent (tf_location t)); [|reflexivity]. destruct (writable (At (tf_location t))); reflexivity.
Qed.

(** [to-file] with lemmas writes file [k] for lemma [k] and a last one for the query, each with the lemmas before it; it stops at the
    first file that cannot be written. *)
Theorem C95_directory : forall a t p, ar_command a = Some (ToFile t) -> tf_lemmas t = true -> mkdir (tf_location t) = true ->
  exists files ok, run_ast a p = Some (Wrote files ok) /\ length files <= S (length (pb_lemmas p)) /\
    (ok = true <-> length files = S (length (pb_lemmas p))) /\ (ok = false -> writable (Entry (tf_location t) (length files)) = false) /\
    forall k f, nth_error files k = Some f -> fst f = Entry (tf_location t) k /\ writable (fst f) = true /\
      nth_error (pb_lemmas p ++ [pb_query p]) k = Some (pb_query (snd f)) /\
      pb_assertions (snd f) = pb_assertions p ++ TRUE :: firstn k (pb_lemmas p).
Proof.
  intros a t p Hc Hl Hm. destruct (run_total v z c s which mkdir mkparent writable a p) as (HN & _). unfold run_from_ast, output_location in *. rewrite env_lemmas, Hc, Hl in *.
  assert (Hp : parsed (env_of v z c s a) p = p) by (unfold parsed; rewrite env_ignored, Hc; reflexivity). cbn [env_of] in *. rewrite Hp in *. unfold run_to_dir in *. rewrite Hm in *.
  set (it := pbl_new p true) in *. destruct (save_all writable (S (S (pbl_len it))) (tf_location t) 0 it) as [[files ok]|] eqn:Es; [|destruct HN; reflexivity].
  exists files, ok. cbn [option_map fst snd]. pose proof (save_all_prefix writable _ _ _ _ _ _ Es) as H. clear HN.
  assert (HL : length files <= S (length (pb_lemmas p))).
  { destruct (le_lt_dec (length files) (S (length (pb_lemmas p)))) as [?|Hlt]; [assumption|]. destruct (H (S (length (pb_lemmas p)))) as (H1 & _). destruct (H1 Hlt) as (q & Hq & _).
    destruct (Problem_Props.C41_problems p (S (length (pb_lemmas p)))) as (_ & _ & H3 & _). fold it in H3. rewrite H3 in Hq by lia. discriminate. }
  split; [reflexivity|]. split; [exact HL|]. split; [|split].
  - split.
    + intros ->. destruct (H (length files)) as (_ & H2 & _). specialize (H2 eq_refl eq_refl). destruct (Problem_Props.C41_problems p (length files)) as (P1 & P2 & P3 & _). fold it in P1, P2, P3.
      destruct (Nat.eq_dec (length files) (length (pb_lemmas p))) as [En|Hn]; [destruct (P2 En) as (q & Hq & _); congruence|].
      destruct (le_lt_dec (length (pb_lemmas p)) (length files)) as [Hle|Hlt]; [lia|]. destruct (P1 Hlt) as (q & Hq & _). congruence.
    + intros En. destruct ok; [reflexivity|]. destruct (H (length files)) as (_ & _ & H3). destruct (H3 eq_refl eq_refl) as (Hy & _). destruct Hy.
      destruct (Problem_Props.C41_problems p (length files)) as (_ & _ & P3 & _). apply P3. lia.
  - intros ->. destruct (H (length files)) as (_ & _ & H3). apply (H3 eq_refl eq_refl).
  - intros k f Hf. assert (Hk : k < length files) by (apply nth_error_Some; congruence). destruct (H k) as (H1 & _). destruct (H1 Hk) as (q & Hq & Ef & Hw). rewrite Ef in Hf. injection Hf as <-.
    cbn [fst snd]. split; [reflexivity|]. split; [exact Hw|]. destruct (Problem_Props.C41_problems p k) as (P1 & P2 & P3 & _). fold it in P1, P2, P3.
    destruct (Nat.eq_dec k (length (pb_lemmas p))) as [En|Hn].
    + destruct (P2 En) as (q' & Hq' & E1 & E2). rewrite Hq in Hq'. injection Hq' as <-. rewrite E1, E2, En, firstn_all. split; [|reflexivity]. rewrite nth_error_app2 by lia. rewrite Nat.sub_diag. reflexivity.
    + assert (Hlt : k < length (pb_lemmas p)) by lia. destruct (P1 Hlt) as (q' & Hq' & E1 & E2). rewrite Hq in Hq'. injection Hq' as <-. rewrite nth_error_app1 by lia. auto.
Qed.

(** Otherwise the solvers that are called are those among Vampire and Z3 that are not disabled and that are found; without any, that is an
    error. Lemmas are part of what is proved exactly when asked for, and dropped when ignored. *)
Theorem C95_solvers_partial : forall a p,
  let u := match ar_command a with Some (Auto u) => u | _ => mkAuto true 5 s None false v z c false false false end in
  is_auto a = true ->
  let vampire := negb (au_no_vampire u) && which (au_vampire u) in
  let z3 := negb (au_no_z3 u) && which (au_z3 u) in
  match run_ast a p with
  | Some NoSolver => vampire = false /\ z3 = false
  | Some (Calls l retry timeout debug it) =>
      (vampire = true \/ z3 = true) /\
      (forall k e, In (k, e) l <-> match k with Runner_Model.Vampire => vampire = true /\ e = au_vampire u | Runner_Model.Z3 => z3 = true /\ e = au_z3 u end) /\ NoDup l /\
      retry = au_retry u /\ timeout = au_timeout u /\ debug = au_debug u /\
      it = pbl_new (mkProblem (pb_assertions p) (if au_ignore_lemmas u then [] else pb_lemmas p) (pb_query p)) (au_lemmas u && negb (au_ignore_lemmas u))
  | _ => False
  end.
Proof.
  intros a p u Ha vampire z3. unfold run_from_ast. rewrite env_lemmas.
  assert (Ho : output_location a = None) by (unfold output_location, is_auto in *; destruct (ar_command a) as [[|]|]; [reflexivity|discriminate|reflexivity]). rewrite Ho.
  assert (He : en_config (env_of v z c s a) = config_of u) by (unfold env_of, is_auto, u in *; destruct (ar_command a) as [[|]|]; [reflexivity|discriminate|reflexivity]). rewrite He.
  assert (Hlem : match ar_command a with None => true | Some (Auto u) => au_lemmas u && negb (au_ignore_lemmas u) | Some (ToFile t) => tf_lemmas t end = au_lemmas u && negb (au_ignore_lemmas u))
    by (unfold is_auto, u in *; destruct (ar_command a) as [[|]|]; [reflexivity|discriminate|reflexivity]). rewrite Hlem.
  assert (Hig : are_lemmas_ignored (env_of v z c s a) = au_ignore_lemmas u) by (rewrite env_ignored; unfold is_auto, u in *; destruct (ar_command a) as [[|]|]; [reflexivity|discriminate|reflexivity]).
  assert (Hp : parsed (env_of v z c s a) p = mkProblem (pb_assertions p) (if au_ignore_lemmas u then [] else pb_lemmas p) (pb_query p)).
  { unfold parsed. rewrite Hig. destruct (au_ignore_lemmas u); [reflexivity|]. destruct p; reflexivity. }
  rewrite Hp. unfold solvers. cbn [config_of co_enabled co_vampire co_z3 co_retry co_timeout co_debug].
  replace (contains _ SVAMPIRE) with (negb (au_no_vampire u)) by (destruct (au_no_vampire u), (au_no_z3 u), (au_no_cvc5 u); reflexivity).
  replace (contains _ SZ3) with (negb (au_no_z3 u)) by (destruct (au_no_vampire u), (au_no_z3 u), (au_no_cvc5 u); reflexivity).
  subst vampire z3. clearbody u. destruct (au_no_vampire u), (au_no_z3 u), (which (au_vampire u)), (which (au_z3 u)); cbn [negb andb app]; auto;
    (split; [auto|]); (split; [|split; [repeat constructor; cbn; intuition discriminate|auto]]);
    intros k e; cbn [In]; (split; [intros HIn; repeat match goal with H : _ \/ _ |- _ => destruct H as [H|H] | H : False |- _ => destruct H | H : (_, _) = (_, _) |- _ => injection H as <- <- end; auto|destruct k; intros (E1 & ->); auto; discriminate]).
Qed.

End Runs.
Print Assumptions C95_total.
Print Assumptions C95_one.
Print Assumptions C95_directory.
Print Assumptions C95_solvers_partial.

(** Two lemmas: three files. *)
Example C95_example : forall q1 q2 q, exists p1 p2 p3,
  run_from_ast (path:=nat) (T:=nat) 1 2 3 1 (fun _ => true) (fun _ => true) (fun _ => true) (fun _ => true)
    (mkArgs false false false false false false false false false (Some (ToFile (mkToFile 7 true false false false)))) (mkProblem [] [q1; q2] q) =
    Some (Wrote [(Entry 7 0, p1); (Entry 7 1, p2); (Entry 7 2, p3)] true) /\
  pb_assertions p1 = [TRUE] /\ pb_query p1 = q1 /\ pb_assertions p2 = [TRUE; q1] /\ pb_query p2 = q2 /\ pb_assertions p3 = [TRUE; q1; q2] /\ pb_query p3 = q.
Proof. intros. do 3 eexists. cbv. auto 10. Qed.

(** cvc5 is never called, although it can be disabled: alone, it counts as no solver. *)
Theorem C95_cvc5_refuted : forall (path T : Type) (v z c : path) (s : T) (mkdir mkparent : path -> bool) (writable : target path -> bool) (a : args path T) (u : auto path T) (p : problem) which,
  ar_command a = Some (Auto u) -> au_no_cvc5 u = false -> which (au_cvc5 u) = true -> which (au_vampire u) = false -> which (au_z3 u) = false ->
  run_from_ast v z c s which mkdir mkparent writable a p = Some NoSolver.
Proof.
  intros path T v z c s mkdir mkparent writable a u p which Hc H1 H2 H3 H4. unfold run_from_ast. rewrite env_lemmas. unfold output_location. rewrite Hc. unfold env_of. rewrite Hc. cbn [en_config]. unfold solvers.
  cbn [config_of co_vampire co_z3]. rewrite H3, H4. destruct (contains _ SVAMPIRE), (contains _ SZ3); reflexivity.
Qed.
Print Assumptions C95_cvc5_refuted.
