(** C108, from the text of a file. *)
From Coq Require Import List Arith Bool Lia Permutation.
From Verif Require Import Syntax_Model Syntax_Proofs Sort_Model Traversal_Spec Semantics_Spec Order_Model Macro_Model Parser_Model Parser_Spec Evaluate_Model File_Model Expander_Props
  Assumption_Model Assumption_Spec Assumption_Props Sentence_Spec Sentence_Props Source_Model Source_Spec Source_Closed_Spec Source_Props Source_Proofs Source_Closed_Props
  Arity_Spec Arity_Proofs Arity_Props Arity_Source_Spec Arity_Source_Proofs.
From Verif Require File_Props Smt_Model.
Import ListNotations.

(** What is read from an accepted file applies every function to as many arguments as it is declared with, whatever the order in which the table of
    functions is read, *)
Theorem C108_source : forall bs bf kw sh l so es il fuel p s' sig w,
  declare_all bs bf kw sh l = DOk so -> Permutation es (d_funs (so_env so)) -> parse_parts so es il fuel (mkPst [] [] []) = Done p s' -> assembled p w ->
  signatures bf (so_env so) (p_qs s') sig (gp_funs (wp_gen w)) -> (forall a, In a (wp_assumptions w) -> exists c, In c (pa_crypto p) /\ same_assumption c a) ->
  arities_below (so_env so) fuel -> 4 <= fuel -> counts_whole sig (table_of (p_qs s')) w.
Proof. intros bs bf kw sh l so es il fuel p s' sig w D P H A S C B F. exact (file_counts _ _ _ _ _ _ _ _ _ _ _ _ _ D P H S w A eq_refl C B F). Qed.
Print Assumptions C108_source.

(** so the file generated from it has its functions applied to their numbers of arguments, and is printed. *)
Theorem C108_file : forall bs bf kw sh l so es il fuel p s' sig w,
  declare_all bs bf kw sh l = DOk so -> Permutation es (d_funs (so_env so)) -> parse_parts so es il fuel (mkPst [] [] []) = Done p s' -> assembled p w ->
  signatures bf (so_env so) (p_qs s') sig (gp_funs (wp_gen w)) -> (forall a, In a (wp_assumptions w) -> exists c, In c (pa_crypto p) /\ same_assumption c a) ->
  arities_below (so_env so) fuel -> 4 <= fuel ->
  forall r vampire_flag defined preprocess anc scmp mfuel fuel' no_bitstring legacy skolem n split le ds axs,
    whole_file sig (table_of (p_qs s')) r vampire_flag defined preprocess anc scmp mfuel fuel' w no_bitstring legacy skolem n split le = Some (ds, axs) ->
    answers_cells anc (wp_cells w) -> (forall i, split <= i -> ~ In (Fuser i) (gp_funs (wp_gen w))) ->
    (forall a, In a axs -> counts_axiom sig (gp_funs (wp_gen w)) a) /\ forall xs kind o, Forall2 handed axs xs -> exists file, Smt_Model.file_of kind o xs = Some file.
Proof.
  intros bs bf kw sh l so es il fuel p s' sig w D P H A S C B F r vf defined pre anc scmp mfuel fuel' nb legacy skolem n split le ds axs W Ha Hs.
  pose proof (C108_source _ _ _ _ _ _ _ _ _ _ _ _ _ D P H A S C B F) as K. split; [eapply C108_arities; eauto|]. intros xs kind o HX. eapply C108_printed; eauto.
Qed.
Print Assumptions C108_file.

(** ** Example: the file of C101 with a mac. *)
Definition ex_file108 : list item := ex_file101 ++ [IFun 46 [22; 22; 22] 20; ICrypto (mkCryptoAst 104 [40; 46] [110]); ICrypto (mkCryptoAst 100 [] []); ICrypto (mkCryptoAst 101 [] [])].
Definition ex_sig108 (f : fsym) : option (list sort * sort) :=
  match f with
  | Fuser 10 => Some ([SMessage; SMessage; SMessage], SCondition)
  | Fstep 11 => Some ([], SStep)
  | _ => ex_sig101 f
  end.
Definition ex_whole108 (p : Source_Model.parts) : whole_problem :=
  mkWhole (mkGen (BUILT_IN_SORTS ++ [SIndex 6]) (BUILT_IN_FUNCTIONS ++ [Fuser 5; Fname 6; Fcell 7; Fstep 8; Fstep 9; Fuser 10; Fstep 11; Fquant 0; Fquant 1; Fquant 2; Fquant 3]) [SMessage; SCondition]
             (pa_steps p) (pa_orders p) (pa_asserts p) (pa_query p)) (pa_cells p) [AUf 5 10 true; ANonce; ACell] (pa_lemmas p) [].

Definition allowsb (sig : fsym -> option (list sort * sort)) (funs : list fsym) (f : fsym) (k : sigkind) : bool :=
  match k with
  | SgFixed ss _ => takesb sig funs f (length ss)
  | SgBools => match f with Fb CAnd | Fb COr | Fta TAnd | Fta TOr => true | _ => false end
  | SgEq | SgSub _ => takesb sig funs f 2
  | SgIte => takesb sig funs f 3
  end.
Lemma allowsb_spec sig funs f k : allowsb sig funs f k = true -> forall n, allows k n -> takes sig funs f n.
Proof.
  destruct k; cbn; try (intros H n ->; apply takesb_spec; exact H). destruct f as [| |c| | | |c| | | | | | | | | | | | |]; try discriminate; destruct c; try discriminate; intros; exact I.
Qed.
Definition sorts_eqb (a b : list sort * sort) : bool := if list_eq_dec sort_eq_dec (snd a :: fst a) (snd b :: fst b) then true else false.
Definition declared_symbolb (f : fsym) : bool := match f with Fuser _ | Fname _ | Fstep _ | Fcell _ => true | _ => false end.
Fixpoint quantsb (sig : fsym -> option (list sort * sort)) (i : nat) (qs : list tquant) : bool :=
  match qs with
  | [] => true
  | q :: qs' => match sig (Fquant i) with Some (ss, _) => if list_eq_dec sort_eq_dec ss (map vsort (tf q)) then true else false | None => false end && quantsb sig (S i) qs'
  end.
Definition signaturesb (bf : list (name * fcache)) (d : denv) (qs : list tquant) (sig : fsym -> option (list sort * sort)) (funs : list fsym) : bool :=
  forallb (fun x => match fc_step (snd x) with None => true | Some _ => false end && allowsb sig funs (fc_sym (snd x)) (fc_kind (snd x))) bf &&
  forallb (fun x => let fc := entry_cache (snd x) in
    match declared_symbolb (fc_sym fc), fc_kind fc with
    | true, SgFixed ss o => existsb (fsym_eqb (fc_sym fc)) funs && match sig (fc_sym fc) with Some y => sorts_eqb y (ss, o) | None => false end
    | _, _ => true
    end) (d_funs d) &&
  quantsb sig 0 qs &&
  forallb (fun f => match sig f with Some (ins, _) => takesb sig funs f (length ins) | None => true end) funs.
Lemma quantsb_spec sig qs : forall i, quantsb sig i qs = true -> forall k q, nth_error qs k = Some q -> exists o, sig (Fquant (i + k)) = Some (map vsort (tf q), o).
Proof.
  induction qs as [|q qs IH]; intros i H k q' Hk; [destruct k; discriminate|]. cbn in H. apply andb_true_iff in H as [H1 H2]. destruct k as [|k].
  - injection Hk as <-. rewrite Nat.add_0_r. destruct (sig (Fquant i)) as [[ss o]|]; [|discriminate]. destruct (list_eq_dec _ _ _) as [->|]; [eauto|discriminate].
  - replace (i + S k) with (S i + k) by lia. apply IH; assumption.
Qed.
Lemma signaturesb_spec bf d qs sig funs : signaturesb bf d qs sig funs = true -> signatures bf d qs sig funs.
Proof.
  intros H. unfold signaturesb in H. rewrite !andb_true_iff in H. destruct H as [[[H1 H2] H3] H4]. rewrite forallb_forall in H1, H2, H4. split.
  - intros x fc Hx. specialize (H1 _ Hx). cbn [snd] in H1. apply andb_true_iff in H1 as [G1 G2]. split; [destruct (fc_step fc); [discriminate|reflexivity]|apply allowsb_spec; exact G2].
  - intros x e ss o Hx Hd Ek. specialize (H2 _ Hx). cbn [snd] in H2. rewrite Ek in H2. destruct (declared_symbolb (fc_sym (entry_cache e))) eqn:Ed; [|destruct (fc_sym (entry_cache e)); try contradiction; discriminate].
    apply andb_true_iff in H2 as [G1 G2]. apply existsb_exists in G1 as (g & Hg & E). apply fsym_eqb_eq in E. rewrite E at 1. split; [exact Hg|].
    destruct (sig _) as [[ss' o']|]; [|discriminate]. unfold sorts_eqb in G2. cbn [fst snd] in G2. destruct (list_eq_dec _ _ _) as [E'|]; [|discriminate]. congruence.
  - intros i q Hq. exact (quantsb_spec sig qs 0 H3 i q Hq).
  - intros f ins out Hf E. specialize (H4 f Hf). rewrite E in H4. apply takesb_spec. exact H4.
Qed.
Definition belowb (d : denv) (n : nat) : bool := forallb (fun x => match snd x with EnFun fc => match fc_kind fc with SgFixed ss _ => Nat.ltb (length ss) n | _ => true end | _ => true end) (d_funs d).
Lemma belowb_spec d n : belowb d n = true -> arities_below d n.
Proof.
  intros H x fc ss o El Ek. apply lookup_in in El. unfold belowb in H. rewrite forallb_forall in H. specialize (H _ El). cbn [snd] in H. rewrite Ek in H. apply Nat.ltb_lt. exact H.
Qed.
Example C108_source_example :
  exists so p s', declare_all ex_sorts ex_builtins101 ex_keywords false ex_file108 = DOk so /\ parse_parts so (d_funs (so_env so)) false 20 (mkPst [] [] []) = Done p s' /\
    assembled p (ex_whole108 p) /\ signatures ex_builtins101 (so_env so) (p_qs s') ex_sig108 (gp_funs (wp_gen (ex_whole108 p))) /\
    (forall a, In a (wp_assumptions (ex_whole108 p)) -> exists c, In c (pa_crypto p) /\ same_assumption c a) /\ arities_below (so_env so) 20 /\
    exists ds axs, whole_file ex_sig108 (table_of (p_qs s')) RSymbolic false true true (ex_anc101 (pa_cells p)) w_scmp 100 600 (ex_whole108 p) false false 0 0 100 File_Props.ex_le = Some (ds, axs) /\ length axs = 120 /\
      answers_cells (ex_anc101 (pa_cells p)) (wp_cells (ex_whole108 p)) /\ forall i, 100 <= i -> ~ In (Fuser i) (gp_funs (wp_gen (ex_whole108 p))).
Proof.
  destruct (read_parts (declare_all ex_sorts ex_builtins101 ex_keywords false ex_file108) false 20 (fun so p s' =>
    signaturesb ex_builtins101 (so_env so) (p_qs s') ex_sig108 (BUILT_IN_FUNCTIONS ++ [Fuser 5; Fname 6; Fcell 7; Fstep 8; Fstep 9; Fuser 10; Fstep 11; Fquant 0; Fquant 1; Fquant 2; Fquant 3]) = true /\
    pa_crypto p = [PUf (Fuser 5) (Fuser 10) true; PNonce; PCell] /\ belowb (so_env so) 20 = true /\
    match whole_file ex_sig108 (table_of (p_qs s')) RSymbolic false true true (ex_anc101 (pa_cells p)) w_scmp 100 600 (ex_whole108 p) false false 0 0 100 File_Props.ex_le with Some (_, axs) => length axs = 120 | None => False end))
    as (so & p & s' & D & H & S & C & B & W); [vm_compute; repeat split; reflexivity|].
  exists so, p, s'. split; [exact D|]. split; [exact H|]. split; [split; cbn; auto; [apply incl_tl, incl_appl, incl_refl|apply incl_tl, incl_refl]|]. split; [apply signaturesb_spec; exact S|]. split.
  { intros a Ha. rewrite C. cbn in Ha. destruct Ha as [<-|[<-|[<-|[]]]]; eexists; (split; [|constructor]); cbn; auto. }
  split; [apply belowb_spec; exact B|]. destruct (whole_file _ _ _ _ _ _ _ _ _ _ _ _ _ _ _ _ _) as [[ds axs]|]; [|contradiction]. exists ds, axs. split; [reflexivity|]. split; [exact W|].
  split; [intros x a ce [= <-] Hc; exact Hc|]. intros i Hi Hin. cbn in Hin. repeat destruct Hin as [Hin|Hin]; try discriminate Hin; try contradiction; injection Hin as <-; lia.
Qed.
