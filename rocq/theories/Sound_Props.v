(** C109: what the prover proves is true. *)
From Coq Require Import List Arith Bool Lia Permutation.
From Verif Require Import Syntax_Model Syntax_Proofs Traversal_Spec Semantics_Spec Semantics_Proofs Order_Spec Order_Model Order_Proofs Sort_Model Evaluate_Model Evaluate_Spec Macro_Model Parser_Model Parser_Spec Parser_Props
  Problem_Model Problem_Spec Problem_Props File_Model File_Spec Assumption_Model Assumption_Spec Assumption_Props Expander_Props Sentence_Spec Arity_Spec Arity_Props Source_Model Source_Spec Source_Props Source_Proofs
  Source_Problem_Spec Source_Closed_Spec Source_Closed_Props Arity_Source_Spec Arity_Source_Props Sound_Spec Sound_Proofs Sound_Source_Spec Sound_Source_Proofs Exists_Model Exists_Proofs.
From Verif Require File_Props Smt_Model Smt_Spec Smt_Proofs Subst_Model Search_Model.
Import ListNotations.

(** When the file written for a problem is unsatisfiable, every execution where the orders, the assertions and the axioms of the cryptographic
    assumptions are true makes the query true. Missing: problems that use [gt], refuted below, and formulas that the propagation of evaluations changes
    and that C76 does not cover. *)
Theorem C109_problem_partial : forall sig table r w, usual sig table w -> told_apart w -> all_direct table w -> scoped_whole table w -> counts_whole sig table w ->
  (forall f, In f (gp_asserts (wp_gen w) ++ [gp_query (wp_gen w)]) -> settled sig table w f) ->
  forall vampire_flag defined preprocess anc scmp mfuel fuel no_bitstring skolem n split le ds axs xs kind o file K ground,
    whole_file sig table r vampire_flag defined preprocess anc scmp mfuel fuel w no_bitstring false skolem n split le = Some (ds, axs) ->
    answers_cells anc (wp_cells w) -> (forall i, split <= i -> ~ In (Fuser i) (gp_funs (wp_gen w))) ->
    lines axs xs -> Smt_Model.file_of kind o xs = Some file -> weaker ground -> invariant (skolems_of sig table w skolem) K -> unsatisfiable K ground file ->
    forall M : structure, K M -> execution sig table r w M ->
      (forall out, generate_assumptions sig table r vampire_flag defined preprocess anc scmp mfuel fuel w (wp_assumptions w) n split = Some out ->
                   assumed (skolems_of sig table w skolem) M (o_axioms out)) ->
      forall rho : env M, (forall x, In x (gp_orders (wp_gen w)) -> holds (Parser_Model.order_axiom x) rho) -> (forall a, In a (gp_asserts (wp_gen w)) -> holds a rho) ->
        holds (gp_query (wp_gen w)) rho.
Proof. intros sig table r w HU HT HD HS HC Hset. intros. eapply (problem_sound sig table r w HU HT HD HS); eassumption. Qed.
Print Assumptions C109_problem_partial.

(** From the text of a file: when all the files written for it have been proved, its query is true in every execution that is a model of the file, and so are its
    lemmas when they are used. *)
Theorem C109_source_partial : forall bs bf kw l so es il fuel p s' sig w, read_from bs bf kw l so es il fuel p s' sig w -> direct_parts (p_qs s') p ->
  forall r b K ground crypto skolem, weaker ground -> (forall k, invariant (skolems_of sig (table_of (p_qs s')) w (skolem k)) K) ->
    all_proved sig (table_of (p_qs s')) r K ground w p b crypto skolem ->
  forall M qsem mval, K M -> execution sig (table_of (p_qs s')) r w M -> (forall k, assumed (skolems_of sig (table_of (p_qs s')) w (skolem k)) M (crypto k)) ->
    model_of (penv_of (so_env so)) (p_qs s') l M qsem mval ->
    forall t, In t (queries_of l) \/ b = true /\ il = false /\ In t (lemmas_of l) -> dtest M (Parser_Spec.value (penv_of (so_env so)) qsem mval t REvaluated (fun _ => None)) = true.
Proof. intros. eapply source_sound; eassumption. Qed.
Print Assumptions C109_source_partial.

(** ** Example *)
(** Two steps, an order and an assertion on them, a lemma and a query. *)
Definition ex_builtins109 : list (name * fcache) := ex_builtins101 ++ [(83, fc_builtin Fgt (SgFixed [SStep; SStep] SBool))].
Definition ex_items109 : list item :=
  [ IStep (mkStepAst 45 [] (TVar 8) (TVar 7) []); IOrder (mkOrder QForall [] None OpLt (TVar 6) (TVar 45)); IAssert (TApp 80 [TVar 45]) ].
Definition ex_file109 : list item := ex_items109 ++ [ILemma (TApp 80 [TVar 6]); IQuery (TInfix OAnd [TApp 80 [TVar 6]; TApp 80 [TVar 45]])].
(** A step comes after itself. *)
Definition ex_after109 : list item := ex_items109 ++ [IQuery (TApp 83 [TVar 45; TVar 45])].
Definition ex_sig109 (f : fsym) : option (list sort * sort) :=
  match f with
  | Fuser 0 => Some ([], SMessage)
  | Fstep 6 | Fstep 7 => Some ([], SStep)
  | Fuser _ | Fname _ | Fcell _ | Fstep _ | Fsubterm _ => None
  | _ => w_sig f
  end.
Definition ex_whole109 (p : Source_Model.parts) : whole_problem :=
  mkWhole (mkGen BUILT_IN_SORTS (BUILT_IN_FUNCTIONS ++ [Fstep 6; Fstep 7]) [SMessage; SCondition] (pa_steps p) (pa_orders p) (pa_asserts p) (pa_query p)) (pa_cells p) [] (pa_lemmas p) [].
(** Time points 0, 1 and 2: the initial step, the other step, and no step. *)
Definition raw109 (s : fsym) (ds : list nat) : nat :=
  match s, ds with
  | Fstep 6, [] => 1
  | Fhappens, [d] => b2n (d <? 2)
  | Fleq, [a; b] => b2n ((a <=? b) && (b <? 2))
  | Flt, [a; b] => b2n ((a <? b) && (b <? 2))
  | Fgt, [a; b] => b2n ((b <? a) && (a <? 2))
  | Fpred, [d] => if d =? 1 then 0 else 2
  | Feval SCondition, [d] => b2n (n2b d)
  | Feval _, [d] => d
  | Fta TTrue, [] => 1
  | Fta TNot, [a] => b2n (negb (n2b a))
  | Fta TAnd, [a; b] => b2n (n2b a && n2b b)
  | Fta TOr, [a; b] => b2n (n2b a || n2b b)
  | Fta TImplies, [a; b] => b2n (implb (n2b a) (n2b b))
  | Fta TIff, [a; b] => b2n (Bool.eqb (n2b a) (n2b b))
  | Fta TEq, [a; b] => b2n (a =? b)
  | Fta TIte, [c; a; b] => if n2b c then a else b
  | _, _ => 0
  end.
Definition size109 (s : sort) : nat := match s with SBool => 1 | _ => 2 end.
Definition fint109 (s : fsym) (ds : list nat) : nat := Nat.min (match osort ex_sig109 s with Some o => size109 o | None => 2 end) (raw109 s ds).
Definition M109 : structure :=
  mkStructure nat (fun s d => d <= size109 s) b2n n2b n2b_b2n Nat.eqb Nat.eqb_eq (fun s p => fin_all (size109 s) p) (fun s p => fin_all_spec (size109 s) p) fint109.
(** Structures whose booleans are two, with a boolean [gt] and time points for steps. *)
Definition K109 (X : structure) : Prop :=
  (forall d, dom X SBool d -> exists b, d = dinj X b) /\ (forall ds, dom X SBool (fint X Fgt ds)) /\ forall j ds, dom X SStep (fint X (Fstep j) ds).

Lemma K109_invariant sks : invariant sks K109.
Proof.
  intros M fi (H1 & H2 & H3) [V1 V2 V3]. split; [exact H1|]. split; [exact V2|]. intros j ds. cbn. rewrite V1 by (intros []). apply H3.
Qed.
Lemma K109_M : K109 M109.
Proof.
  split; [|split].
  - intros d Hd. cbn in Hd. destruct d as [|[|d]]; [exists false; reflexivity|exists true; reflexivity|lia].
  - intros ds. exact (Nat.le_min_l 1 (raw109 Fgt ds)).
  - intros j ds. unfold M109, fint109. cbn [dom fint size109]. etransitivity; [apply Nat.le_min_l|]. do 8 (destruct j as [|j]; [cbn; lia|]). cbn. lia.
Qed.
Lemma trace109 : is_trace M109 0 [0; 1] 2.
Proof.
  assert (P : forall d, is_time M109 d -> d = 0 \/ d = 1 \/ d = 2) by (unfold is_time; cbn; lia).
  assert (N : forall i d, nth_error [0; 1] i = Some d <-> i = d /\ d < 2).
  { intros i d. split; [destruct i as [|[|i]]; cbn; [intros [= <-]; lia..|destruct i; discriminate]|]. intros [<- H]. destruct i as [|[|i]]; [reflexivity..|lia]. }
  split.
  - intros d. unfold is_time. cbn. lia.
  - cbn. lia.
  - repeat constructor; cbn; lia.
  - reflexivity.
  - intros d Hd. apply P in Hd as [->|[->| ->]]; unfold tholds; cbn; intuition (try discriminate; try lia).
  - intros a b Ha Hb. setoid_rewrite N. transitivity (a <= b /\ b < 2); [|split; [intros [H1 H2]; exists a, b; lia|intros (i & j & H1 & H2 & H3); lia]].
    apply P in Ha as [->|[->| ->]]; apply P in Hb as [->|[->| ->]]; unfold tholds; cbn; intuition (try discriminate; try lia).
  - intros a b Ha Hb. setoid_rewrite N. transitivity (a < b /\ b < 2); [|split; [intros [H1 H2]; exists a, b; lia|intros (i & j & H1 & H2 & H3); lia]].
    apply P in Ha as [->|[->| ->]]; apply P in Hb as [->|[->| ->]]; unfold tholds; cbn; intuition (try discriminate; try lia).
  - intros a b Ha Hb. apply P in Ha as [->|[->| ->]]; apply P in Hb as [->|[->| ->]]; cbn; solve [exists true; reflexivity|exists false; reflexivity].
  - intros i a b Ha Hb. apply N in Ha as [-> Ha]. apply N in Hb as [Hb Hb']. assert (a = 0) as -> by lia. assert (b = 1) as -> by lia. reflexivity.
  - reflexivity.
  - reflexivity.
Qed.
Definition steps109 (p : Source_Model.parts) : Prop := map (fun s => (ps_fun s, map vsort (ps_vars s))) (pa_steps p) = [(7, []); (6, [])].
Lemma args109 (ss : list sort) ds : args_of M109 ss ds -> Forall2 (fun s d => d <= size109 s) ss ds.
Proof. intros H. exact H. Qed.
Ltac args109 := repeat match goal with
  | H : args_of M109 _ _ |- _ => apply args109 in H
  | H : Forall2 _ [] _ |- _ => inversion H; clear H; subst
  | H : Forall2 _ (_ :: _) _ |- _ => inversion H; clear H; subst
  | H : ?d <= size109 _ |- _ => cbn in H; first [destruct d as [|[|d]]; [| |exfalso; lia]|destruct d as [|[|[|d]]]; [| | |exfalso; lia]]; clear H
  end.
Lemma execution109 p r table : r = RSymbolic -> steps109 p -> execution ex_sig109 table r (ex_whole109 p) M109.
Proof.
  intros -> S. split.
  - intros init l E. cbn in E. unfold steps109 in S. rewrite E in S. exists [0; 1], 2. injection S as -> _ _. exact trace109.
  - cbn [wp_gen gp_steps ex_whole109]. rewrite S. intros f ss g ss' ds ds' H1 H2 A A' _ E. cbn in H1, H2. destruct H1 as [[= <- <-]|[[= <- <-]|[]]]; destruct H2 as [[= <- <-]|[[= <- <-]|[]]]; inversion A; inversion A'; subst; auto; discriminate E.
  - cbn [wp_gen gp_steps ex_whole109]. rewrite S. intros d Hd Hh A. unfold is_time in Hd. cbn in Hd. destruct d as [|[|[|d]]]; [| | |lia].
    + apply (A 7 [] []); [left; reflexivity|constructor|reflexivity].
    + apply (A 6 [] []); [right; left; reflexivity|constructor|reflexivity].
    + discriminate Hh.
  - exists (fun _ _ => []). apply Forall_forall. intros f Hf. apply in_map_iff in Hf as (g & <- & Hg). cbn [wp_gen gp_funs gp_evs ex_whole109] in *.
    apply in_app_iff in Hg as [Hg|Hg]; cbn in Hg; repeat destruct Hg as [<-|Hg]; try destruct Hg; try exact I; cbn [classify ex_sig109 w_sig Evaluate_Spec.means]; intros; cbn [conn_args] in *; args109; try reflexivity.
    all: split; unfold truth; cbn; intros; congruence || reflexivity || (exfalso; auto).
  - intros d Hd. cbn in Hd. destruct d as [|[|[|d]]]; [reflexivity..|lia].
  - discriminate.
  - intros h s ds Hh. unfold M109, fint109. cbn [dom fint]. rewrite Hh. apply Nat.le_min_l.
  - intros []; cbn; lia.
  - exists (fun _ => 0). intros s. cbn. lia.
Qed.

Definition happens109 (j : nat) : formula := FFun Fhappens [FFun (Fstep j) []].
Definition is_name (t : term) : bool := match t with TVar _ => true | _ => false end.
Definition lines109 (fn : option fsym) : list eaxiom -> list Smt_Model.axm :=
  fix go (l : list eaxiom) : list Smt_Model.axm :=
    match l with
    | [] => []
    | [ABase f] => [Smt_Model.XQuery f]
    | ABase f :: l' => Smt_Model.XBase f :: go l'
    | ARewrite vs f g :: l' => Smt_Model.XRewrite fn vs f g :: go l'
    end.
Lemma lines109_ok fn q : forall l, lines (l ++ [ABase q]) (lines109 fn (l ++ [ABase q])) /\ forall f, In (ABase f) l -> In (Smt_Model.XBase f) (lines109 fn (l ++ [ABase q])).
Proof.
  induction l as [|a l [IH1 IH2]]; [split; [constructor|intros f []]|]. change ((a :: l) ++ [ABase q]) with (a :: (l ++ [ABase q])). destruct a as [f|vs f g]; cbn [lines109].
  - destruct (l ++ [ABase q]) as [|b m] eqn:E; [destruct l; discriminate|]. split; [constructor; [constructor|exact IH1]|]. intros f' [[= <-]|Hf]; [left; reflexivity|right; apply IH2; exact Hf].
  - split; [constructor; [constructor|exact IH1]|]. intros f' [Hf|Hf]; [discriminate|right; apply IH2; exact Hf].
Qed.
Definition file109 (p : Source_Model.parts) (pk : problem) :=
  whole_file ex_sig109 (table_of []) RSymbolic false true true (ex_anc101 (pa_cells p)) w_scmp 50 300 (asking (ex_whole109 p) pk) false false 0 0 100 File_Props.ex_le.
Definition holdsb (f : formula) (a : eaxiom) : bool := match a with ABase g => formula_eqb g f | _ => false end.
(** The file of a problem ends with [q] and has the axioms [fs] before. *)
Definition asks109 (p : Source_Model.parts) (pk : problem) (q : formula) (fs : list formula) : bool :=
  match file109 p pk, generate_assumptions ex_sig109 (table_of []) RSymbolic false true true (ex_anc101 (pa_cells p)) w_scmp 50 300 (asking (ex_whole109 p) pk) [] 0 100 with
  | Some (_, axs), Some out => match rev axs with a :: m => holdsb q a && forallb (fun f => existsb (holdsb f) m) fs | [] => false end && match o_axioms out with [] => true | _ => false end
  | _, _ => false
  end.
Definition kinds109 (_ : nat) : Search_Model.skind := Search_Model.KVampire 0.
Definition options109 : Smt_Model.smt_options := Smt_Model.mkOptions false false true false.
Lemma proved109 p pk q fs : asks109 p pk q fs = true -> counts_whole ex_sig109 (table_of []) (asking (ex_whole109 p) pk) ->
  (forall X (rho : env X), K109 X -> (forall f, In f fs -> holds f rho) -> holds q rho) ->
  proved ex_sig109 (table_of []) RSymbolic K109 (fun M _ s rho => Smt_Spec.sholds s rho) (asking (ex_whole109 p) pk) [] 0.
Proof.
  intros H C U. unfold asks109 in H. destruct (file109 p pk) as [[ds axs]|] eqn:F; [|discriminate].
  destruct (generate_assumptions _ _ _ _ _ _ _ _ _ _ _ _ _ _) as [out|] eqn:G; [|discriminate]. apply andb_true_iff in H as [H Ho].
  destruct (rev axs) as [|a m] eqn:Er; [discriminate|]. apply andb_true_iff in H as [Ha Hm]. destruct a as [g|]; [|discriminate]. apply formula_eqb_eq in Ha. subst g.
  apply (f_equal (@rev eaxiom)) in Er. rewrite rev_involutive in Er. cbn [rev] in Er. subst axs.
  destruct (lines109_ok None q (rev m)) as [L1 L2]. set (xs := lines109 None (rev m ++ [ABase q])) in *.
  assert (Hans : answers_cells (ex_anc101 (pa_cells p)) (wp_cells (asking (ex_whole109 p) pk))) by (intros x a ce [= <-] Hc; exact Hc).
  assert (Hfr : forall i, 100 <= i -> ~ In (Fuser i) (gp_funs (wp_gen (asking (ex_whole109 p) pk)))) by (intros i Hi Hin; cbn in Hin; repeat destruct Hin as [Hin|Hin]; try discriminate Hin; try contradiction; injection Hin as <-; lia).
  assert (HA : Forall Smt_Spec.axiom_arities xs) by (eapply lines_arities; [exact L1|]; apply Forall_forall; intros a Hin; eapply C108_arities; [exact F|exact C|exact Hans|exact Hfr|exact Hin]).
  destruct (Smt_Proofs.file_meaning kinds109 options109 xs HA) as (cs & E & HFM).
  exists false, true, true, (ex_anc101 (pa_cells p)), w_scmp, 50, 300, false, 0, 100, File_Props.ex_le, ds, (rev m ++ [ABase q]), out, xs, kinds109, options109, (cs ++ [Smt_Model.KCheckSat]).
  split; [exact F|]. split; [exact G|]. split; [destruct (o_axioms out); [reflexivity|discriminate]|]. split; [exact Hans|]. split; [exact Hfr|]. split; [exact L1|]. split; [exact E|].
  intros X KX rho S. destruct (HFM X (fun _ s rho => Smt_Spec.sholds s rho) rho) as [_ G2]. destruct (G2 S) as [Q2 A2]. specialize (A2 eq_refl). clear HFM G2 S.
  apply (Q2 q).
  - apply in_flat_map. exists (Smt_Model.XQuery q). split; [|left; reflexivity]. unfold xs. clear. induction (rev m) as [|a l IH]; [left; reflexivity|]. change ((a :: l) ++ [ABase q]) with (a :: (l ++ [ABase q])).
    destruct a; cbn [lines109]; [|right; exact IH]. destruct (l ++ [ABase q]) as [|b m'] eqn:E; [destruct l; discriminate|]. right. exact IH.
  - apply (U X rho KX). intros f Hf. rewrite forallb_forall in Hm. specialize (Hm f Hf). apply existsb_exists in Hm as (a & Ha & Hm). destruct a as [g|]; [|discriminate]. apply formula_eqb_eq in Hm. subst g.
    rewrite Forall_forall in A2. apply (A2 (Smt_Model.XBase f)). apply L2. apply -> in_rev. exact Ha.
Qed.

(** What is needed of the files. *)
Record facts109 (l : list item) (ls : list formula) (q : formula) (so : source) (p : Source_Model.parts) (s' : pst) : Prop := mkFacts109 {
  fa_steps : steps109 p;
  fa_qs : p_qs s' = [];
  fa_signatures : signaturesb ex_builtins109 (so_env so) [] ex_sig109 (BUILT_IN_FUNCTIONS ++ [Fstep 6; Fstep 7]) = true;
  fa_below : belowb (so_env so) 20 = true;
  fa_macros : d_macros (so_env so) = [];
  fa_bodies : forallb (fun e => match fc_step (entry_cache (snd e)) with Some st => is_name (st_msg st) && is_name (st_cond st) | None => true end) (d_funs (so_env so)) = true;
  fa_happens : option_map fc_kind (e_functions (penv_of (so_env so)) 80) = Some (SgFixed [SStep] SBool) /\ option_map fc_kind (e_functions (penv_of (so_env so)) 83) = Some (SgFixed [SStep; SStep] SBool);
  fa_orders : pa_orders p = [mkOrdering QForall [] (KLT (FFun (Fstep 7) []) (FFun (Fstep 6) [])) TRUE];
  fa_asserts : pa_asserts p = [happens109 6];
  fa_lemmas : pa_lemmas p = ls;
  fa_query : pa_query p = q;
  fa_values : forall mval, (forall o, In o (orders_of l) -> order_meaning (M:=M109) (penv_of (so_env so)) (fun _ _ _ => 0) mval o = true) /\
    (forall t, In t (asserts_of l) -> dtest M109 (Parser_Spec.value (M:=M109) (penv_of (so_env so)) (fun _ _ _ => 0) mval t REvaluated (fun _ => None)) = true)
}.
Lemma builtins109_fine : builtins Source_Props.ex_sorts ex_builtins109 ex_keywords.
Proof.
  split.
  - cbn; repeat (apply NoDup_cons; [cbn; intuition lia|]); apply NoDup_nil.
  - intros x s H. cbn in H |- *. repeat destruct H as [[= <- <-]|H]; auto 8.
  - cbn; repeat (apply NoDup_cons; [cbn; intuition lia|]); apply NoDup_nil.
  - cbn. intuition lia.
Qed.
(** The last items: lemmas and the query, on whether steps happen and come after each other. *)
Inductive simple109 : term -> Prop :=
| si_happens x : simple109 (TApp 80 [TVar x])
| si_gt x y : simple109 (TApp 83 [TVar x; TVar y])
| si_and a b : simple109 a -> simple109 b -> simple109 (TInfix OAnd [a; b]).
Definition tail109 (i : item) : Prop := match i with ILemma t | IQuery t => simple109 t | _ => False end.
Lemma simple_gentle env t : simple109 t -> gentle env true 0 t.
Proof. induction 1; constructor; intros u Hu; cbn in Hu; repeat destruct Hu as [<-|Hu]; try contradiction; try constructor; assumption. Qed.
Lemma simple_counted l ls q so p s' t : facts109 l ls q so p s' -> simple109 t -> counted (penv_of (so_env so)) t.
Proof.
  intros F H. pose proof (fa_happens _ _ _ _ _ _ F) as [F1 F2]. induction H; cbn; repeat split; auto.
  - intros r fc n Hd Ha. change (e_functions (penv_of (so_env so)) 80 = Some fc) in Hd. rewrite Hd in F1. cbn in F1. injection F1 as F1. rewrite F1 in Ha. injection Ha as <-. cbn. lia.
  - intros r fc n Hd Ha. change (e_functions (penv_of (so_env so)) 83 = Some fc) in Hd. rewrite Hd in F2. cbn in F2. injection F2 as F2. rewrite F2 in Ha. injection Ha as <-. cbn. lia.
Qed.
Lemma simple_everywhere (P : term -> Prop) t : simple109 t -> (forall x, P (TVar x)) -> (forall f args, f = 80 \/ f = 83 -> P (TApp f args)) -> (forall o ts, P (TInfix o ts)) -> everywhere P t.
Proof. intros H H1 H2 H3. induction H; cbn; repeat split; auto. Qed.
Lemma tail_tame tl : Forall tail109 tl -> tame_file Source_Props.ex_sorts ex_builtins109 (ex_items109 ++ tl).
Proof.
  intros HT. rewrite Forall_forall in HT.
  assert (T : forall i, In i (ex_items109 ++ tl) -> In i ex_items109 \/ tail109 i) by (intros i Hi; apply in_app_iff in Hi as [Hi|Hi]; [left|right]; auto).
  assert (N : forall f ss out, ~ In (IFun f ss out) (ex_items109 ++ tl)).
  { intros f ss out H. destruct (T _ H) as [Hi'|[]]. cbn in Hi'. repeat destruct Hi' as [Hi'|Hi']; try discriminate Hi'; try contradiction. }
  assert (B : forall f fc, f = 80 \/ f = 83 -> In (f, fc) ex_builtins109 -> fc_kind fc <> SgIte).
  { intros f fc Hf Hin E. cbn in Hin. repeat destruct Hin as [Hin|Hin]; try contradiction; injection Hin as <- <-; cbn in E; try discriminate E; destruct Hf as [Hf|Hf]; discriminate Hf. }
  split.
  - intros x fc H. cbn in H. repeat destruct H as [[= <- <-]|H]; try destruct H; (split; [reflexivity|]); (split; [reflexivity|]); cbn; try (left; reflexivity); right; cbn; repeat split; auto; intros [].
  - intros i x Hi Hx H. destruct (T i Hi) as [Hi'|Hi']; [|destruct i; try contradiction]. cbn in Hi'. repeat destruct Hi' as [<-|Hi']; try contradiction; destruct Hx.
  - intros x a Hi Hx H. destruct (T _ Hi) as [Hi'|[]]. cbn in Hi'. repeat destruct Hi' as [Hi'|Hi']; try discriminate Hi'; try contradiction. injection Hi' as <-. destruct Hx.
  - intros x n args out Hi Hx H. destruct (T _ Hi) as [Hi'|[]]. cbn in Hi'. repeat destruct Hi' as [Hi'|Hi']; try discriminate Hi'; try contradiction.
  - intros n args out Hi H. destruct (T _ Hi) as [Hi'|[]]. cbn in Hi'. repeat destruct Hi' as [Hi'|Hi']; try discriminate Hi'; try contradiction.
  - intros i t Hi Ht.
    destruct (T i Hi) as [Hi'|Hi'].
    + cbn in Hi'. repeat destruct Hi' as [<-|Hi']; try contradiction; cbn in Ht; repeat destruct Ht as [<-|Ht]; try contradiction; cbn; repeat split; auto; intros; [apply (B 80 fc); [auto|exact H]|repeat constructor].
    + destruct i; try contradiction; cbn in Hi', Ht; destruct Ht as [<-|[]]; (apply simple_everywhere; [exact Hi'|intros; exact I| |intros; exact I]); intros f args Hf; (split; [intros fc Hin; eapply B; eauto|intros ss out Hin; destruct (N _ _ _ Hin)]).
  - intros a t Hi Ht. destruct (T _ Hi) as [Hi'|[]]. cbn in Hi'. repeat destruct Hi' as [Hi'|Hi']; try discriminate Hi'; try contradiction. injection Hi' as <-. destruct Ht as [-> | ->]; apply la_body; exact (conj I I).
Qed.
Lemma read109 tl ls q so p s' : Forall tail109 tl -> facts109 (ex_items109 ++ tl) ls q so p s' -> declare_all Source_Props.ex_sorts ex_builtins109 ex_keywords false (ex_items109 ++ tl) = DOk so ->
  parse_parts so (d_funs (so_env so)) false 20 (mkPst [] [] []) = Parser_Model.Done p s' -> (forall f, In f (q :: happens109 6 :: ls) -> exists s args, f = FFun s args /\ forall o, s <> Feval o) ->
  read_from Source_Props.ex_sorts ex_builtins109 ex_keywords (ex_items109 ++ tl) so (d_funs (so_env so)) false 20 p s' ex_sig109 (ex_whole109 p).
Proof.
  intros HT F D H HF. split.
  - exact builtins109_fine.
  - exact D.
  - exact (tail_tame tl HT).
  - apply Forall_app. split; [|apply Forall_forall; intros i Hi; rewrite Forall_forall in HT; specialize (HT i Hi); destruct i; try contradiction; apply simple_gentle; exact HT].
    repeat constructor; cbn; auto; try (intros; discriminate). all: intros a [<-|[]]; constructor.
  - apply Forall_app. split; [|apply Forall_forall; intros i Hi; rewrite Forall_forall in HT; specialize (HT i Hi); destruct i; try contradiction; eapply simple_counted; eassumption].
    repeat apply Forall_cons; [exact I| | |constructor].
    + cbn. repeat split; try constructor; intros; discriminate.
    + eapply simple_counted; [eassumption|constructor].
  - apply Permutation_refl.
  - exact H.
  - split; [apply belowb_spec, (fa_below _ _ _ _ _ _ F)|lia].
  - split; cbn; auto; [apply incl_tl, incl_appl, incl_refl|apply incl_tl, incl_refl].
  - intros a [].
  - rewrite (fa_qs _ _ _ _ _ _ F). apply signaturesb_spec. exact (fa_signatures _ _ _ _ _ _ F).
  - split.
    + apply Forall_forall. intros f Hf. apply in_map_iff in Hf as (g & <- & Hg). cbn [wp_gen gp_funs ex_whole109] in Hg.
      apply in_app_iff in Hg as [Hg|Hg]; cbn in Hg; repeat destruct Hg as [<-|Hg]; try destruct Hg; try exact I; try reflexivity. split; reflexivity.
    + reflexivity.
    + intros ins out [= _ <-]. reflexivity.
  - intros f Hf. left. rewrite (fa_query _ _ _ _ _ _ F), (fa_asserts _ _ _ _ _ _ F), (fa_lemmas _ _ _ _ _ _ F) in Hf. destruct (HF f Hf) as (s & args & -> & Hs). intros E. cbn in E. destruct s; try contradiction. eapply Hs. reflexivity.
Qed.
Lemma counts109 tl ls q so p s' w : facts109 (ex_items109 ++ tl) ls q so p s' -> read_from Source_Props.ex_sorts ex_builtins109 ex_keywords (ex_items109 ++ tl) so (d_funs (so_env so)) false 20 p s' ex_sig109 (ex_whole109 p) ->
  assembled p w -> gp_funs (wp_gen w) = gp_funs (wp_gen (ex_whole109 p)) -> wp_assumptions w = [] -> counts_whole ex_sig109 (table_of []) w.
Proof.
  intros F [B D T G C P H [Bl Fu] A Ca S U Se] A' E1 E2. rewrite <- (fa_qs _ _ _ _ _ _ F). eapply C108_source; eauto; [rewrite E1; exact S|rewrite E2; intros a []].
Qed.
Lemma model109 l ls q so p s' : facts109 l ls q so p s' -> exists mval, model_of (penv_of (so_env so)) (p_qs s') l M109 (fun _ _ _ => 0) mval.
Proof.
  intros F. destruct (C14_calls_have_a_meaning (penv_of (so_env so)) (fun _ => 0)) with (M := M109) (qsem := fun (_ : qkind) (_ : list sort) (_ : list nat -> list nat) => 0) as (mval & Hm & _).
  - split.
    + intros m mc E. cbn in E. rewrite (fa_macros _ _ _ _ _ _ F) in E. discriminate.
    + intros b f fc st E Es. cbn in E. destruct (lookup f (d_funs (so_env so))) as [e|] eqn:L; [|discriminate]. injection E as <-. apply lookup_in in L.
      pose proof (fa_bodies _ _ _ _ _ _ F) as Bd. rewrite forallb_forall in Bd. specialize (Bd _ L). cbn [snd] in Bd. rewrite Es in Bd. apply andb_true_iff in Bd as [B1 B2].
      destruct b; [destruct (st_msg st)|destruct (st_cond st)]; try discriminate; split; exact I.
  - intros k ss F0 G0 _. reflexivity.
  - exists mval. destruct (fa_values _ _ _ _ _ _ F mval) as [V1 V2]. split; [exact Hm|intros k ss F0 G0 _; reflexivity| |exact V1|exact V2].
    rewrite (fa_qs _ _ _ _ _ _ F). intros [|i] t E; discriminate.
Qed.

Fixpoint directb (f : formula) : bool :=
  match f with
  | FVar _ => true
  | FFun s args => negb (match s with Fgt | Fskolem _ => true | _ => false end) && forallb directb args
  | FQ _ _ b => directb b
  end.
Lemma directb_spec f : directb f = true -> direct f.
Proof.
  induction f as [v|s args IH|q vs b IH] using formula_ind'; intros H p g l Hp.
  - inversion Hp.
  - cbn in H. apply andb_true_iff in H as [H1 H2]. rewrite forallb_forall in H2. rewrite Forall_forall in IH. inversion Hp; subst.
    + destruct g; cbn; auto; discriminate.
    + match goal with E : nth_error args _ = Some _ |- _ => apply nth_error_In in E; eapply (IH _ E); eauto end.
  - inversion Hp; subst. eapply IH; eauto.
Qed.

Definition lemma109 : problem := mkProblem [happens109 6; TRUE] [FFun (Fb CAnd) [happens109 7; happens109 6]] (happens109 7).
Definition query109 : problem := mkProblem [happens109 6; TRUE; happens109 7] [] (FFun (Fb CAnd) [happens109 7; happens109 6]).
Example C109_example : exists so p s' mval, let w := ex_whole109 p in
  read_from Source_Props.ex_sorts ex_builtins109 ex_keywords ex_file109 so (d_funs (so_env so)) false 20 p s' ex_sig109 w /\ direct_parts (p_qs s') p /\
  weaker (fun M _ s rho => Smt_Spec.sholds s rho) /\ (forall k, invariant (skolems_of ex_sig109 (table_of (p_qs s')) w k) K109) /\
  all_proved ex_sig109 (table_of (p_qs s')) RSymbolic K109 (fun M _ s rho => Smt_Spec.sholds s rho) w p true (fun _ => []) (fun _ => 0) /\
  K109 M109 /\ execution ex_sig109 (table_of (p_qs s')) RSymbolic w M109 /\ model_of (penv_of (so_env so)) (p_qs s') ex_file109 M109 (fun _ _ _ => 0) mval /\
  length (pa_lemmas p) = 1.
Proof.
  destruct (read_parts (declare_all Source_Props.ex_sorts ex_builtins109 ex_keywords false ex_file109) false 20 (fun so p s' =>
    facts109 ex_file109 [happens109 7] (FFun (Fb CAnd) [happens109 7; happens109 6]) so p s' /\
    asks109 p lemma109 (happens109 7) [happens109 7] = true /\ asks109 p query109 (FFun (Fb CAnd) [happens109 7; happens109 6]) [happens109 7; happens109 6] = true))
    as (so & p & s' & D & H & F & A1 & A2).
  { vm_compute. split; [|split; reflexivity]. split; try reflexivity; [split; reflexivity|]. intros mval. split; intros o [<-|[]]; reflexivity. }
  destruct (model109 _ _ _ _ _ _ F) as (mval & Mo).
  assert (R : read_from Source_Props.ex_sorts ex_builtins109 ex_keywords ex_file109 so (d_funs (so_env so)) false 20 p s' ex_sig109 (ex_whole109 p)).
  { eapply read109; [|exact F|exact D|exact H|].
    - repeat constructor.
    - intros f Hf. cbn in Hf. repeat destruct Hf as [<-|Hf]; try contradiction; do 2 eexists; (split; [reflexivity|discriminate]). }
  exists so, p, s', mval. split; [exact R|]. split; [|split; [|split; [|split; [|split; [|split; [|split]]]]]].
  - rewrite (fa_qs _ _ _ _ _ _ F). split.
    + intros [|k] q f E; discriminate E.
    + rewrite (fa_orders _ _ _ _ _ _ F). intros o [<-|[]]. apply directb_spec. reflexivity.
    + rewrite (fa_query _ _ _ _ _ _ F), (fa_asserts _ _ _ _ _ _ F), (fa_lemmas _ _ _ _ _ _ F). intros f Hf. apply directb_spec. cbn in Hf. repeat destruct Hf as [<-|Hf]; try contradiction; reflexivity.
  - intros M g s rho Hs. exact Hs.
  - intros k. apply K109_invariant.
  - rewrite (fa_qs _ _ _ _ _ _ F). intros k pk Hy. pose proof (asking_assembled _ _ _ _ _ (rf_assembled _ _ _ _ _ _ _ _ _ _ _ _ R) Hy) as Asm.
    assert (C : counts_whole ex_sig109 (table_of []) (asking (ex_whole109 p) pk)) by (eapply counts109; [exact F|exact R|exact Asm|reflexivity|reflexivity]).
    rewrite (fa_query _ _ _ _ _ _ F), (fa_asserts _ _ _ _ _ _ F), (fa_lemmas _ _ _ _ _ _ F) in Hy. destruct k as [|[|k]]; [| |destruct k; discriminate Hy].
    + apply (f_equal (fun o => match o with Some x => x | None => pk end)) in Hy. change (lemma109 = pk) in Hy. subst pk. eapply proved109; [exact A1|exact C|]. intros X rho _ Hx. apply Hx. left. reflexivity.
    + apply (f_equal (fun o => match o with Some x => x | None => pk end)) in Hy. change (query109 = pk) in Hy. subst pk. eapply proved109; [exact A2|exact C|]. intros X rho _ Hx.
      pose proof (Hx _ (or_introl eq_refl)) as Hi. pose proof (Hx _ (or_intror (or_introl eq_refl))) as Ha. unfold holds in *. cbn in Hi, Ha |- *. rewrite Hi, Ha, dtest_inj. reflexivity.
  - exact K109_M.
  - apply execution109; [reflexivity|exact (fa_steps _ _ _ _ _ _ F)].
  - exact Mo.
  - rewrite (fa_lemmas _ _ _ _ _ _ F). reflexivity.
Qed.

(** Full claim: the condition that nothing uses [gt] is not needed. It fails: because of the axiom of [gt] (C25) the prover proves that a step comes after itself. *)
Theorem C109_gt_refuted : exists bs bf kw l so es il fuel p s' sig w r b K ground crypto skolem,
  read_from bs bf kw l so es il fuel p s' sig w /\ weaker ground /\ (forall k, invariant (skolems_of sig (table_of (p_qs s')) w (skolem k)) K) /\
  all_proved sig (table_of (p_qs s')) r K ground w p b crypto skolem /\
  exists M qsem mval, K M /\ execution sig (table_of (p_qs s')) r w M /\ (forall k, assumed (skolems_of sig (table_of (p_qs s')) w (skolem k)) M (crypto k)) /\
    model_of (penv_of (so_env so)) (p_qs s') l M qsem mval /\ (forall x y, dom M SStep x -> dom M SStep y -> fint M Fgt [x; y] = fint M Flt [y; x]) /\
    exists t, In t (queries_of l) /\ dtest M (Parser_Spec.value (penv_of (so_env so)) qsem mval t REvaluated (fun _ => None)) = false.
Proof.
  destruct (read_parts (declare_all Source_Props.ex_sorts ex_builtins109 ex_keywords false ex_after109) false 20 (fun so p s' =>
    facts109 ex_after109 [] (FFun Fgt [FFun (Fstep 6) []; FFun (Fstep 6) []]) so p s' /\
    asks109 p (mkProblem [happens109 6] [] (FFun Fgt [FFun (Fstep 6) []; FFun (Fstep 6) []])) (FFun Fgt [FFun (Fstep 6) []; FFun (Fstep 6) []])
      [gt_axiom; mk_forall [sv 1; sv 2] (meq (fand (leq (st 1) (st 2)) (fnot (meq (st 1) (st 2)))) (lt (st 1) (st 2)))] = true /\
    forall mval, Parser_Spec.value (M:=M109) (penv_of (so_env so)) (fun _ _ _ => 0) mval (TApp 83 [TVar 45; TVar 45]) REvaluated (fun _ => None) = 0))
    as (so & p & s' & D & H & F & A & V).
  { vm_compute. split; [|split; [reflexivity|intros mval; reflexivity]]. split; try reflexivity; [split; reflexivity|]. intros mval. split; intros o [<-|[]]; reflexivity. }
  destruct (model109 _ _ _ _ _ _ F) as (mval & Mo).
  assert (R : read_from Source_Props.ex_sorts ex_builtins109 ex_keywords ex_after109 so (d_funs (so_env so)) false 20 p s' ex_sig109 (ex_whole109 p)).
  { eapply read109; [|exact F|exact D|exact H|].
    - repeat constructor.
    - intros f Hf. cbn in Hf. repeat destruct Hf as [<-|Hf]; try contradiction; do 2 eexists; (split; [reflexivity|discriminate]). }
  exists Source_Props.ex_sorts, ex_builtins109, ex_keywords, ex_after109, so, (d_funs (so_env so)), false, 20, p, s', ex_sig109, (ex_whole109 p), RSymbolic, false, K109, (fun M _ s rho => Smt_Spec.sholds s rho), (fun _ => []), (fun _ => 0).
  split; [exact R|]. split; [intros M g s rho Hs; exact Hs|]. split; [intros k; apply K109_invariant|]. split.
  - rewrite (fa_qs _ _ _ _ _ _ F). intros k pk Hy. pose proof (asking_assembled _ _ _ _ _ (rf_assembled _ _ _ _ _ _ _ _ _ _ _ _ R) Hy) as Asm.
    assert (C : counts_whole ex_sig109 (table_of []) (asking (ex_whole109 p) pk)) by (eapply counts109; [exact F|exact R|exact Asm|reflexivity|reflexivity]).
    rewrite (fa_query _ _ _ _ _ _ F), (fa_asserts _ _ _ _ _ _ F), (fa_lemmas _ _ _ _ _ _ F) in Hy. destruct k as [|k]; [|destruct k; discriminate Hy].
    apply (f_equal (fun o => match o with Some x => x | None => pk end)) in Hy. change (mkProblem [happens109 6] [] (FFun Fgt [FFun (Fstep 6) []; FFun (Fstep 6) []]) = pk) in Hy. subst pk.
    eapply proved109; [exact A|exact C|]. intros X rho (B1 & B2 & B3) Hx.
    pose proof (Hx _ (or_introl eq_refl)) as Hg. pose proof (Hx _ (or_intror (or_introl eq_refl))) as Hl. clear Hx.
    rewrite gt_axiom_iff in Hg. rewrite forall2 in Hl. set (a := fint X (Fstep 6) []). specialize (Hg a a (B3 6 []) (B3 6 [])). specialize (Hl a a (B3 6 []) (B3 6 [])).
    rewrite holds_meq in Hl. destruct (B1 _ (B2 [a; a])) as (t & Et). unfold holds. cbn. fold a. rewrite Et, dtest_inj. destruct t; [reflexivity|exfalso]. apply Hg. rewrite Et.
    cbn in Hl. rewrite <- Hl. assert (Ea : deq X a a = true) by (apply deq_spec; reflexivity).
    rewrite Ea, dtest_inj. cbn. rewrite dtest_inj, andb_false_r. reflexivity.
  - exists M109, (fun _ _ _ => 0), mval. split; [exact K109_M|]. split; [apply execution109; [reflexivity|exact (fa_steps _ _ _ _ _ _ F)]|].
    split; [intros k f V0 rho f0 []|]. split; [exact Mo|]. split; [|exists (TApp 83 [TVar 45; TVar 45]); split; [left; reflexivity|rewrite V; reflexivity]].
    intros x y _ _. reflexivity.
Qed.
Print Assumptions C109_gt_refuted.
