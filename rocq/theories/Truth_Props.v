(** C113. *)
From Coq Require Import List Arith Bool Lia.
From Verif Require Import Syntax_Model Sort_Model Parser_Model Parser_Base_Proofs Parser_Spec Parser_Proofs Parser_More_Proofs Source_Model Source_Props Source_Closed_Props Arity_Source_Spec Arity_Props Arity_Source_Props Truth_Spec Truth_Proofs.
From Verif Require Parser_Props.
Import ListNotations.

(** A single assertion. *)
Theorem C113_assertion_partial : forall env fuel t s f s', parse_assert env fuel t s = Done f s' -> ~ not_truth env t.
Proof. intros env fuel t s f s' H Ht. exact (never_assert env t Ht fuel s f s' H). Qed.
Print Assumptions C113_assertion_partial.

(** If a file is accepted, its assertions, its query and, unless they are ignored, its lemmas are no terms of another sort by their outermost
    construct. Missing: variables, and terms whose sort is known from their arguments only. *)
Theorem C113_file_partial : forall so es il fuel s p s', parse_parts so es il fuel s = Done p s' ->
  (forall t, In t (so_asserts so) -> ~ not_truth (penv_of (so_env so)) t) /\ ~ not_truth (penv_of (so_env so)) (so_query so) /\
  (il = false -> forall t, In t (so_lemmas so) -> ~ not_truth (penv_of (so_env so)) t).
Proof.
  intros so es il fuel s p s' H. unfold parse_parts in H. apply bind_done in H as (x & s1 & _ & H). apply bind_done in H as (asserts & s2 & H1 & H).
  apply bind_done in H as (query & s3 & H2 & H). apply bind_done in H as (crypto & s4 & _ & H). apply bind_done in H as (lemmas & s5 & H3 & _). split; [|split].
  - intros t Ht Hn. exact (mapMM_none _ _ t Ht (never_assert _ t Hn fuel) _ _ _ H1).
  - intros Hn. exact (never_assert _ _ Hn _ _ _ _ H2).
  - intros -> t Ht Hn. exact (mapMM_none _ _ t Ht (never_assert _ t Hn fuel) _ _ _ H3).
Qed.
Print Assumptions C113_file_partial.

(** A file that is accepted. With [true && f(c, c)] or [try find such that true then c else c] as query or assertion it is not; as lemma only if lemmas are ignored. *)
Example C113_example :
  (let bad := TInfix OAnd [TVar n_true; TApp Parser_Props.n_f [TVar Parser_Props.n_c; TVar Parser_Props.n_c]] in
   not_truth (Parser_Props.xenv false) bad /\ parse_assert (Parser_Props.xenv false) 9 bad Parser_Props.s0 = Error) /\
  exists so p s', declare_all ex_sorts ex_builtins101 ex_keywords false ex_file108 = DOk so /\ parse_parts so (d_funs (so_env so)) false 20 (mkPst [] [] []) = Done p s' /\
    so_asserts so <> [] /\
    let bad := TFind [] (TVar n_true) (TMac 0 []) (TMac 0 []) in
    let good := TVar n_true in
    let result a q l il := parse_parts (mkSource (so_env so) a l (so_orders so) (so_crypto so) q) (d_funs (so_env so)) il 20 (mkPst [] [] []) in
    not_truth (penv_of (so_env so)) bad /\
    result [bad] good [] false = Error /\ result [good] bad [] false = Error /\ result [good] good [bad] false = Error /\ exists p' s1, result [good] good [bad] true = Done p' s1.
Proof.
  split.
  { cbv zeta. split; [|reflexivity]. eapply nt_infix; [left; reflexivity|right; left; reflexivity|]. eapply nt_app with (o := SMessage); [|discriminate|discriminate].
    split; [cbn; intuition discriminate|]. do 4 eexists. reflexivity. }
  destruct (read_parts (declare_all ex_sorts ex_builtins101 ex_keywords false ex_file108) false 20 (fun so p s' =>
    let bad := TFind [] (TVar n_true) (TMac 0 []) (TMac 0 []) in
    let good := TVar n_true in
    let result a q l il := parse_parts (mkSource (so_env so) a l (so_orders so) (so_crypto so) q) (d_funs (so_env so)) il 20 (mkPst [] [] []) in
    let wrong (x : outcome parts) := match x with Error => True | _ => False end in
    match so_asserts so with [] => False | _ => True end /\
    wrong (result [bad] good [] false) /\ wrong (result [good] bad [] false) /\ wrong (result [good] good [bad] false) /\
    match result [good] good [bad] true with Done _ _ => True | _ => False end))
    as (so & p & s' & D & H & S & A & B & C & E); [vm_compute; repeat split; reflexivity|].
  exists so, p, s'. split; [exact D|]. split; [exact H|]. split; [intros N; rewrite N in S; exact S|]. cbv zeta in A, B, C, E |- *. split; [constructor|].
  split; [destruct (parse_parts _ _ _ _ _) eqn:X in A; try contradiction; exact X|]. split; [destruct (parse_parts _ _ _ _ _) eqn:X in B; try contradiction; exact X|].
  split; [destruct (parse_parts _ _ _ _ _) eqn:X in C; try contradiction; exact X|]. destruct (parse_parts _ _ _ _ _) as [| | |p' s1] eqn:X in E; try contradiction. exists p', s1. exact X.
Qed.

(** Variables: a formula [forall .., x. x] is only accepted for variables of truth values, a constant only if it is one. *)
Theorem C113_variable_partial : forall env fuel q vs x ty s f s', e_shadowing env = false -> parse_assert env fuel (TQuant q vs (TVar x)) s = Done f s' -> In (x, ty) vs ->
  e_sorts env ty = Some SBool \/ e_sorts env ty = Some SCondition.
Proof.
  intros env fuel q vs x ty s f s' Hs H Hx. unfold parse_assert in H. apply bind_done in H as (u & s1 & H1 & H). cbn in H1. injection H1 as _ <-.
  destruct fuel as [|fuel]; [discriminate|]. cbn [parse parse_step] in H. unfold parse_quant in H. apply bind_done in H as (y & s1 & H1 & H). cbn in H1. injection H1 as _ <-.
  apply bind_done in H as (bn & s1 & H1 & H). cbn in H1. injection H1 as <- <-. apply bind_done in H as (vars & s2 & H2 & H). apply bind_done in H as (c & s3 & H & _).
  pose proof (bindings_fresh _ _ _ _ _ H2 Hs) as [Hn Hf]. destruct (Hf _ _ Hx) as (_ & _ & Ht). pose proof (bindings_good _ _ _ _ _ H2) as (B & _ & Bd & _). cbn [p_bv length app] in B, Bd.
  assert (F : exists e, find (fun e => Nat.eqb (fst e) x) (p_bv s2) = Some e /\ Some (vsort (snd e)) = e_sorts env ty).
  { rewrite B. clear B H H2 Hf. revert vars Bd. generalize 0 as n. induction vs as [|[z tz] vs IH]; intros n vars Bd; [destruct Hx|]. destruct vars as [|v vars]; [destruct Bd|]. destruct Bd as [-> Bd].
    cbn [map combine find fst]. inversion Hn as [|? ? Hz Hn']; subst. destruct Hx as [[= -> ->]|Hx].
    - rewrite Nat.eqb_refl. eexists. split; [reflexivity|]. cbn. unfold sort_named. destruct (e_sorts env ty); [reflexivity|contradiction].
    - destruct (Nat.eqb_spec z x) as [->|_]; [contradiction Hz; apply in_map_iff; exists (x, ty); auto|]. exact (IH Hx Hn' _ _ Bd). }
  destruct F as ([x' v] & F & <-). cbn [snd]. destruct fuel as [|fuel]; [discriminate|]. cbn [parse parse_step] in H. unfold parse_const_var in H. apply bind_done in H as (b & s4 & H4 & H). cbn in H4. injection H4 as <- <-.
  rewrite F in H. unfold parse_variable in H. destruct (vsort v); auto; cbn in H; discriminate.
Qed.
Print Assumptions C113_variable_partial.
Theorem C113_constant_partial : forall env fuel c o s f s', yields env c o -> parse_assert env fuel (TVar c) s = Done f s' -> o = SBool \/ o = SCondition.
Proof.
  intros env fuel c o s f s' (Hc & g & a & k & st & He) H. unfold parse_assert in H. apply bind_done in H as (u & s1 & H1 & H). cbn in H1. injection H1 as _ <-.
  destruct fuel as [|fuel]; [discriminate|]. cbn [parse parse_step] in H. unfold parse_const_var in H. apply bind_done in H as (b & s4 & H4 & H). cbn in H4. injection H4 as <- <-. cbn [find] in H.
  destruct (sort_eq_dec o SBool) as [->|N1]; [auto|]. destruct (sort_eq_dec o SCondition) as [->|N2]; [auto|]. exfalso.
  apply bind_done in H as (fc & s1 & Hg & H). unfold get_function_mow in Hg.
  assert (E : forall n, In n [n_true; n_True; n_false; n_False; n_not] -> Nat.eqb c n = false) by (intros n Hn; apply Nat.eqb_neq; intros ->; contradiction).
  rewrite !E in Hg by (cbn; tauto). cbn [orb] in Hg. rewrite He in Hg. injection Hg as <- <-. revert H. exact (app_out _ (mkFc g (SgFixed a o) k st) _ a o eq_refl N1 N2 _ _ _).
Qed.
Print Assumptions C113_constant_partial.
Example C113_variable_example : let q ty x := TQuant QForall [(Parser_Props.n_y, Parser_Props.t_msg); (Parser_Props.n_x, ty)] (TVar x) in
  (exists f s', parse_assert (Parser_Props.xenv false) 9 (q Parser_Props.t_bool Parser_Props.n_x) Parser_Props.s0 = Done f s') /\
  parse_assert (Parser_Props.xenv false) 9 (q Parser_Props.t_bool Parser_Props.n_y) Parser_Props.s0 = Error /\
  parse_assert (Parser_Props.xenv false) 9 (q Parser_Props.t_idx Parser_Props.n_x) Parser_Props.s0 = Error /\
  yields (Parser_Props.xenv false) Parser_Props.n_c SMessage /\ parse_assert (Parser_Props.xenv false) 9 (TVar Parser_Props.n_c) Parser_Props.s0 = Error.
Proof.
  cbv zeta. split; [do 2 eexists; reflexivity|]. split; [reflexivity|]. split; [reflexivity|]. split; [|reflexivity]. split; [cbn; intuition discriminate|]. do 4 eexists. reflexivity.
Qed.
