(** C101: what a file needs for its assertions to be sentences is a property of its text. *)
From Coq Require Import List Arith Bool Lia Permutation.
From Verif Require Import Syntax_Model Syntax_Proofs Sort_Model Traversal_Spec Semantics_Spec Order_Model Macro_Model Parser_Model Parser_Spec Evaluate_Model File_Model Expander_Props
  Assumption_Model Assumption_Spec Assumption_Props Sentence_Spec Sentence_Proofs Sentence_Props Source_Model Source_Spec Source_Closed_Spec Source_Props Source_Closed_Proofs Source_Closed_More_Proofs.
From Verif Require File_Props Expander_Spec Semantics_Proofs.
Import ListNotations.

(** The steps, cells, orders, assertions and quantifiers read from an accepted file without let but around the conditions and messages of its steps, that puts no formula of the logic inside
    a message, have no variable out of scope, whatever the order in which the table of functions is read. *)
Theorem C101_scoped_partial :
  forall bs bf kw sh l so es il fuel p s' w, builtins bs bf kw -> tame_file bs bf l -> declare_all bs bf kw sh l = DOk so ->
    Permutation es (d_funs (so_env so)) -> parse_parts so es il fuel (mkPst [] [] []) = Done p s' -> assembled p w ->
    scoped_whole (table_of (p_qs s')) w.
Proof. exact file_scoped. Qed.
Print Assumptions C101_scoped_partial.

(** The assertions written for such a file are then sentences. *)
Theorem C101_sentences_partial :
  forall bs bf kw sh l so es il fuel p s' w, builtins bs bf kw -> tame_file bs bf l -> declare_all bs bf kw sh l = DOk so ->
    Permutation es (d_funs (so_env so)) -> parse_parts so es il fuel (mkPst [] [] []) = Done p s' -> assembled p w ->
    forall sig r vampire_flag defined preprocess anc scmp mfuel fuel' no_bitstring legacy skolem n split le ds axs,
      whole_file sig (table_of (p_qs s')) r vampire_flag defined preprocess anc scmp mfuel fuel' w no_bitstring legacy skolem n split le = Some (ds, axs) ->
      answers_cells anc (wp_cells w) -> keys_covered w -> forall a, In a axs -> closed_axiom a.
Proof.
  intros bs bf kw sh l so es il fuel p s' w B T D P H A sig r vf defined pre anc scmp mfuel fuel' nb legacy skolem n split le ds axs W Ha Hk a Hin.
  eapply C96_sentences_partial; [exact W| |exact Ha|exact Hk|exact Hin]. eapply file_scoped; eauto.
Qed.
Print Assumptions C101_sentences_partial.

(** A file with a [find] in a message, quantifiers in a condition and a query, lets around conditions and messages, a cell, a macro and a lemma on the condition of a step. *)
Definition ex_builtins101 : list (name * fcache) :=
  ex_builtins ++ [(80, fc_builtin Fhappens (SgFixed [SStep] SBool)); (81, fc_builtin Fite SgIte); (82, AND_CACHE)].
Definition ex_file101 : list item :=
  [ IType 50; IFun 40 [22; 22] 22; IFun 41 [50] 25; ICell 43 [50] 22;
    IStep (mkStepAst 44 [(61, 50)] (TQuant QExists [(63, 50)] (TInfix OEq [TVar 5; TApp 41 [TVar 63]]))
             (TFind [(63, 50)] (TInfix OEq [TApp 41 [TVar 63]; TVar 5]) (TApp 40 [TApp 41 [TVar 61]; TApp 41 [TVar 63]]) (TVar 7))
             [mkAsgAst (Some [(62, 50)]) 43 [TVar 62] (TApp 40 [TVar 5; TApp 41 [TVar 62]])]);
    IStep (mkStepAst 45 [] (TLet 60 22 (TApp 40 [TVar 5; TVar 7]) (TLet 69 22 (TApp 40 [TVar 60; TVar 5]) (TQuant QExists [(63, 50)] (TInfix OEq [TVar 69; TApp 41 [TVar 63]]))))
             (TLet 60 22 (TVar 5) (TApp 40 [TVar 60; TVar 60])) []);
    ILet 70 [(60, 50); (69, 22)] (TInfix OEq [TApp 40 [TVar 69; TApp 41 [TVar 60]]; TVar 69]);
    ILemma (TQuant QForall [(64, 50)] (TInfix OImplies [TStepMac false 44 (Some [TVar 64]); TInfix OOr [TApp 80 [TApp 44 [TVar 64]]; TMac 70 [TVar 64; TApp 41 [TVar 64]]]]));
    IAssert (TQuant QForall [(65, 50); (66, 22)] (TMac 70 [TVar 65; TVar 66]));
    IQuery (TQuant QForall [(64, 50)] (TInfix OImplies [TApp 80 [TApp 44 [TVar 64]]; TQuant QExists [(67, 50)] (TInfix OEq [TFind [(68, 50)] (TInfix OEq [TApp 41 [TVar 68]; TApp 41 [TVar 67]]) (TApp 41 [TVar 64]) (TVar 7); TApp 41 [TVar 67]])])) ].
Definition ex_sig101 (f : fsym) : option (list sort * sort) :=
  match f with
  | Fuser 0 => Some ([], SMessage)
  | Fuser 5 => Some ([SMessage; SMessage], SMessage)
  | Fname 6 => Some ([SIndex 6], SName)
  | Fcell 7 => Some ([SIndex 6; SStep], SMessage)
  | Fstep 8 => Some ([SIndex 6], SStep)
  | Fstep 9 => Some ([], SStep)
  | Fstep 10 => Some ([], SStep)
  | Fquant 0 => Some ([SMessage; SIndex 6], SMessage)
  | Fquant 1 | Fquant 2 => Some ([SMessage], SCondition)
  | Fquant 3 => Some ([SIndex 6; SIndex 6], SMessage)
  | Fuser _ | Fname _ | Fcell _ | Fstep _ | Fquant _ => None
  | _ => w_sig f
  end.
Definition ex_whole101 (p : parts) : whole_problem :=
  mkWhole (mkGen (BUILT_IN_SORTS ++ [SIndex 6]) (BUILT_IN_FUNCTIONS ++ [Fuser 5; Fname 6; Fcell 7; Fstep 8; Fstep 9; Fstep 10; Fquant 0; Fquant 1; Fquant 2; Fquant 3]) [SMessage; SCondition]
             (pa_steps p) (pa_orders p) (pa_asserts p) (pa_query p)) (pa_cells p) [AUnfolding true true; ANonce; ACell] (pa_lemmas p) [].
Lemma ex_assembled101 p : assembled p (ex_whole101 p).
Proof. split; cbn; auto; [apply incl_tl, incl_appl, incl_refl|apply incl_tl, incl_refl]. Qed.
Lemma ex_builtins101_fine : builtins ex_sorts ex_builtins101 ex_keywords.
Proof.
  split.
  - cbn; repeat (apply NoDup_cons; [cbn; intuition lia|]); apply NoDup_nil.
  - intros x s H. cbn in H |- *. repeat destruct H as [[= <- <-]|H]; auto 8.
  - cbn; repeat (apply NoDup_cons; [cbn; intuition lia|]); apply NoDup_nil.
  - cbn. intuition lia.
Qed.
Definition ex_call101 (u : term) : Prop :=
  match u with
  | TLet _ _ _ _ => False
  | TApp f args => f <> 81 /\ (f = 41 -> Forall simple args)
  | TStepMac _ f (Some args) => f = 44 /\ Forall simple args
  | TStepMac _ _ None => False
  | TMac m args => exists t1 t2, args = [t1; t2] /\ simple t1 /\ match t2 with TVar f | TApp f _ => f = 66 \/ f = 41 | _ => False end
  | _ => True
  end.
Lemma ex_calls101 u : ex_call101 u -> tame_call ex_sorts ex_builtins101 ex_file101 u.
Proof.
  destruct u as [| | | | |f args| |m f [args|]|m args]; auto; [| |intros []|].
  * intros [H1 H2]. split.
    -- intros fc Hf. cbn in Hf. repeat destruct Hf as [[= E <-]|Hf]; try contradiction; try discriminate. elim H1. auto.
    -- intros ss out Hf. cbn in Hf. repeat destruct Hf as [Hf|Hf]; try discriminate Hf; try contradiction; injection Hf as <- <- <-; auto. cbn. intuition discriminate.
  * intros [-> H]. split; [exact H|]. intros a Hi E. cbn in Hi. repeat destruct Hi as [Hi|Hi]; try discriminate Hi; try contradiction; injection Hi as <-; try discriminate E. cbn. repeat split.
  * intros (t1 & t2 & -> & S & F) params body j x u Hl Hx Hu. cbn in Hl. repeat destruct Hl as [Hl|Hl]; try discriminate Hl; try contradiction. injection Hl as <- <- <-.
    destruct j as [|[|j]]; cbn in Hx, Hu; [| |destruct j; discriminate]; injection Hx as <-; injection Hu as <-.
    -- split; [intros [H|H]; cbn in H; intuition discriminate|intros _; exact S].
    -- split; [intros _|intros H; elim H; left; cbn; auto].
       destruct t2; try contradiction; destruct F as [-> | ->]; (split; [intros fc k H; cbn in H; intuition congruence|]); intros ss out H; cbn in H; repeat destruct H as [H|H]; try discriminate H; try contradiction; injection H as <- <-; cbn; auto 8.
Qed.
Lemma ex_tame101 : tame_file ex_sorts ex_builtins101 ex_file101.
Proof.
  split.
  - intros x fc H. cbn in H. repeat destruct H as [[= <- <-]|H]; try destruct H; (split; [reflexivity|]); (split; [reflexivity|]); cbn; try (left; reflexivity); right; cbn; repeat split; auto; intros [].
  - intros i x Hi Hx H. cbn in Hi. repeat destruct Hi as [<-|Hi]; try contradiction; cbn in Hx; repeat destruct Hx as [<-|Hx]; try contradiction; cbn in H; intuition congruence.
  - intros x a Hi Hx H. cbn in Hi. repeat destruct Hi as [Hi|Hi]; try discriminate Hi; try contradiction; injection Hi as <-; cbn in Hx; repeat destruct Hx as [<-|Hx]; try contradiction; cbn in H; intuition congruence.
  - intros x n args out Hi Hx H. cbn in Hi. repeat destruct Hi as [Hi|Hi]; try discriminate Hi; try contradiction. injection Hi as <- <- <-. destruct Hx as [<-|[]]. cbn in H. intuition congruence.
  - intros n args out Hi H. cbn in Hi. repeat destruct Hi as [Hi|Hi]; try discriminate Hi; try contradiction; injection Hi as <- <- <-; cbn in H; intuition congruence.
  - intros i t Hi Ht. apply everywhere_impl with (P := ex_call101); [exact ex_calls101|].
    cbn in Hi. repeat destruct Hi as [<-|Hi]; try contradiction; cbn in Ht; repeat destruct Ht as [<-|Ht]; try contradiction; cbn; repeat split; auto; try discriminate; intros;
      try (repeat (apply Forall_cons; [exact I|]); apply Forall_nil); do 2 eexists; (split; [reflexivity|]); cbn; auto.
  - intros a t Hi Ht. cbn in Hi. repeat destruct Hi as [Hi|Hi]; try discriminate Hi; try contradiction; injection Hi as <-; destruct Ht as [-> | ->]; cbn [sa_cond sa_msg].
    3: apply la_let; [cbn; auto|cbn; repeat split; discriminate|apply everywhere_impl with (P := ex_call101); [exact ex_calls101|cbn; repeat split; auto; discriminate]|split; cbn; intuition discriminate|].
    3: apply la_let; [cbn; auto|cbn; repeat split; discriminate|apply everywhere_impl with (P := ex_call101); [exact ex_calls101|cbn; repeat split; auto; discriminate]|split; cbn; intuition discriminate|].
    4: apply la_let; [cbn; auto|cbn; repeat split; discriminate|apply everywhere_impl with (P := ex_call101); [exact ex_calls101|cbn; repeat split; auto; discriminate]|split; cbn; intuition discriminate|].
    all: apply la_body; apply everywhere_impl with (P := ex_call101); [exact ex_calls101|]; cbn; repeat split; auto; try discriminate; intros; repeat (apply Forall_cons; [exact I|]); apply Forall_nil.
Qed.

Lemma read_parts (r : dres source) il fuel (Q : source -> parts -> pst -> Prop) :
  match r with DOk so => match parse_parts so (d_funs (so_env so)) il fuel (mkPst [] [] []) with Done p s => Q so p s | _ => False end | _ => False end ->
  exists so p s, r = DOk so /\ parse_parts so (d_funs (so_env so)) il fuel (mkPst [] [] []) = Done p s /\ Q so p s.
Proof. destruct r as [| |so]; try contradiction. destruct (parse_parts _ _ _ _ _) as [| | |p s] eqn:E; try contradiction. eauto 8. Qed.
Definition ex_anc101 (cs : list mcell) (_ : Graph_Model.mref) : option Graph_Model.ancestors := Some (Graph_Model.mkAnc true cs).
Example C101_example :
  builtins ex_sorts ex_builtins101 ex_keywords /\ tame_file ex_sorts ex_builtins101 ex_file101 /\
  exists so p s', declare_all ex_sorts ex_builtins101 ex_keywords false ex_file101 = DOk so /\
    parse_parts so (d_funs (so_env so)) false 20 (mkPst [] [] []) = Done p s' /\
    (length (p_qs s') = 4 /\ match whole_file ex_sig101 (table_of (p_qs s')) RSymbolic false true true (ex_anc101 (pa_cells p)) w_scmp 50 300 (ex_whole101 p) false false 0 0 100 File_Props.ex_le with
                             | Some (_, axs) => length axs = 72
                             | None => False
                             end).
Proof.
  split; [exact ex_builtins101_fine|]. split; [exact ex_tame101|]. apply read_parts. vm_compute. split; reflexivity.
Qed.
Example C101_example_conditions : forall p, assembled p (ex_whole101 p) /\ answers_cells (ex_anc101 (pa_cells p)) (wp_cells (ex_whole101 p)) /\ keys_covered (ex_whole101 p).
Proof.
  intros p. split; [apply ex_assembled101|]. split; [intros x a ce [= <-] H; exact H|]. intros enc dec fail m n l k i Hin. cbn in Hin. repeat destruct Hin as [Hin|Hin]; try discriminate Hin; contradiction.
Qed.

Fixpoint quantified (f : formula) : bool := match f with FVar _ => false | FFun _ args => existsb quantified args | FQ _ _ _ => true end.
Lemma quantified_spec : forall f, quantified f = true -> ~ Expander_Spec.plain f.
Proof.
  intros f H P. assert (E : exists p q vs b, at_path f p (FQ q vs b)); [|destruct E as (p & q & vs & b & E); exact (P p q vs b E)].
  clear P. induction f as [v|s args IH|q vs b IH] using formula_ind'; [discriminate| |exists [], q, vs, b; constructor].
  cbn in H. apply existsb_exists in H as (a & Ha & H). rewrite Forall_forall in IH. destruct (IH a Ha H) as (p & q & vs & b & Hp).
  apply In_nth_error in Ha as (n & Hn). exists (n :: p), q, vs, b. econstructor; eauto.
Qed.

(** Without the condition on calls it is false: the [ite] of the logic is a function like any other, and takes a quantified formula into a message, *)
Definition ex_ite101 : list item :=
  [ IType 50; IFun 41 [50] 25;
    IStep (mkStepAst 44 [(61, 50)] (TVar 8) (TApp 81 [TApp 82 [TApp 80 [TApp 44 [TVar 61]]; TQuant QExists [(63, 50)] (TInfix OEq [TVar 5; TApp 41 [TVar 63]])]; TVar 5; TVar 7]) []);
    IQuery (TVar 0) ].
Theorem C101_scoped_refuted :
  exists l so p s', builtins ex_sorts ex_builtins101 ex_keywords /\ declare_all ex_sorts ex_builtins101 ex_keywords false l = DOk so /\
    parse_parts so (d_funs (so_env so)) false 20 (mkPst [] [] []) = Done p s' /\
    (exists s, In s (pa_steps p) /\ ~ Expander_Spec.plain (ps_msg s)) /\ forall w, assembled p w -> ~ scoped_whole (table_of (p_qs s')) w.
Proof.
  exists ex_ite101.
  destruct (read_parts (declare_all ex_sorts ex_builtins101 ex_keywords false ex_ite101) false 20 (fun _ p _ => existsb (fun s => quantified (ps_msg s)) (pa_steps p) = true)) as (so & p & s' & D & H & E);
    [vm_compute; reflexivity|].
  apply existsb_exists in E as (s & Hs & E). apply quantified_spec in E. exists so, p, s'. split; [exact ex_builtins101_fine|]. split; [exact D|]. split; [exact H|]. split; [eauto|].
  intros w A S. apply E. rewrite <- (am_steps _ _ A) in Hs. destruct (sw_steps _ _ S s Hs) as [Hm Hc]. apply Hm.
Qed.
Print Assumptions C101_scoped_refuted.

(** and an index that is a conditional takes one under the symbol of a name. *)
Definition ex_name101 : list item :=
  [ IType 50; IFun 41 [50] 25;
    IQuery (TQuant QForall [(61, 50); (62, 50)]
      (TInfix OEq [TApp 41 [TIf (TQuant QExists [(63, 50)] (TInfix OEq [TApp 41 [TVar 61]; TApp 41 [TVar 63]])) (TVar 61) (TVar 62)]; TVar 7])) ].
Theorem C101_names_refuted :
  exists l so p s', declare_all ex_sorts ex_builtins101 ex_keywords false l = DOk so /\
    parse_parts so (d_funs (so_env so)) false 20 (mkPst [] [] []) = Done p s' /\ ~ sorted_terms (pa_query p).
Proof.
  exists ex_name101.
  destruct (read_parts (declare_all ex_sorts ex_builtins101 ex_keywords false ex_name101) false 20
    (fun _ p _ => exists q vs e args rest, pa_query p = FQ q vs (FFun (Fb CEq) (FFun (Feval SMessage) args :: e :: rest)) /\ existsb quantified args = true)) as (so & p & s' & D & H & q & vs & e & args & rest & E & Q);
    [vm_compute; do 5 eexists; split; reflexivity|].
  exists so, p, s'. split; [exact D|]. split; [exact H|]. intros S. rewrite E in S.
  apply (quantified_spec (FFun (Feval SMessage) args) Q). apply (S [0; 0]); [|left; exact I]. constructor. econstructor; [reflexivity|]. constructor.
Qed.
Print Assumptions C101_names_refuted.

(** With lets elsewhere it is false: a variable that a let binds can be used after the let, and is then bound by nothing. *)
Definition ex_let101 : list item := [ IQuery (TInfix OEq [TLet 60 22 (TVar 7) (TVar 60); TVar 60]) ].
Theorem C101_lets_refuted :
  exists l so p s', declare_all ex_sorts ex_builtins101 ex_keywords false l = DOk so /\
    parse_parts so (d_funs (so_env so)) false 20 (mkPst [] [] []) = Done p s' /\ ~ sentence (pa_query p) /\ forall w, assembled p w -> ~ scoped_whole (table_of (p_qs s')) w.
Proof.
  exists ex_let101.
  destruct (read_parts (declare_all ex_sorts ex_builtins101 ex_keywords false ex_let101) false 20
    (fun _ p _ => (exists e rest v, pa_query p = FFun (Fb CEq) (e :: FFun (Feval SMessage) [FVar v] :: rest)) /\ pa_lemmas p = [])) as (so & p & s' & D & H & (e & rest & v & E) & L);
    [vm_compute; split; [do 3 eexists|]; reflexivity|].
  assert (O : ~ sentence (pa_query p)).
  { intros S. apply (S (vid v)). rewrite E. eapply Semantics_Proofs.occurs_free_fun; [right; left; reflexivity|]. eapply Semantics_Proofs.occurs_free_fun; [left; reflexivity|].
    exists [], v. split; [constructor|]. split; [reflexivity|]. intros B. inversion B. }
  exists so, p, s'. split; [exact D|]. split; [exact H|]. split; [exact O|]. intros w A S. apply O. pose proof (am_query _ _ A) as Q. rewrite L in Q. destruct Q as [Q|[]].
  rewrite Q. apply (sw_asserts _ _ S). apply in_app_iff. right. left. reflexivity.
Qed.
Print Assumptions C101_lets_refuted.
