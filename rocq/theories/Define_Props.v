(** C89-C91: the axioms that define the subterm relations, those about names, and those about splittable keys. *)
From Coq Require Import List Arith Bool Lia.
From Verif Require Import Syntax_Model Traversal_Model Traversal_Spec Semantics_Spec Semantics_Proofs Subst_Model Subst_Proofs Sort_Model Order_Model Order_Spec
  Order_Proofs Macro_Model Binding_Proofs Macro_Proofs Macro_Props Unify_Model Unify_Proofs Graph_Model Expander_Model Expander_Spec Expander_Proofs Expander_Props
  Exists_Model Exists_Spec Exists_Proofs Exists_Props Search_Model Search_Spec Search_Proofs Search_Props Crypto_Model Crypto_Spec Crypto_Proofs Crypto_Props
  Define_Model Define_Spec Define_Proofs.
Import ListNotations.

(** ** C89: what the axioms say *)
(** Every function of terms gets one axiom: either it is looked through, or it is special. *)
Theorem C89_which : forall funs se f ins,
  (In (f, ins) (default_functions funs se) <-> In (f, ins) funs /\ term_function f /\ ~ hides f /\ ~ In f (se_ignored se)) /\
  (In (f, ins) (special_functions funs se) <-> In (f, ins) funs /\ term_function f /\ (hides f \/ In f (se_ignored se))).
Proof. exact (fun funs se f ins => conj (default_functions_spec funs se f ins) (special_functions_spec funs se f ins)). Qed.
Print Assumptions C89_which.

(** What the axioms say of a relation, apart from the functions that hide something. *)
Definition defined (M : structure) (k : skind) (sort_ : sort) (ignored : list fsym) (funs : list (fsym * list sort)) (out : fsym -> sort) (sorts : list sort) : Prop :=
  ((forall i, k <> KVampire i) -> goes_through (below M k) sort_ ignored funs out sorts) /\ stops_at (below M k) sort_ ignored funs out.

Section Meaning.
  Context (get_sort : formula -> option sort) (funs : list (fsym * list sort)) (out : fsym -> sort) (sorts : list sort) (steps : list pstep) (cells : list mcell)
    (anc : mref -> option ancestors) (tq : nat -> ta_quant) (scmp : sort -> sort -> comparison) (mfuel fuel mv : nat).
  Definition hidden (sort_ : sort) (k : skind) (nexts : formula -> list formula) (fl : uflags) (keep : bool) {M : structure} (rho : env M) : Prop :=
    forall f ins ax, In (f, ins) funs -> hides f ->
      special_assertion get_sort sort_ true k steps anc tq mfuel nexts scmp fuel mv fl keep f ins = Some ax -> holds ax rho.
  Context (Hvar : sorts_of get_sort) (Hout : outs_of get_sort funs out) (Hscmp : forall a b, scmp a b = Eq <-> a = b) (Hmv : protocol_max_var fuel steps cells = Some mv).

  Lemma define_meaning se keep axs : define_subterm get_sort RSymbolic funs sorts steps cells anc tq scmp mfuel fuel se keep = Some axs ->
    (forall f, In f (se_ignored se) -> term_function f /\ ~ hides f) -> (forall f ins, In f (se_ignored se) -> flat (se_nexts se) f ins) ->
    forall (M : structure) (rho : env M), (forall s, exists d, dom M s d) ->
    (Forall (fun ax => holds ax rho) axs <->
     defined M (se_kind se) (se_sort se) (se_ignored se) funs out sorts /\ hidden (se_sort se) (se_kind se) (se_nexts se) (se_flags se) keep rho).
  Proof.
    intros H Hig Hfl M rho Hne.
    destruct (define_full get_sort Hvar funs out Hout sorts M steps cells anc tq scmp mfuel fuel Hscmp Hne se keep axs rho H Hig Hfl) as (mv' & E & Hiff).
    rewrite Hmv in E. injection E as <-. rewrite Hiff. unfold defined, hidden. tauto.
  Qed.
End Meaning.
Ltac user_functions := intros f Hf; repeat (destruct Hf as [<-|Hf]; [split; [constructor|intros Hh; inversion Hh]|]); destruct Hf.

Lemma uf_defines : forall get_sort funs out sorts steps cells anc tq scmp mfuel fuel mv, sorts_of get_sort -> outs_of get_sort funs out ->
  (forall a b, scmp a b = Eq <-> a = b) -> protocol_max_var fuel steps cells = Some mv ->
  forall mac verify hmac kk km axs,
  define_subterms get_sort RSymbolic funs sorts steps cells anc tq scmp mfuel fuel (uf_key mac verify kk) (uf_main mac verify hmac km) = Some axs ->
  forall (M : structure) (rho : env M), (forall s, exists d, dom M s d) ->
  (Forall (fun ax => holds ax rho) axs <->
   (defined M kk SName [Fuser mac; Fuser verify] funs out sorts /\
    hidden get_sort funs steps anc tq scmp mfuel fuel mv SName kk (uf_key_nexts mac verify) (mkFlags true false false false true) false rho) /\
   (defined M km SMessage [Fuser mac; Fuser verify] funs out sorts /\
    hidden get_sort funs steps anc tq scmp mfuel fuel mv SMessage km (uf_main_nexts mac verify hmac) (mkFlags true true true true true) true rho)).
Proof.
  intros get_sort funs out sorts steps cells anc tq scmp mfuel fuel mv Hvar Hout Hscmp Hmv mac verify hmac kk km axs H M rho Hne.
  apply append_spec in H as (x & y & Ex & Ey & ->). rewrite Forall_app.
  rewrite (define_meaning get_sort funs out sorts steps cells anc tq scmp mfuel fuel mv Hvar Hout Hscmp Hmv _ _ x Ex ltac:(user_functions)
    (fun f ins => uf_key_flat mac verify kk f ins) M rho Hne).
  rewrite (define_meaning get_sort funs out sorts steps cells anc tq scmp mfuel fuel mv Hvar Hout Hscmp Hmv _ _ y Ey ltac:(user_functions)
    (fun f ins => uf_main_flat mac verify hmac km f ins) M rho Hne).
  reflexivity.
Qed.
Theorem C89_uf : forall get_sort funs out sorts steps cells anc tq scmp mfuel fuel mv, sorts_of get_sort -> outs_of get_sort funs out ->
  (forall a b, scmp a b = Eq <-> a = b) -> protocol_max_var fuel steps cells = Some mv ->
  forall mac verify hmac kk km axs,
  define_subterms get_sort RSymbolic funs sorts steps cells anc tq scmp mfuel fuel (uf_key mac verify kk) (uf_main mac verify hmac km) = Some axs ->
  forall (M : structure) (rho : env M), (forall s, exists d, dom M s d) ->
  (Forall (fun ax => holds ax rho) axs <->
   (defined M kk SName [Fuser mac; Fuser verify] funs out sorts /\
    hidden get_sort funs steps anc tq scmp mfuel fuel mv SName kk (uf_key_nexts mac verify) (mkFlags true false false false true) false rho) /\
   (defined M km SMessage [Fuser mac; Fuser verify] funs out sorts /\
    hidden get_sort funs steps anc tq scmp mfuel fuel mv SMessage km (uf_main_nexts mac verify hmac) (mkFlags true true true true true) true rho)).
Proof. exact uf_defines. Qed.
Print Assumptions C89_uf.

Lemma euf_defines : forall get_sort funs out sorts steps cells anc tq scmp mfuel fuel mv, sorts_of get_sort -> outs_of get_sort funs out ->
  (forall a b, scmp a b = Eq <-> a = b) -> protocol_max_var fuel steps cells = Some mv ->
  forall sign pk kk km axs,
  define_subterms get_sort RSymbolic funs sorts steps cells anc tq scmp mfuel fuel (euf_key sign pk kk) (default_main km) = Some axs ->
  forall (M : structure) (rho : env M), (forall s, exists d, dom M s d) ->
  (Forall (fun ax => holds ax rho) axs <->
   (defined M kk SName [Fuser sign; Fuser pk] funs out sorts /\
    hidden get_sort funs steps anc tq scmp mfuel fuel mv SName kk (euf_key_nexts sign pk) (mkFlags true false false false true) false rho) /\
   (defined M km SMessage [] funs out sorts /\
    hidden get_sort funs steps anc tq scmp mfuel fuel mv SMessage km children (mkFlags true true true true true) true rho)).
Proof.
  intros get_sort funs out sorts steps cells anc tq scmp mfuel fuel mv Hvar Hout Hscmp Hmv sign pk kk km axs H M rho Hne.
  apply append_spec in H as (x & y & Ex & Ey & ->). rewrite Forall_app.
  rewrite (define_meaning get_sort funs out sorts steps cells anc tq scmp mfuel fuel mv Hvar Hout Hscmp Hmv _ _ x Ex ltac:(user_functions)
    (fun f ins => euf_key_flat sign pk kk f ins) M rho Hne).
  rewrite (define_meaning get_sort funs out sorts steps cells anc tq scmp mfuel fuel mv Hvar Hout Hscmp Hmv _ _ y Ey ltac:(user_functions)
    ltac:(intros f ins []) M rho Hne).
  reflexivity.
Qed.
Theorem C89_euf : forall get_sort funs out sorts steps cells anc tq scmp mfuel fuel mv, sorts_of get_sort -> outs_of get_sort funs out ->
  (forall a b, scmp a b = Eq <-> a = b) -> protocol_max_var fuel steps cells = Some mv ->
  forall sign pk kk km axs,
  define_subterms get_sort RSymbolic funs sorts steps cells anc tq scmp mfuel fuel (euf_key sign pk kk) (default_main km) = Some axs ->
  forall (M : structure) (rho : env M), (forall s, exists d, dom M s d) ->
  (Forall (fun ax => holds ax rho) axs <->
   (defined M kk SName [Fuser sign; Fuser pk] funs out sorts /\
    hidden get_sort funs steps anc tq scmp mfuel fuel mv SName kk (euf_key_nexts sign pk) (mkFlags true false false false true) false rho) /\
   (defined M km SMessage [] funs out sorts /\
    hidden get_sort funs steps anc tq scmp mfuel fuel mv SMessage km children (mkFlags true true true true true) true rho)).
Proof. exact euf_defines. Qed.
Print Assumptions C89_euf.

Lemma ctxt_defines : forall get_sort funs out sorts steps cells anc tq scmp mfuel fuel mv, sorts_of get_sort -> outs_of get_sort funs out ->
  (forall a b, scmp a b = Eq <-> a = b) -> protocol_max_var fuel steps cells = Some mv ->
  forall enc dec km kk kr axs,
  ctxt_define_subterms get_sort RSymbolic funs sorts steps cells anc tq scmp mfuel fuel (default_main km) (ctxt_key enc dec kk) (ctxt_rand enc kr) = Some axs ->
  forall (M : structure) (rho : env M), (forall s, exists d, dom M s d) ->
  (Forall (fun ax => holds ax rho) axs <->
   (defined M km SMessage [] funs out sorts /\
    hidden get_sort funs steps anc tq scmp mfuel fuel mv SMessage km children (mkFlags true true true true true) true rho) /\
   (defined M kk SName [Fuser enc; Fuser dec] funs out sorts /\
    hidden get_sort funs steps anc tq scmp mfuel fuel mv SName kk (ctxt_key_nexts enc dec) (mkFlags true true true true true) false rho) /\
   (defined M kr SName [Fuser enc] funs out sorts /\
    hidden get_sort funs steps anc tq scmp mfuel fuel mv SName kr (ctxt_rand_nexts enc) (mkFlags true true true true true) false rho)).
Proof.
  intros get_sort funs out sorts steps cells anc tq scmp mfuel fuel mv Hvar Hout Hscmp Hmv enc dec km kk kr axs H M rho Hne.
  apply append_spec in H as (x & yz & Ex & Eyz & ->). apply append_spec in Eyz as (y & z & Ey & Ez & ->). rewrite !Forall_app.
  rewrite (define_meaning get_sort funs out sorts steps cells anc tq scmp mfuel fuel mv Hvar Hout Hscmp Hmv _ _ x Ex ltac:(user_functions)
    ltac:(intros f ins []) M rho Hne).
  rewrite (define_meaning get_sort funs out sorts steps cells anc tq scmp mfuel fuel mv Hvar Hout Hscmp Hmv _ _ y Ey ltac:(user_functions)
    (fun f ins => ctxt_key_flat enc dec kk f ins) M rho Hne).
  rewrite (define_meaning get_sort funs out sorts steps cells anc tq scmp mfuel fuel mv Hvar Hout Hscmp Hmv _ _ z Ez ltac:(user_functions)
    (fun f ins => ctxt_rand_flat enc kr f ins) M rho Hne).
  reflexivity.
Qed.
Theorem C89_ctxt : forall get_sort funs out sorts steps cells anc tq scmp mfuel fuel mv, sorts_of get_sort -> outs_of get_sort funs out ->
  (forall a b, scmp a b = Eq <-> a = b) -> protocol_max_var fuel steps cells = Some mv ->
  forall enc dec km kk kr axs,
  ctxt_define_subterms get_sort RSymbolic funs sorts steps cells anc tq scmp mfuel fuel (default_main km) (ctxt_key enc dec kk) (ctxt_rand enc kr) = Some axs ->
  forall (M : structure) (rho : env M), (forall s, exists d, dom M s d) ->
  (Forall (fun ax => holds ax rho) axs <->
   (defined M km SMessage [] funs out sorts /\
    hidden get_sort funs steps anc tq scmp mfuel fuel mv SMessage km children (mkFlags true true true true true) true rho) /\
   (defined M kk SName [Fuser enc; Fuser dec] funs out sorts /\
    hidden get_sort funs steps anc tq scmp mfuel fuel mv SName kk (ctxt_key_nexts enc dec) (mkFlags true true true true true) false rho) /\
   (defined M kr SName [Fuser enc] funs out sorts /\
    hidden get_sort funs steps anc tq scmp mfuel fuel mv SName kr (ctxt_rand_nexts enc) (mkFlags true true true true true) false rho)).
Proof. exact ctxt_defines. Qed.
Print Assumptions C89_ctxt.

(** The axioms contradict occurrence: a name is inside [mac(n, n)], for the axioms it is not below it. *)
Lemma ignored_blind : forall (M : structure) k mac ignored funs out sorts ins, defined M k SName ignored funs out sorts ->
  In (Fuser mac, ins) funs -> In (Fuser mac) ignored -> ~ In SName ins -> out (Fuser mac) <> SName ->
  forall n ds, dom M SName n -> args_of M ins ds -> ~ below M k (out (Fuser mac)) n (app (Fuser mac) ds).
Proof.
  intros M k mac ignored funs out sorts ins [_ Hs] Hf Hi Hn Ho n ds Dn Hds Hb.
  destruct (Hs _ _ Hf Hi ds n Hds Dn Hb) as [(j & Hj & _)|[E _]]; [apply Hn; eapply nth_error_In; eauto|auto].
Qed.
Lemma occurrence_refuted : forall get_sort funs out sorts steps cells anc tq scmp mfuel fuel mv, sorts_of get_sort -> outs_of get_sort funs out ->
  (forall a b, scmp a b = Eq <-> a = b) -> protocol_max_var fuel steps cells = Some mv ->
  forall mac verify hmac kk km axs,
  define_subterms get_sort RSymbolic funs sorts steps cells anc tq scmp mfuel fuel (uf_key mac verify kk) (uf_main mac verify hmac km) = Some axs ->
  In (Fuser mac, [SMessage; SMessage]) funs -> In (Fcast SMessage, [SName]) funs -> out (Fuser mac) = SMessage ->
  forall (M : structure) (rho : env M), (forall s, exists d, dom M s d) -> (forall n, dom M SName n -> dom M SMessage (named M n)) ->
  (forall n m, dom M SName n -> dom M SMessage m -> inside M funs n m -> below M kk SMessage n m) ->
  dom M SMessage (app (Fuser mac) (repeat (named M (rho 0)) 2)) -> dom M SName (rho 0) -> ~ Forall (fun ax => holds ax rho) axs.
Proof.
  intros get_sort funs out sorts steps cells anc tq scmp mfuel fuel mv Hvar Hout Hscmp Hmv mac verify hmac kk km axs H Hf Hc Ho M rho Hne Hnm Hin Hd Dn Hall.
  apply (uf_defines _ _ _ _ _ _ _ _ _ _ _ _ Hvar Hout Hscmp Hmv _ _ _ _ _ _ H M rho Hne) in Hall as ((Hdef & _) & _).
  assert (Ha : args_of M [SMessage; SMessage] (repeat (named M (rho 0)) 2)) by (repeat constructor; auto).
  apply (ignored_blind M kk mac _ funs out sorts _ Hdef Hf (or_introl eq_refl) ltac:(intros [E|[E|[]]]; discriminate) ltac:(congruence) (rho 0) _ Dn Ha).
  rewrite Ho. apply Hin; auto. eapply in_under; [exact Hf|exact Ha|left; reflexivity|].
  eapply (in_under M funs (rho 0) (Fcast SMessage) [SName] [rho 0]); [exact Hc|constructor; [exact Dn|constructor]|left; reflexivity|constructor].
Qed.
Theorem C89_occurrence_refuted : forall get_sort funs out sorts steps cells anc tq scmp mfuel fuel mv, sorts_of get_sort -> outs_of get_sort funs out ->
  (forall a b, scmp a b = Eq <-> a = b) -> protocol_max_var fuel steps cells = Some mv ->
  forall mac verify hmac kk km axs,
  define_subterms get_sort RSymbolic funs sorts steps cells anc tq scmp mfuel fuel (uf_key mac verify kk) (uf_main mac verify hmac km) = Some axs ->
  In (Fuser mac, [SMessage; SMessage]) funs -> In (Fcast SMessage, [SName]) funs -> out (Fuser mac) = SMessage ->
  forall (M : structure) (rho : env M), (forall s, exists d, dom M s d) -> (forall n, dom M SName n -> dom M SMessage (named M n)) ->
  (forall n m, dom M SName n -> dom M SMessage m -> inside M funs n m -> below M kk SMessage n m) ->
  dom M SMessage (app (Fuser mac) (repeat (named M (rho 0)) 2)) -> dom M SName (rho 0) -> ~ Forall (fun ax => holds ax rho) axs.
Proof. exact occurrence_refuted. Qed.
Print Assumptions C89_occurrence_refuted.

(** The axioms are true when being below is being inside, seen through the functions that are not ignored, in a structure where functions build terms
    and sorts are disjoint. Missing: the functions that hide something (C32). *)
Lemma inside_defined : forall (M : structure) funs out k sort_ ignored sorts,
  well_sorted M funs out -> (forall s t d, dom M s d -> dom M t d -> s = t) -> free_over M funs -> (forall f ins, In (f, ins) funs -> ~ plain_sort (out f)) ->
  forall seen, (forall f ins, In (f, ins) seen <-> In (f, ins) funs /\ term_function f /\ ~ hides f /\ ~ In f ignored) ->
  (forall s x m, dom M sort_ x -> dom M s m -> (below M k s x m <-> inside M seen x m)) ->
  defined M k sort_ ignored funs out sorts.
Proof.
  intros M funs out k sort_ ignored sorts Hws Hdis Hfree Hterms seen Hseen Hbelow. set (se := mkSearch sort_ children ignored ALL k).
  assert (Hb : forall s x m, dom M sort_ x -> dom M s m -> (below M k s x m <-> inside M (seen_functions funs se) x m)).
  { intros s x m Hx Hm. rewrite (Hbelow s x m Hx Hm). unfold seen_functions.
    assert (Hs : forall l1 l2, (forall f ins, In (f, ins) l1 -> In (f, ins) l2) -> inside M l1 x m -> inside M l2 x m).
    { intros l1 l2 Hl H. clear - Hl H. induction H as [|f ss ds d Hf Ha Hd H IH]; [constructor|]. eapply in_under; eauto. }
    split; apply Hs; intros f ins Hf; [apply default_functions_spec|apply default_functions_spec in Hf]; apply Hseen in Hf || apply Hseen; exact Hf. }
  split.
  - intros _. split.
    + intros f ins Hf Ht Hh Hi. apply (true_passes funs out M se Hws Hdis Hfree Hb f ins). apply default_functions_spec. auto.
    + intros s _ Hp Hn. exact (true_sort funs out M se Hws Hdis Hterms Hb s Hp Hn).
  - intros f ins Hf Hi. apply (true_stops funs out M se Hws Hdis Hfree Hb f ins Hf). intros H. apply in_map_iff in H as ([g ts] & E & H). cbn in E. subst g.
    apply default_functions_spec in H as (_ & _ & _ & H). exact (H Hi).
Qed.
Theorem C89_true_partial : forall (M : structure) funs out k sort_ ignored sorts,
  well_sorted M funs out -> (forall s t d, dom M s d -> dom M t d -> s = t) -> free_over M funs -> (forall f ins, In (f, ins) funs -> ~ plain_sort (out f)) ->
  forall seen, (forall f ins, In (f, ins) seen <-> In (f, ins) funs /\ term_function f /\ ~ hides f /\ ~ In f ignored) ->
  (forall s x m, dom M sort_ x -> dom M s m -> (below M k s x m <-> inside M seen x m)) ->
  defined M k sort_ ignored funs out sorts.
Proof. exact inside_defined. Qed.
Print Assumptions C89_true_partial.

(** ** C90: names *)
(** What the axioms about names say. *)
Theorem C90_meaning : forall get_sort r funs out sorts steps cells anc tq scmp mfuel fuel k axs, sorts_of get_sort -> outs_of get_sort funs out ->
  nonce_axioms get_sort r funs sorts steps cells anc tq scmp mfuel fuel k = Some axs ->
  forall (M : structure) (rho : env M), exists special,
  special_assertions get_sort r funs steps cells anc tq scmp mfuel fuel (mkSearch SName children [] (mkFlags true true true true true) k) true = Some special /\
  (Forall (fun ax => holds ax rho) axs <->
   ((forall i, k <> KVampire i) -> (forall f ins, In (f, ins) funs -> term_function f -> ~ hides f -> passes (below M k) SName f ins (out f)) /\
                                   (forall s, In s sorts -> plain_sort s -> nothing_below (below M k) SName s)) /\
   Forall (fun ax => holds ax rho) special /\
   (forall n n', dom M SName n -> dom M SName n' -> below M k SName n n' -> n = n') /\ names_distinct M /\ names_fresh (below M k SMessage)).
Proof.
  exact (fun get_sort r funs out sorts steps cells anc tq scmp mfuel fuel k axs Hvar Hout H M rho =>
    nonce_spec get_sort Hvar r funs out Hout sorts steps cells anc tq scmp mfuel fuel k M axs rho H).
Qed.
Print Assumptions C90_meaning.

(** A message that is built from names and values that are not terms, and that is worth the name [n], is built from [n]. *)
Lemma derives : forall get_sort r funs out sorts steps cells anc tq scmp mfuel fuel l axs, sorts_of get_sort -> outs_of get_sort funs out ->
  nonce_axioms get_sort r funs sorts steps cells anc tq scmp mfuel fuel (KRegular l) = Some axs ->
  forall (M : structure) (rho : env M), Forall (fun ax => holds ax rho) axs ->
  forall fs, (forall f ins, In (f, ins) fs -> In (f, ins) funs /\ term_function f /\ ~ hides f /\ out f <> SName) -> well_sorted M fs out ->
  forall n m ls, dom M SName n -> made fs out SMessage m ls -> (forall s t, In (s, t) ls -> dom M s (eval t rho)) ->
  value M (named M n) = value M (eval m rho) ->
  exists s t, In (s, t) ls /\ (s = SName /\ eval t rho = n \/ s <> SName /\ ~ (In s sorts /\ plain_sort s) /\ below M (KRegular l) s n (eval t rho)).
Proof.
  intros get_sort r funs out sorts steps cells anc tq scmp mfuel fuel l axs Hvar Hout H M rho Hall fs Hfs Hws n m ls Dn Hm Hl Hv.
  destruct (nonce_spec get_sort Hvar r funs out Hout sorts steps cells anc tq scmp mfuel fuel (KRegular l) M axs rho H) as (sp & _ & Hiff).
  apply Hiff in Hall as (Hp & _ & Hsame & _ & Hfresh). destruct Hp as [Hp Hno]; [discriminate|].
  assert (Hb : below M (KRegular l) SMessage n (eval m rho)).
  { apply Hfresh; auto. eapply made_dom; eauto. }
  destruct (derive M rho fs out (below M (KRegular l)) n Dn Hws) with (s := SMessage) (m := m) (ls := ls) as (s & t & Hin & Hr); auto.
  { intros f ins Hf. destruct (Hfs f ins Hf) as (H1 & H2 & H3 & _). auto. }
  { intros f ins Hf. apply (Hfs f ins Hf). }
  exists s, t. split; [exact Hin|]. destruct (sort_eq_dec s SName) as [->|Hns].
  - left. split; [reflexivity|]. symmetry. apply Hsame; auto.
  - right. split; [exact Hns|]. split; [|exact Hr]. intros [Hs Hps]. exact (Hno s Hs Hps n _ Dn (Hl s t Hin) Hr).
Qed.
Theorem C90_derives_partial : forall get_sort r funs out sorts steps cells anc tq scmp mfuel fuel l axs, sorts_of get_sort -> outs_of get_sort funs out ->
  nonce_axioms get_sort r funs sorts steps cells anc tq scmp mfuel fuel (KRegular l) = Some axs ->
  forall (M : structure) (rho : env M), Forall (fun ax => holds ax rho) axs ->
  forall fs, (forall f ins, In (f, ins) fs -> In (f, ins) funs /\ term_function f /\ ~ hides f /\ out f <> SName) -> well_sorted M fs out ->
  forall n m ls, dom M SName n -> made fs out SMessage m ls -> (forall s t, In (s, t) ls -> dom M s (eval t rho)) ->
  value M (named M n) = value M (eval m rho) ->
  exists s t, In (s, t) ls /\ (s = SName /\ eval t rho = n \/ s <> SName /\ ~ (In s sorts /\ plain_sort s) /\ below M (KRegular l) s n (eval t rho)).
Proof. exact derives. Qed.
Print Assumptions C90_derives_partial.

(** ** C91: splittable keys *)
Lemma children_in f i a : at_path f [i] a -> In a (children f).
Proof. intros H. inversion H as [|? ? j p1 b ? Ha Hp1|? ? ? p1 ? Hp1]; subst; inversion Hp1; subst; [eapply nth_error_In; eauto|left; reflexivity]. Qed.

(** [split(k)] holds only of names that occur in the protocol outside of key positions. *)
Lemma uf_split : forall get_sort steps cells anc tq scmp mfuel fuel, (forall a b, scmp a b = Eq <-> a = b) ->
  protocol_closed steps cells tq -> answers_cells anc cells ->
  forall r mac verify k split mv ax,
  split_axiom get_sort r steps cells anc tq scmp mfuel fuel (uf_key mac verify k) split mv = Some ax ->
  (forall t bvs e, protocol_term steps cells t bvs -> visits steps anc tq children (t, mkSt (mkFlags true false false false true) bvs None) e -> ~ In (mv + 1) (map vid (ss_bound (snd e)))) ->
  forall (M : structure) (rho : env M), (forall s, exists d, dom M s d) ->
  (holds ax rho <-> forall d, dom M SName d -> tholds M (Fuser split) [d] ->
     ~ (forall t0 bvs t st ds, protocol_term steps cells t0 bvs ->
          visits steps anc tq (uf_key_nexts mac verify) (t0, mkSt (mkFlags true false false false true) bvs None) (t, st) ->
          get_sort t = Some SName -> typed (ss_bound st) ds -> eval t (bindv rho (ss_bound st) ds) <> d)).
Proof.
  intros get_sort steps cells anc tq scmp mfuel fuel Hscmp Hcl Hans r mac verify k split mv ax H Hcap M rho Hne.
  rewrite (split_spec get_sort steps cells anc tq scmp mfuel fuel Hscmp Hcl Hans r _ split mv ax H eq_refl) with (rho := rho); auto.
  - setoid_rewrite terms_spec'. reflexivity.
  - intros f a Ha. apply uf_key_exact in Ha as (i & Hi & _). eapply children_in; eauto.
  - intros t bvs e Hin Hv. apply terms_spec' in Hin. eapply Hcap; eauto.
Qed.
Theorem C91_uf_partial : forall get_sort steps cells anc tq scmp mfuel fuel, (forall a b, scmp a b = Eq <-> a = b) ->
  protocol_closed steps cells tq -> answers_cells anc cells ->
  forall r mac verify k split mv ax,
  split_axiom get_sort r steps cells anc tq scmp mfuel fuel (uf_key mac verify k) split mv = Some ax ->
  (forall t bvs e, protocol_term steps cells t bvs -> visits steps anc tq children (t, mkSt (mkFlags true false false false true) bvs None) e -> ~ In (mv + 1) (map vid (ss_bound (snd e)))) ->
  forall (M : structure) (rho : env M), (forall s, exists d, dom M s d) ->
  (holds ax rho <-> forall d, dom M SName d -> tholds M (Fuser split) [d] ->
     ~ (forall t0 bvs t st ds, protocol_term steps cells t0 bvs ->
          visits steps anc tq (uf_key_nexts mac verify) (t0, mkSt (mkFlags true false false false true) bvs None) (t, st) ->
          get_sort t = Some SName -> typed (ss_bound st) ds -> eval t (bindv rho (ss_bound st) ds) <> d)).
Proof. exact uf_split. Qed.
Print Assumptions C91_uf_partial.
Lemma euf_split : forall get_sort steps cells anc tq scmp mfuel fuel, (forall a b, scmp a b = Eq <-> a = b) ->
  protocol_closed steps cells tq -> answers_cells anc cells ->
  forall r sign pk k split mv ax,
  split_axiom get_sort r steps cells anc tq scmp mfuel fuel (euf_key sign pk k) split mv = Some ax ->
  (forall t bvs e, protocol_term steps cells t bvs -> visits steps anc tq children (t, mkSt (mkFlags true false false false true) bvs None) e -> ~ In (mv + 1) (map vid (ss_bound (snd e)))) ->
  forall (M : structure) (rho : env M), (forall s, exists d, dom M s d) ->
  (holds ax rho <-> forall d, dom M SName d -> tholds M (Fuser split) [d] ->
     ~ (forall t0 bvs t st ds, protocol_term steps cells t0 bvs ->
          visits steps anc tq (euf_key_nexts sign pk) (t0, mkSt (mkFlags true false false false true) bvs None) (t, st) ->
          get_sort t = Some SName -> typed (ss_bound st) ds -> eval t (bindv rho (ss_bound st) ds) <> d)).
Proof.
  intros get_sort steps cells anc tq scmp mfuel fuel Hscmp Hcl Hans r sign pk k split mv ax H Hcap M rho Hne.
  rewrite (split_spec get_sort steps cells anc tq scmp mfuel fuel Hscmp Hcl Hans r _ split mv ax H eq_refl) with (rho := rho); auto.
  - setoid_rewrite terms_spec'. reflexivity.
  - intros f a Ha. apply euf_key_exact in Ha as (i & Hi & _). eapply children_in; eauto.
  - intros t bvs e Hin Hv. apply terms_spec' in Hin. eapply Hcap; eauto.
Qed.
Theorem C91_euf_partial : forall get_sort steps cells anc tq scmp mfuel fuel, (forall a b, scmp a b = Eq <-> a = b) ->
  protocol_closed steps cells tq -> answers_cells anc cells ->
  forall r sign pk k split mv ax,
  split_axiom get_sort r steps cells anc tq scmp mfuel fuel (euf_key sign pk k) split mv = Some ax ->
  (forall t bvs e, protocol_term steps cells t bvs -> visits steps anc tq children (t, mkSt (mkFlags true false false false true) bvs None) e -> ~ In (mv + 1) (map vid (ss_bound (snd e)))) ->
  forall (M : structure) (rho : env M), (forall s, exists d, dom M s d) ->
  (holds ax rho <-> forall d, dom M SName d -> tholds M (Fuser split) [d] ->
     ~ (forall t0 bvs t st ds, protocol_term steps cells t0 bvs ->
          visits steps anc tq (euf_key_nexts sign pk) (t0, mkSt (mkFlags true false false false true) bvs None) (t, st) ->
          get_sort t = Some SName -> typed (ss_bound st) ds -> eval t (bindv rho (ss_bound st) ds) <> d)).
Proof. exact euf_split. Qed.
Print Assumptions C91_euf_partial.

(** A name that occurs in a term of the protocol, not at nor below a key position, may be split. *)
Lemma split_true : forall get_sort steps cells anc tq scmp mfuel fuel, (forall a b, scmp a b = Eq <-> a = b) ->
  protocol_closed steps cells tq -> answers_cells anc cells ->
  forall r mac verify k split mv ax,
  split_axiom get_sort r steps cells anc tq scmp mfuel fuel (uf_key mac verify k) split mv = Some ax ->
  (forall t bvs e, protocol_term steps cells t bvs -> visits steps anc tq children (t, mkSt (mkFlags true false false false true) bvs None) e -> ~ In (mv + 1) (map vid (ss_bound (snd e)))) ->
  forall (M : structure) (rho : env M), (forall s, exists d, dom M s d) ->
  (forall d, dom M SName d -> tholds M (Fuser split) [d] -> exists t0 bvs p t ds, protocol_term steps cells t0 bvs /\ at_path t0 p t /\
     ~ under_key (uf_uses mac verify) t0 p /\ get_sort t = Some SName /\ typed bvs ds /\ eval t (bindv rho bvs ds) = d) ->
  holds ax rho.
Proof.
  intros get_sort steps cells anc tq scmp mfuel fuel Hscmp Hcl Hans r mac verify k split mv ax H Hcap M rho Hne Hocc.
  apply (uf_split _ _ _ _ _ _ _ _ Hscmp Hcl Hans _ _ _ _ _ _ _ H Hcap M rho Hne). intros d Dd Hsp Hno.
  destruct (Hocc d Dd Hsp) as (t0 & bvs & p & t & ds & Ht & Hp & Hu & Hs & Hds & Hv).
  destruct (proj2 (C74_uf_key mac verify) steps anc tq (mkSt (mkFlags true false false false true) bvs None) t0 p t Hp) as [Hvis|Hbad]; [|contradiction].
  exact (Hno t0 bvs t _ ds Ht Hvis Hs Hds Hv).
Qed.
Theorem C91_true_partial : forall get_sort steps cells anc tq scmp mfuel fuel, (forall a b, scmp a b = Eq <-> a = b) ->
  protocol_closed steps cells tq -> answers_cells anc cells ->
  forall r mac verify k split mv ax,
  split_axiom get_sort r steps cells anc tq scmp mfuel fuel (uf_key mac verify k) split mv = Some ax ->
  (forall t bvs e, protocol_term steps cells t bvs -> visits steps anc tq children (t, mkSt (mkFlags true false false false true) bvs None) e -> ~ In (mv + 1) (map vid (ss_bound (snd e)))) ->
  forall (M : structure) (rho : env M), (forall s, exists d, dom M s d) ->
  (forall d, dom M SName d -> tholds M (Fuser split) [d] -> exists t0 bvs p t ds, protocol_term steps cells t0 bvs /\ at_path t0 p t /\
     ~ under_key (uf_uses mac verify) t0 p /\ get_sort t = Some SName /\ typed bvs ds /\ eval t (bindv rho bvs ds) = d) ->
  holds ax rho.
Proof. exact split_true. Qed.
Print Assumptions C91_true_partial.

(** ** Examples *)
(** A mac [u0], its verification [u1], another function [u2], the cast of names and the input of the protocol of C32. *)
Definition d_funs : list (fsym * list sort) :=
  [(Fuser 0, [SMessage; SMessage]); (Fuser 1, [SMessage; SMessage; SMessage]); (Fuser 2, [SMessage]); (Fcast SMessage, [SName]); (Fmacro MInput, [SStep]); (Fname 0, [SIndex 0])].
Definition d_out (f : fsym) : sort := match f with Fname _ => SName | Fuser 1 => SCondition | _ => SMessage end.
Definition d_sort (f : formula) : option sort := match f with FVar v => Some (vsort v) | FFun f _ => Some (d_out f) | FQ _ _ _ => Some SBool end.
Definition d_sorts : list sort := [SBool; SBitstring; SIndex 0; SName; SMessage; SCondition; SStep].
Definition d_kind (n : nat) : skind := KRegular [(SMessage, n); (SName, n + 1); (SCondition, n + 2); (SStep, n + 3); (SBool, n + 4); (SBitstring, n + 5); (SIndex 0, n + 6)].
(** Everything is below everything: the hypotheses of the refutation are met. *)
Definition d_M : structure := sfinM (fun _ => 0) (fun _ => 1) (fun f ds => 1).
Example C89_example :
  sorts_of d_sort /\ outs_of d_sort d_funs d_out /\ protocol_max_var 30 [s_A] [] = Some 1 /\
  (exists axs, define_subterms d_sort RSymbolic d_funs d_sorts [s_A] [] s_anc s_tq scmp0 30 60 (uf_key 0 1 (d_kind 0)) (uf_main 0 1 true (d_kind 10)) = Some axs /\
     length axs = 16) /\
  (forall s, exists d, dom d_M s d) /\ (forall n, dom d_M SName n -> dom d_M SMessage (named d_M n)) /\
  (forall n m, dom d_M SName n -> dom d_M SMessage m -> inside d_M d_funs n m -> below d_M (d_kind 0) SMessage n m) /\
  dom d_M SMessage (app (M:=d_M) (Fuser 0) (repeat (named d_M 0) 2)) /\ dom d_M SName 0.
Proof.
  split; [intros v; reflexivity|]. split; [intros f ins args H; reflexivity|]. split; [reflexivity|].
  split; [eexists; split; vm_compute; reflexivity|]. split; [intros s; exists 0; cbn; lia|]. split; [intros n _; cbn; lia|].
  split; [|cbn; lia]. intros n m _ _ _. exists 0. split; [|reflexivity]. apply (sy_regular [] SMessage 0). intros [].
Qed.
(** Names 0 and 1, messages 10 + n, and one sort for the values of each function: [u2(m)] is 20 + n and the mac of two such values 30 + 2 n + n'. *)
Definition t_funs : list (fsym * list sort) := [(Fcast SMessage, [SName]); (Fuser 2, [SMessage]); (Fuser 0, [SUserSym 0; SMessage])].
Definition t_out (f : fsym) : sort := match f with Fcast _ => SMessage | Fuser 2 => SUserSym 0 | _ => SUserSym 1 end.
Definition t_M : structure :=
  sfinM (fun s => match s with SName => 0 | SMessage => 10 | SUserSym 0 => 20 | SUserSym 1 => 30 | _ => 1 end)
        (fun s => match s with SName => 1 | SMessage => 11 | SUserSym 0 => 21 | SUserSym 1 => 33 | _ => 0 end)
    (fun f ds => match f, ds with
       | Fcast _, [n] => 10 + n | Fuser 2, [m] => 10 + m | Fuser 0, [a; m] => 30 + 2 * (a - 20) + (m - 10)
       | Fsubterm 0, [n; m] => b2n ((m =? n) || (m =? 10 + n) || (m =? 20 + n)) | _, _ => 0 end).
Ltac t_args H := repeat match goal with H0 : args_of _ (_ :: _) _ |- _ => inversion H0; clear H0; subst | H0 : Forall2 _ _ _ |- _ => inversion H0; clear H0; subst end.
Example C89_true_example :
  well_sorted t_M t_funs t_out /\ (forall s t d, dom t_M s d -> dom t_M t d -> s = t) /\ free_over t_M t_funs /\ (forall f ins, In (f, ins) t_funs -> ~ plain_sort (t_out f)) /\
  let seen := [(Fcast SMessage, [SName]); (Fuser 2, [SMessage])] in
  (forall f ins, In (f, ins) seen <-> In (f, ins) t_funs /\ term_function f /\ ~ hides f /\ ~ In f [Fuser 0; Fuser 1]) /\
  (forall s x m, dom t_M SName x -> dom t_M s m -> (below t_M (KVampire 0) s x m <-> inside t_M seen x m)).
Proof.
  split. { intros f ins ds Hf Hds. destruct Hf as [E|[E|[E|[]]]]; injection E as <- <-; t_args Hds; cbn in *; lia. }
  split. { intros s t d. destruct s as [| | | |[|[|i]]| | | |]; destruct t as [| | | |[|[|j]]| | | |]; cbn; intros H H'; try reflexivity; lia. }
  split. { intros f ss ds g ts es Hf Hg Hds Hes E. destruct Hf as [Ef|[Ef|[Ef|[]]]]; injection Ef as <- <-; destruct Hg as [Eg|[Eg|[Eg|[]]]]; injection Eg as <- <-;
    t_args Hds; cbn in *; try lia; split; try reflexivity; repeat f_equal; lia. }
  split. { intros f ins Hf Hp. destruct Hf as [E|[E|[E|[]]]]; injection E as <- <-; inversion Hp. }
  intros seen. split.
  { intros f ins. split.
    - intros [E|[E|[]]]; injection E as <- <-; (split; [cbn; auto|]); (split; [constructor|]); (split; [intros Hh; inversion Hh|]); intros [E|[E|[]]]; discriminate.
    - intros (Hf & _ & _ & Hn). destruct Hf as [E|[E|[E|[]]]]; injection E as <- <-; [left; reflexivity|right; left; reflexivity|exfalso; apply Hn; left; reflexivity]. }
  intros s x m Hx Hm.
  assert (H1 : args_of t_M [SName] [x]) by (constructor; [exact Hx|constructor]).
  assert (H2 : args_of t_M [SMessage] [10 + x]) by (constructor; [cbn in *; lia|constructor]).
  assert (Hin1 : inside t_M seen x (10 + x)) by (exact (in_under t_M seen x (Fcast SMessage) [SName] [x] x (or_introl eq_refl) H1 (or_introl eq_refl) (in_same _ _ _))).
  assert (Hin2 : inside t_M seen x (10 + (10 + x)))
    by (exact (in_under t_M seen x (Fuser 2) [SMessage] [10 + x] (10 + x) (or_intror (or_introl eq_refl)) H2 (or_introl eq_refl) Hin1)).
  split.
  - intros (i & Hi & Ht). inversion Hi; subst. change (n2b (b2n ((m =? x) || (m =? 10 + x) || (m =? 20 + x))) = true) in Ht. rewrite n2b_b2n in Ht.
    destruct (Nat.eqb_spec m x) as [->|]; [constructor|]. destruct (Nat.eqb_spec m (10 + x)) as [->|]; [exact Hin1|].
    destruct (Nat.eqb_spec m (20 + x)) as [->|]; [exact Hin2|]. discriminate.
  - intros H. exists 0. split; [constructor|]. assert (Hc : m = x \/ m = 10 + x \/ m = 20 + x).
    { clear Hm. induction H as [|f ss ds d Hf Hds Hd H IH]; [auto|]. destruct Hf as [E|[E|[]]]; injection E as <- <-; t_args Hds; destruct Hd as [<-|[]]; cbn in *; lia. }
    change (n2b (b2n ((m =? x) || (m =? 10 + x) || (m =? 20 + x))) = true). rewrite n2b_b2n. destruct Hc as [->|[->| ->]]; rewrite ?Nat.eqb_refl, ?orb_true_r; reflexivity.
Qed.

(** In [n_M], [u2] does not change the value of a message; names are 0 and 1, their messages 2 and 3. *)
Definition n_M : structure :=
  sfinM (fun s => match s with SMessage => 2 | _ => 0 end) (fun s => match s with SMessage => 3 | _ => 1 end)
    (fun f ds => match f, ds with
       | Fcast _, [n] => 2 + n | Fuser 2, [m] => m | Fuser 0, [a; m] => a | Feval _, [m] => m | Fname 0, [i] => i | Fmacro MInput, [t] => 2 + t
       | Fsubterm 0, [n; m] => b2n (m =? 2 + n) | Fsubterm 1, [n; n'] => b2n (n =? n') | Flt, [a; b] => b2n (a <=? b) | Fstep _, [i] => i | _, _ => 0 end).
Definition n_funs : list (fsym * list sort) := [(Fuser 0, [SMessage; SMessage]); (Fuser 2, [SMessage]); (Fcast SMessage, [SName]); (Fmacro MInput, [SStep])].
Example C90_example :
  sorts_of d_sort /\ outs_of d_sort n_funs d_out /\
  (exists axs, nonce_axioms d_sort RSymbolic n_funs d_sorts [s_A] [] s_anc s_tq scmp0 30 60 (d_kind 0) = Some axs /\
     length axs = 10 /\ Forall (fun ax => holds (M:=n_M) ax (fun _ => 0)) axs) /\
  (forall f ins, In (f, ins) (firstn 3 n_funs) -> In (f, ins) n_funs /\ term_function f /\ ~ hides f /\ d_out f <> SName) /\ well_sorted n_M (firstn 3 n_funs) d_out /\
  let nm i := FFun (Fcast SMessage) [FFun (Fname 0) [FVar (mkVar i (SIndex 0))]] in
  let m := FFun (Fuser 0) [FFun (Fuser 2) [nm 0]; nm 1] in
  made (firstn 3 n_funs) d_out SMessage m [(SName, FFun (Fname 0) [FVar (mkVar 0 (SIndex 0))]); (SName, FFun (Fname 0) [FVar (mkVar 1 (SIndex 0))])] /\
  value n_M (named n_M 0) = value n_M (eval (M:=n_M) m (fun _ => 0)).
Proof.
  split; [intros v; reflexivity|]. split; [intros f ins args H; reflexivity|].
  split; [eexists; split; [vm_compute; reflexivity|]; split; [reflexivity|repeat constructor]|].
  split. { intros f ins H. split; [destruct H as [E|[E|[E|[]]]]; rewrite <- E; cbn; auto|]. destruct H as [E|[E|[E|[]]]]; injection E as <- <-; (split; [constructor|split; [intros Hh; inversion Hh|discriminate]]). }
  split. { intros f ins ds H Hds. destruct H as [E|[E|[E|[]]]]; injection E as <- <-; t_args Hds; cbn in *; lia. }
  split; [|reflexivity].
  set (fs := firstn 3 n_funs). set (x0 := FFun (Fname 0) [FVar (mkVar 0 (SIndex 0))]). set (x1 := FFun (Fname 0) [FVar (mkVar 1 (SIndex 0))]).
  assert (Hc : forall x, made fs d_out SMessage (FFun (Fcast SMessage) [x]) [(SName, x)]).
  { intros x. apply (ma_fun fs d_out (Fcast SMessage) [SName] [x] [(SName, x)]); [right; right; left; reflexivity|].
    apply (ma_cons fs d_out SName [] x [] [(SName, x)] []); constructor. }
  apply (ma_fun fs d_out (Fuser 0) [SMessage; SMessage] [FFun (Fuser 2) [FFun (Fcast SMessage) [x0]]; FFun (Fcast SMessage) [x1]] [(SName, x0); (SName, x1)]); [left; reflexivity|].
  apply (ma_cons fs d_out SMessage [SMessage] _ _ [(SName, x0)] [(SName, x1)]).
  - apply (ma_fun fs d_out (Fuser 2) [SMessage] [FFun (Fcast SMessage) [x0]]); [right; left; reflexivity|].
    apply (ma_cons fs d_out SMessage [] _ [] [(SName, x0)] []); [apply Hc|constructor].
  - apply (ma_cons fs d_out SMessage [] _ [] [(SName, x1)] []); [apply Hc|constructor].
Qed.

(** With the relation built into Vampire the axioms alone say less: they do not go through functions, and have a model where a constant is worth a
    name. *)
Definition v_M : structure := sfinM (fun _ => 0) (fun _ => 0) (fun f _ => match f with Fsubterm _ => 1 | _ => 0 end).
Definition v_axioms : option (list formula) :=
  nonce_axioms d_sort RSymbolic [(Fuser 0, []); (Fcast SMessage, [SName])] d_sorts [] [] s_anc s_tq scmp0 30 60 (KVampire 0).
Lemma constant_worth_a_name : sorts_of d_sort /\ outs_of d_sort [(Fuser 0, []); (Fcast SMessage, [SName])] d_out /\
  (exists axs, v_axioms = Some axs /\ axs <> [] /\ Forall (fun ax => holds (M:=v_M) ax (fun _ => 0)) axs) /\ well_sorted v_M [(Fuser 0, [])] d_out /\
  dom v_M SName 0 /\ made [(Fuser 0, [])] d_out SMessage (FFun (Fuser 0) []) [] /\ value v_M (named v_M 0) = value v_M (eval (M:=v_M) (FFun (Fuser 0) []) (fun _ => 0)).
Proof.
  split; [intros v; reflexivity|]. split; [intros f ins args H; reflexivity|].
  split; [eexists; split; [vm_compute; reflexivity|split; [discriminate|repeat constructor]]|].
  split. { intros f ins ds [E|[]] Hds. injection E as <- <-. cbn. lia. }
  split; [cbn; lia|]. split; [|reflexivity]. apply (ma_fun [(Fuser 0, [])] d_out (Fuser 0) [] [] []); [left; reflexivity|constructor].
Qed.
Theorem C90_vampire_refuted : sorts_of d_sort /\ outs_of d_sort [(Fuser 0, []); (Fcast SMessage, [SName])] d_out /\
  (exists axs, v_axioms = Some axs /\ axs <> [] /\ Forall (fun ax => holds (M:=v_M) ax (fun _ => 0)) axs) /\ well_sorted v_M [(Fuser 0, [])] d_out /\
  dom v_M SName 0 /\ made [(Fuser 0, [])] d_out SMessage (FFun (Fuser 0) []) [] /\ value v_M (named v_M 0) = value v_M (eval (M:=v_M) (FFun (Fuser 0) []) (fun _ => 0)).
Proof. exact constant_worth_a_name. Qed.
Print Assumptions C90_vampire_refuted.

(** Step [B(i)] sends [u2(u0(n0(i), n1(i)))], a mac of [n0(i)] with the key [n1(i)]: only [n0] may be split. *)
Definition p_name (k : nat) : formula := FFun (Fcast SMessage) [FFun (Fname k) [FVar (ix 0)]].
Definition p_B : pstep := mkPStep 1 [ix 0] TRUE (FFun (Fuser 2) [FFun (Fuser 0) [p_name 0; p_name 1]]).
Definition p_M (splits : nat -> bool) : structure :=
  sfinM (fun _ => 0) (fun _ => 4) (fun f ds => match f, ds with Fname 0, [i] => i mod 2 | Fname 1, [i] => 2 + i mod 2 | Fuser 9, [n] => b2n (splits n) | _, _ => 0 end).
Fixpoint calm (f : formula) : bool :=
  match f with FVar _ => true | FFun s args => match s with Fcell _ | Fmacro _ | Fquant _ => false | _ => true end && forallb calm args | FQ _ _ b => calm b end.
Lemma calm_visits steps anc tq e e' : visits steps anc tq children e e' -> calm (fst e) = true -> snd e' = snd e.
Proof.
  induction 1 as [e|f st a e Ha Hv IH|f st us u e Eu Hu Hv IH]; intros Hc; [reflexivity| |].
  - cbn [fst snd] in *. apply IH. destruct f as [v|s args|q vs b]; cbn in *; [destruct Ha| |destruct Ha as [<-|[]]; exact Hc].
    apply andb_true_iff in Hc as [_ Hc]. exact (proj1 (forallb_forall _ _) Hc a Ha).
  - destruct f as [v|s args|q vs b]; cbn in Eu, Hc; [injection Eu as <-; destruct Hu| |injection Eu as <-; destruct Hu as [<-|[]]; exact (IH Hc)].
    destruct s; cbn in Hc; try discriminate; injection Eu as <-; destruct Hu.
Qed.
Example C91_example :
  protocol_closed [p_B] [] s_tq /\ answers_cells s_anc [] /\
  (forall t bvs e, protocol_term [p_B] [] t bvs -> visits [p_B] s_anc s_tq children (t, mkSt (mkFlags true false false false true) bvs None) e -> ~ In (1 + 1) (map vid (ss_bound (snd e)))) /\
  split_axiom d_sort RSymbolic [p_B] [] s_anc s_tq scmp0 30 60 (uf_key 0 1 (KVampire 0)) 9 1 =
    Some (mk_forall [mkVar 2 SName] (fimp (FFun (Fuser 9) [FVar (mkVar 2 SName)])
      (ors [mk_exists [ix 0] (ors [ands [meq (FVar (mkVar 2 SName)) (FFun (Fname 0) [FVar (ix 0)])]])]))) /\
  (exists ax, split_axiom d_sort RSymbolic [p_B] [] s_anc s_tq scmp0 30 60 (uf_key 0 1 (KVampire 0)) 9 1 = Some ax /\
     holds (M:=p_M (fun n => n <? 2)) ax (fun _ => 0) /\ ~ holds (M:=p_M (fun n => n <? 3)) ax (fun _ => 0)) /\
  (forall s, exists d, dom (p_M (fun n => n <? 2)) s d) /\
  (let M := p_M (fun n => n <? 2) in forall d, dom M SName d -> tholds M (Fuser 9) [d] -> exists t0 bvs p t ds, protocol_term [p_B] [] t0 bvs /\ at_path t0 p t /\
     ~ under_key (uf_uses 0 1) t0 p /\ d_sort t = Some SName /\ typed bvs ds /\ eval t (bindv (fun _ => 0 : D M) bvs ds) = d).
Proof.
  split. { split; [intros s [<-|[]]; split; apply ok_closed; reflexivity|]. split; [intros ce a []|]. intros k. apply ok_quant; reflexivity. }
  split. { intros [| |c] a ce E Hin; try discriminate. injection E as <-. destruct Hin. }
  split. { intros t bvs e Ht Hv. assert (Hc : calm t = true /\ bvs = [ix 0]) by (destruct Ht as [s [<-|[]]|s [<-|[]]|c a []]; split; reflexivity).
    destruct Hc as [Hc ->]. rewrite (calm_visits _ _ _ _ _ Hv Hc). cbn. intros [E|[]]. discriminate. }
  split; [vm_compute; reflexivity|]. split; [eexists; split; [vm_compute; reflexivity|split; [vm_compute; reflexivity|vm_compute; discriminate]]|].
  split; [intros s; exists 0; cbn; lia|]. intros M d Dd Hd. exists (ps_msg p_B), [ix 0], [0; 0; 0], (FFun (Fname 0) [FVar (ix 0)]), [d].
  split; [apply pt_msg; left; reflexivity|]. split; [repeat (eapply at_fun; [reflexivity|]); constructor|].
  split; [|split; [reflexivity|split; [constructor; [exact Dd|constructor]|]]].
  - intros (p1 & i & p2 & g & Ep & Hp & s & args & l & -> & Hu & Hn).
    assert (Hi : In i [0; 0; 0]) by (rewrite Ep; apply in_app_iff; right; left; reflexivity).
    assert (i = 0) as -> by (cbn in Hi; lia). destruct Hu as [(_ & _ & E)|(_ & _ & E)]; discriminate.
  - change (n2b (b2n (d <? 2)) = true) in Hd. rewrite n2b_b2n in Hd. destruct d as [|[|d]]; [reflexivity|reflexivity|discriminate].
Qed.

(** The variable of the axiom takes the id [max_var + 1] of the problem, which does not count what symbolic quantifiers bind. Here the message
    looks for indices [i j k] with [n(i, j, k)] and only this name may be split; the third index has the id of the variable of the axiom, which is
    false. *)
Definition z_M : structure := sfinM (fun s => match s with SName => 10 | _ => 0 end) (fun s => match s with SName => 10 | _ => 1 end)
  (fun s ds => match s, ds with Fname _, _ => 10 | Flt, [a; b] => b2n (a <? b) | Fuser 9, [d] => b2n (d =? 10) | _, _ => 0 end).
Lemma split_captured : problem_max_var 20 [ps_cond k_A; ps_msg k_A; TRUE] = Some 1 /\ protocol_closed [k_A] [] k_tq /\ answers_cells s_anc [] /\
  (forall s, exists d, dom z_M s d) /\
  (forall (rho : env z_M) d, dom z_M SName d -> tholds z_M (Fuser 9) [d] -> exists vs, occurs_at [k_A] k_tq z_M rho (ps_msg k_A) (Fname 0) vs /\ d = app (Fname 0) vs) /\
  exists ax, split_axiom s_sort RSymbolic [k_A] [] s_anc k_tq scmp0 30 60 (uf_key 0 1 (KVampire 0)) 9 1 = Some ax /\ forall rho : env z_M, ~ holds ax rho.
Proof.
  split; [vm_compute; reflexivity|].
  split. { split; [intros s [<-|[]]; split; apply ok_closed; reflexivity|]. split; [intros ce a []|]. intros k. apply ok_quant; reflexivity. }
  split. { intros [| |c] a ce E Hin; try discriminate. injection E as <-. destruct Hin. }
  split. { intros s. exists (match s with SName => 10 | _ => 0 end). destruct s; cbn; lia. }
  split. { intros rho d _ H. change (n2b (b2n (d =? 10)) = true) in H. rewrite n2b_b2n in H. apply Nat.eqb_eq in H.
    exists [0; 0; 0]. split; [|exact H]. apply oa_now. eapply (on_quant k_tq z_M rho 0 [] k_n [0; 0; 0]); [left; reflexivity| |].
    - repeat constructor; cbn; lia.
    - match goal with |- occurs_now _ _ ?r _ _ _ => exact (on_here k_tq z_M r (Fname 0) [FVar (ix 0); FVar (ix 1); FVar (ix 2)]) end. }
  eexists. split; [vm_compute; reflexivity|]. intros rho H. unfold holds in H. vm_compute in H. discriminate.
Qed.
Theorem C91_capture_refuted : problem_max_var 20 [ps_cond k_A; ps_msg k_A; TRUE] = Some 1 /\ protocol_closed [k_A] [] k_tq /\ answers_cells s_anc [] /\
  (forall s, exists d, dom z_M s d) /\
  (forall (rho : env z_M) d, dom z_M SName d -> tholds z_M (Fuser 9) [d] -> exists vs, occurs_at [k_A] k_tq z_M rho (ps_msg k_A) (Fname 0) vs /\ d = app (Fname 0) vs) /\
  exists ax, split_axiom s_sort RSymbolic [k_A] [] s_anc k_tq scmp0 30 60 (uf_key 0 1 (KVampire 0)) 9 1 = Some ax /\ forall rho : env z_M, ~ holds ax rho.
Proof. exact split_captured. Qed.
Print Assumptions C91_capture_refuted.
