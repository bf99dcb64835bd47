(** C32: what a subterm search reports. *)
From Coq Require Import List Arith Bool Lia.
From Verif Require Import Syntax_Model Traversal_Model Traversal_Spec Semantics_Spec Semantics_Proofs Subst_Model Subst_Proofs Order_Model Order_Spec Macro_Model
  Binding_Proofs Macro_Props Unify_Model Unify_Proofs Graph_Model Graph_Spec Graph_Proofs Graph_Props Expander_Model Expander_Spec Expander_Proofs Expander_Props Exists_Model Exists_Props
  Search_Model Search_Spec Search_Proofs.
Import ListNotations.

(** Search for a variable: every reached term of the searched sort is reported, with its variables and a formula that says that the
    variable is this term (and that the term is reached); nothing else is reported. *)
Lemma explores : forall get_sort aux_sort sound kind steps anc tq mfuel nexts fuel v ms keep fl out,
  preprocess_terms get_sort aux_sort sound kind steps anc tq mfuel nexts fuel (FVar v) ms keep fl = Some out ->
  (forall m bvs f st, In (m, bvs) ms -> visits steps anc tq nexts (m, mkSt fl bvs None) (f, st) -> get_sort f = Some aux_sort ->
     exists g, In (ss_bound st, g) out /\ forall (M : structure) (rho : env M), says v f keep st g rho) /\
  (forall bv g, In (bv, g) out -> exists m bvs f st, In (m, bvs) ms /\ visits steps anc tq nexts (m, mkSt fl bvs None) (f, st) /\
     get_sort f = Some aux_sort /\ bv = ss_bound st /\ forall (M : structure) (rho : env M), says v f keep st g rho).
Proof.
  intros get_sort aux_sort sound kind steps anc tq mfuel nexts fuel v ms keep fl out H.
  destruct (terms_spec _ _ _ _ _ _ _ _ _ _ _ _ _ _ _ H) as [H1 H2].
  assert (Hsay : forall f st (M : structure) (rho : env M), says v f keep st
    (ands (meq (FVar (mkVar (vid v) aux_sort)) f :: (if keep then match ss_guard st with Some c => [c] | None => [] end else []))) rho).
  { intros f st M rho. unfold says. rewrite holds_and_list. rewrite <- guard_list. split.
    - intros HF. apply Forall_cons_iff in HF as [He Hg]. apply holds_meq in He. auto.
    - intros [He Hg]. constructor; [apply holds_meq; exact He|exact Hg]. }
  split.
  - intros m bvs f st Hm Hv Hs. destruct (H1 m bvs f st Hm Hv) as (us & ou & _ & Eis & Hout).
    pose proof Eis as Eis2. unfold is_subterm, unified in Eis. rewrite Hs in Eis. unfold sort_eqb in Eis.
    destruct (sort_eq_dec aux_sort aux_sort) as [_|]; [|congruence]. injection Eis as <-. destruct (Hout _ eq_refl) as (g & Eg & Hg).
    destruct (var_result _ _ _ _ _ _ _ _ _ _ _ Eis2 Eg) as [_ ->]. eexists. split; [exact Hg|]. intros M rho. apply Hsay.
  - intros bv g Hin. destruct (H2 _ Hin) as (m & bvs & f & st & u & g0 & Hm & Hv & Eis & Eg & E). injection E as -> ->.
    destruct (var_result _ _ _ _ _ _ _ _ _ _ _ Eis Eg) as [Hs ->]. exists m, bvs, f, st. auto.
Qed.
Theorem C32_explores : forall get_sort aux_sort sound kind steps anc tq mfuel nexts fuel v ms keep fl out,
  preprocess_terms get_sort aux_sort sound kind steps anc tq mfuel nexts fuel (FVar v) ms keep fl = Some out ->
  (forall m bvs f st, In (m, bvs) ms -> visits steps anc tq nexts (m, mkSt fl bvs None) (f, st) -> get_sort f = Some aux_sort ->
     exists g, In (ss_bound st, g) out /\ forall (M : structure) (rho : env M), says v f keep st g rho) /\
  (forall bv g, In (bv, g) out -> exists m bvs f st, In (m, bvs) ms /\ visits steps anc tq nexts (m, mkSt fl bvs None) (f, st) /\
     get_sort f = Some aux_sort /\ bv = ss_bound st /\ forall (M : structure) (rho : env M), says v f keep st g rho).
Proof. exact explores. Qed.
Print Assumptions C32_explores.

(** Search for another term: every reached term is compared with it; if they unify there is a result, which says that they are
    equal (or is the subterm relation itself, when the reached term is a variable) and that the term is reached. *)
Lemma explores_term : forall get_sort aux_sort sound kind steps anc tq mfuel nexts fuel x ms keep fl out, (forall v, x <> FVar v) ->
  preprocess_terms get_sort aux_sort sound kind steps anc tq mfuel nexts fuel x ms keep fl = Some out ->
  (forall m bvs f st, In (m, bvs) ms -> visits steps anc tq nexts (m, mkSt fl bvs None) (f, st) -> get_sort f = Some aux_sort ->
     exists ou, mgu mfuel x f = Some ou /\ (ou <> None -> exists g, In (ss_bound st, g) out)) /\
  (forall bv g, In (bv, g) out -> exists m bvs f st, In (m, bvs) ms /\ visits steps anc tq nexts (m, mkSt fl bvs None) (f, st) /\
     bv = ss_bound st /\ forall (M : structure) (rho : env M), holds g rho ->
       (keep = true -> guard_holds st rho) /\
       (eval x rho = eval f rho \/ exists a, f_a get_sort sound kind x f = Some a /\ holds a rho)).
Proof.
  intros get_sort aux_sort sound kind steps anc tq mfuel nexts fuel x ms keep fl out Hx H.
  destruct (terms_spec _ _ _ _ _ _ _ _ _ _ _ _ _ _ _ H) as [H1 H2]. split.
  - intros m bvs f st Hm Hv Hs. destruct (H1 m bvs f st Hm Hv) as (us & ou & _ & Eis & Hout).
    unfold is_subterm, unified in Eis. rewrite Hs in Eis. unfold sort_eqb in Eis. destruct (sort_eq_dec aux_sort aux_sort) as [_|]; [|congruence].
    exists ou. split; [destruct x; [exfalso; eapply Hx; reflexivity| |]; exact Eis|]. intros Hn. destruct ou as [u|]; [|congruence].
    destruct (Hout u eq_refl) as (g & _ & Hg). eauto.
  - intros bv g Hin. destruct (H2 _ Hin) as (m & bvs & f & st & u & g0 & Hm & Hv & Eis & Eg & E). injection E as -> ->.
    exists m, bvs, f, st. split; [exact Hm|]. split; [exact Hv|]. split; [reflexivity|]. intros M rho Hg.
    assert (Hmgu : mgu mfuel x f = Some (Some u)).
    { unfold is_subterm in Eis. destruct (unified _ _ f); [|discriminate]. destruct x; [exfalso; eapply Hx; reflexivity| |]; exact Eis. }
    unfold result_guard in Eg.
    assert (Heq : forall l, as_equalities get_sort u = Some l ->
      g0 = ands (l ++ (if keep then match ss_guard st with Some c => [c] | None => [] end else [])) ->
      (keep = true -> guard_holds st rho) /\ (eval x rho = eval f rho \/ exists a, f_a get_sort sound kind x f = Some a /\ holds a rho)).
    { intros l El ->. apply holds_and_list, Forall_app in Hg as [Hl Hgu]. split; [apply guard_list; exact Hgu|]. left.
      eapply mgu_equalities_sound; eauto. apply holds_and_list. exact Hl. }
    destruct (is_unifying_to_variable u) as [[i t]|].
    + destruct (rich_eqb t x).
      * destruct (f_a get_sort sound kind x f) as [a|] eqn:Ea; [|discriminate]. injection Eg as <-.
        apply holds_and_list in Hg. split; [apply guard_list; exact (Forall_inv_tail Hg)|]. right. exists a. split; [reflexivity|exact (Forall_inv Hg)].
      * destruct (as_equalities get_sort u) as [l|] eqn:El; [|discriminate]. injection Eg as <-. eapply Heq; eauto.
    + destruct (as_equalities get_sort u) as [l|] eqn:El; [|discriminate]. injection Eg as <-. eapply Heq; eauto.
Qed.
Theorem C32_explores_term : forall get_sort aux_sort sound kind steps anc tq mfuel nexts fuel x ms keep fl out, (forall v, x <> FVar v) ->
  preprocess_terms get_sort aux_sort sound kind steps anc tq mfuel nexts fuel x ms keep fl = Some out ->
  (forall m bvs f st, In (m, bvs) ms -> visits steps anc tq nexts (m, mkSt fl bvs None) (f, st) -> get_sort f = Some aux_sort ->
     exists ou, mgu mfuel x f = Some ou /\ (ou <> None -> exists g, In (ss_bound st, g) out)) /\
  (forall bv g, In (bv, g) out -> exists m bvs f st, In (m, bvs) ms /\ visits steps anc tq nexts (m, mkSt fl bvs None) (f, st) /\
     bv = ss_bound st /\ forall (M : structure) (rho : env M), holds g rho ->
       (keep = true -> guard_holds st rho) /\
       (eval x rho = eval f rho \/ exists a, f_a get_sort sound kind x f = Some a /\ holds a rho)).
Proof. exact explores_term. Qed.
Print Assumptions C32_explores_term.

(** The assertion generated for a function is true of every structure in which the subterm relation means that there is an occurrence:
    directly, inside a symbolic quantifier, or in what the steps before an input sent or tested.
    Missing: memory cells, [exec] and step macros are not followed by [occurs_at] (see C36, C72, C30), and nothing visited may bind the
    variables of the assertion (refuted below). *)
Theorem C32_assertion_partial : forall steps cells anc tq, protocol_closed steps cells tq -> answers_cells anc cells ->
  (forall a, anc RInput = Some a -> an_input a = true) ->
  forall get_sort aux_sort i mfuel scmp, (forall a b, scmp a b = Eq <-> a = b) ->
  forall fuel mv fl keep fn ss ax,
  special_assertion get_sort aux_sort true (KVampire i) steps anc tq mfuel children scmp fuel mv fl keep fn ss = Some ax ->
  uf_quant fl = true -> uf_input fl = true ->
  let vars := sorts_to_variables (mv + 2) ss in
  let ff := FFun fn (map FVar vars) in
  (forall e, visits steps anc tq children (ff, mkSt fl [] None) e -> forall v, In v (ss_bound (snd e)) -> vid v <> mv + 1 /\ ~ In (vid v) (map vid vars)) ->
  forall M : structure, (forall s, exists d, dom M s d) -> lt_trans_ M -> reads_past steps tq M ->
  (forall rho : env M, tholds M (Fsubterm i) [rho (mv + 1); eval ff rho] ->
     exists h vs, occurs_at steps tq M rho ff h vs /\ (forall args, get_sort (FFun h args) = Some aux_sort) /\ rho (mv + 1) = app h vs) ->
  forall rho : env M, holds ax rho.
Proof. exact special_assertion_true. Qed.
Print Assumptions C32_assertion_partial.

(** Step [A(i)] sends [u(n(i), input, q(i))], where [q(i)] looks for some [j] with [n'(i, j)]. *)
Definition s_sort (f : formula) : option sort :=
  match f with FVar v => Some (vsort v) | FFun (Fname _) _ => Some SName | FFun (Fstep _) _ => Some SStep | FFun Flt _ => Some SBool | _ => Some SMessage end.
Definition s_A : pstep := mkPStep 1 [ix 0] TRUE
  (FFun (Fuser 0) [FFun (Fname 0) [FVar (ix 0)]; FFun (Fmacro MInput) [FFun (Fstep 1) [FVar (ix 0)]]; FFun (Fquant 0) [FVar (ix 0)]]).
Definition s_tq (_ : nat) : ta_quant := mkTaQuant [ix 1] [ix 0] [FFun (Fname 1) [FVar (ix 0); FVar (ix 1)]].
Definition s_anc (r : mref) : option ancestors := match r with RInput => Some (mkAnc true []) | _ => None end.
Definition s_t : var := mkVar 3 SStep.
Definition s_x : formula := FVar (mkVar 2 SName).
Definition s_before : formula := lt (FFun (Fstep 1) [FVar (ix 0)]) (FVar s_t).
(** Times and indices 0 to 2; [A(i)] is [i]; names are beyond. The subterm relation is exact. *)
Definition s_in (d e : nat) : bool :=
  existsb (fun i => (i <? e) && ((d =? 10 + i) || existsb (fun j => d =? 20 + 3 * i + j) [0; 1; 2])) [0; 1; 2].
Definition s_M : structure := sfinM (fun s => match s with SName => 10 | _ => 0 end) (fun s => match s with SName => 30 | SMessage => 40 | _ => 2 end)
  (fun s ds => match s, ds with
     | Fstep _, [d] => d | Flt, [a; b] => b2n (a <? b) | Fname 0, [i] => 10 + i | Fname 1, [i; j] => 20 + 3 * i + j
     | Fmacro MInput, [e] => e | Fsubterm 0, [d; e] => b2n (s_in d e) | _, _ => 1 end).
Example C32_example :
  protocol_closed [s_A] [] s_tq /\ answers_cells s_anc [] /\
  (exists g, graph_new 30 [s_A] [] = Some g /\ graph_ancestors g 30 RInput = s_anc RInput) /\
  preprocess_term s_sort SName true (KVampire 0) [s_A] s_anc s_tq 0 children 60 s_x (FFun (Fmacro MInput) [FVar s_t]) [] true all_on =
    Some [([ix 0; ix 1], ands [meq s_x (FFun (Fname 1) [FVar (ix 0); FVar (ix 1)]); s_before]);
          ([ix 0], ands [meq s_x (FFun (Fname 0) [FVar (ix 0)]); s_before])] /\
  (exists ax, special_assertion s_sort SName true (KVampire 0) [s_A] s_anc s_tq 0 children scmp0 60 1 all_on true (Fmacro MInput) [SStep] = Some ax) /\
  (forall e, visits [s_A] s_anc s_tq children (FFun (Fmacro MInput) [FVar s_t], mkSt all_on [] None) e ->
     forall v, In v (ss_bound (snd e)) -> vid v <> 2 /\ ~ In (vid v) (map vid [s_t])) /\
  (forall s, exists d, dom s_M s d) /\ lt_trans_ s_M /\ reads_past [s_A] s_tq s_M /\
  (forall rho : env s_M, tholds s_M (Fsubterm 0) [rho 2; eval (FFun (Fmacro MInput) [FVar s_t]) rho] ->
     exists h vs, occurs_at [s_A] s_tq s_M rho (FFun (Fmacro MInput) [FVar s_t]) h vs /\ (forall args, s_sort (FFun h args) = Some SName) /\ rho 2 = app h vs).
Proof.
  split. { split; [intros s [<-|[]]; split; apply ok_closed; reflexivity|]. split; [intros ce a []|]. intros k. apply ok_quant; reflexivity. }
  split. { intros [| |c] a ce E Hin; try discriminate. injection E as <-. destruct Hin. }
  split. { eexists. split; reflexivity. }
  split; [vm_compute; reflexivity|]. split; [eexists; vm_compute; reflexivity|].
  split.
  { intros e He.
    assert (Hb : ss_bound (snd e) = [] \/ ss_bound (snd e) = [ix 0] \/ ss_bound (snd e) = [ix 0; ix 1]).
    { destruct e as [f st].
      destruct (explores (fun _ => Some SName) SName true (KVampire 0) [s_A] s_anc s_tq 0 children 60 (mkVar 2 SName)
        [(FFun (Fmacro MInput) [FVar s_t], [])] false all_on _ ltac:(vm_compute; reflexivity)) as [H _].
      destruct (H _ _ f st (or_introl eq_refl) He eq_refl) as (g & Hg & _). cbn in Hg. cbn [snd].
      repeat (destruct Hg as [Hg|Hg]; [injection Hg; intros _ <-; auto|]). destruct Hg. }
    intros v Hv. destruct Hb as [Hb|[Hb|Hb]]; rewrite Hb in Hv; cbn in Hv; repeat destruct Hv as [<-|Hv]; try contradiction; cbn; intuition discriminate. }
  split. { intros s. exists (match s with SName => 10 | _ => 0 end). destruct s; cbn; lia. }
  split. { intros a b c. unfold tholds. cbn [s_M sfinM dtest fint]. rewrite !n2b_b2n, !Nat.ltb_lt. lia. }
  split.
  { intros s ds c rho e [<-|[]] Hds [->| ->] Ho.
    - inversion Hds as [|? d ? ? _ Hn]; subst. inversion Hn; subst. left. inversion Ho as [|? ? ? a ? ? Ha Ho2|]; subst.
      destruct Ha as [<-|[<-|[<-|[]]]].
      + inversion Ho2 as [|? ? ? a ? ? Ha Ho3|]; subst. destruct Ha as [<-|[]]. inversion Ho3.
      + inversion Ho2 as [|? ? ? a ? ? Ha Ho3|]; subst; [reflexivity|]. destruct Ha as [<-|[]].
        inversion Ho3 as [|? ? ? a ? ? Ha Ho4|]; subst. destruct Ha as [<-|[]]. inversion Ho4.
      + inversion Ho2 as [|? ? ? a ? ? Ha Ho3|? ? ? a ? ? ? Ha _ Ho3]; subst; destruct Ha as [<-|[]]; [inversion Ho3|].
        inversion Ho3 as [|? ? ? a ? ? Ha Ho4|]; subst. destruct Ha as [<-|[<-|[]]]; inversion Ho4.
    - cbn in Ho. inversion Ho; subst; cbn in *; contradiction. }
  intros rho H. change (n2b (b2n (s_in (rho 2) (rho 3))) = true) in H. unfold s_in in H. rewrite n2b_b2n in H. apply existsb_exists in H as (i & Hi & H).
  apply andb_prop in H as [Hlt H].
  assert (Hin : typed (M:=s_M) (ps_vars s_A) [i]) by (constructor; [cbn in *; lia|constructor]).
  assert (Hl : tholds s_M Flt [inst s_M 1 [i]; rho 3]) by (change (n2b (b2n (i <? rho 3)) = true); rewrite Hlt; reflexivity).
  apply orb_prop in H as [H|H].
  - apply Nat.eqb_eq in H. exists (Fname 0), [i]. split; [|split; [reflexivity|exact H]].
    apply (oa_input [s_A] s_tq s_M rho _ (rho 3) s_A (ps_msg s_A) [i]); auto; [apply (on_here s_tq s_M rho (Fmacro MInput) [FVar s_t])|left; reflexivity|].
    apply oa_now. eapply on_arg; [left; reflexivity|]. apply (on_here s_tq s_M (bindv (M:=s_M) rho [ix 0] [i]) (Fname 0) [FVar (ix 0)]).
  - apply existsb_exists in H as (j & Hj & H). apply Nat.eqb_eq in H. exists (Fname 1), [i; j]. split; [|split; [reflexivity|exact H]].
    apply (oa_input [s_A] s_tq s_M rho _ (rho 3) s_A (ps_msg s_A) [i]); auto; [apply (on_here s_tq s_M rho (Fmacro MInput) [FVar s_t])|left; reflexivity|].
    apply oa_now. eapply on_arg; [right; right; left; reflexivity|].
    eapply (on_quant s_tq s_M _ 0 [FVar (ix 0)] _ [j]); [left; reflexivity|constructor; [cbn in *; lia|constructor]|].
    match goal with |- occurs_now _ _ ?r _ _ _ => exact (on_here s_tq s_M r (Fname 1) [FVar (ix 0); FVar (ix 1)]) end.
Qed.

(** The search variable takes the id [max_var + 1] of the protocol, which does not count what symbolic quantifiers bind. Here the step
    looks for indices [i j k] with [n(i, j, k)]: the ids bound are 0, 1 and 2, and the search variable is 2. The occurrence found is then
    quantified over the search variable itself, and the assertion is false although the occurrence is there. *)
Definition k_A : pstep := mkPStep 1 [] TRUE (FFun (Fquant 0) []).
Definition k_n : formula := FFun (Fname 0) [FVar (ix 0); FVar (ix 1); FVar (ix 2)].
Definition k_tq (_ : nat) : ta_quant := mkTaQuant [ix 0; ix 1; ix 2] [] [k_n].
Definition k_M : structure := sfinM (fun s => match s with SName => 10 | _ => 0 end) (fun s => match s with SName => 10 | _ => 1 end)
  (fun s ds => match s, ds with Fname _, _ => 10 | Flt, [a; b] => b2n (a <? b) | Fsubterm 0, [d; _] => b2n (d =? 10) | _, _ => 0 end).
Lemma capture :
  protocol_max_var 20 [k_A] [] = Some 1 /\ protocol_closed [k_A] [] k_tq /\ answers_cells s_anc [] /\
  (forall s, exists d, dom k_M s d) /\ lt_trans_ k_M /\ reads_past [k_A] k_tq k_M /\
  (forall rho : env k_M, tholds k_M (Fsubterm 0) [rho 2; eval (FFun (Fquant 0) []) rho] ->
     exists vs, occurs_at [k_A] k_tq k_M rho (FFun (Fquant 0) []) (Fname 0) vs /\ rho 2 = app (Fname 0) vs) /\
  exists ax, special_assertion s_sort SName true (KVampire 0) [k_A] s_anc k_tq 0 children scmp0 60 1 all_on true (Fquant 0) [] = Some ax /\
    forall rho : env k_M, ~ holds ax rho.
Proof.
  split; [vm_compute; reflexivity|].
  split. { split; [intros s [<-|[]]; split; apply ok_closed; reflexivity|]. split; [intros ce a []|]. intros k. apply ok_quant; reflexivity. }
  split. { intros [| |c] a ce E Hin; try discriminate. injection E as <-. destruct Hin. }
  split. { intros s. exists (match s with SName => 10 | _ => 0 end). destruct s; cbn; lia. }
  split. { intros a b c. unfold tholds. cbn [k_M sfinM dtest fint]. rewrite !n2b_b2n, !Nat.ltb_lt. lia. }
  split.
  { intros s ds c rho e [<-|[]] Hds [->| ->] Ho; inversion Hds; subst; cbn in Ho.
    - inversion Ho as [|? ? ? a ? ? Ha Ho2|? ? ? a ? ? ? Ha _ Ho2]; subst; [destruct Ha|destruct Ha as [<-|[]]].
      inversion Ho2 as [|? ? ? a ? ? Ha Ho3|]; subst. destruct Ha as [<-|[<-|[<-|[]]]]; inversion Ho3.
    - inversion Ho; subst; cbn in *; contradiction. }
  split.
  { intros rho H. change (n2b (b2n (rho 2 =? 10)) = true) in H. rewrite n2b_b2n in H. apply Nat.eqb_eq in H.
    exists [0; 0; 0]. split; [|exact H]. apply oa_now. eapply (on_quant k_tq k_M rho 0 [] k_n [0; 0; 0]); [left; reflexivity| |].
    - repeat constructor; cbn; lia.
    - match goal with |- occurs_now _ _ ?r _ _ _ => exact (on_here k_tq k_M r (Fname 0) [FVar (ix 0); FVar (ix 1); FVar (ix 2)]) end. }
  eexists. split; [vm_compute; reflexivity|]. intros rho H. unfold holds in H. vm_compute in H. discriminate.
Qed.
Theorem C32_capture_refuted :
  protocol_max_var 20 [k_A] [] = Some 1 /\ protocol_closed [k_A] [] k_tq /\ answers_cells s_anc [] /\
  (forall s, exists d, dom k_M s d) /\ lt_trans_ k_M /\ reads_past [k_A] k_tq k_M /\
  (forall rho : env k_M, tholds k_M (Fsubterm 0) [rho 2; eval (FFun (Fquant 0) []) rho] ->
     exists vs, occurs_at [k_A] k_tq k_M rho (FFun (Fquant 0) []) (Fname 0) vs /\ rho 2 = app (Fname 0) vs) /\
  exists ax, special_assertion s_sort SName true (KVampire 0) [k_A] s_anc k_tq 0 children scmp0 60 1 all_on true (Fquant 0) [] = Some ax /\
    forall rho : env k_M, ~ holds ax rho.
Proof. exact capture. Qed.
Print Assumptions C32_capture_refuted.
