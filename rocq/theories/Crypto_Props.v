(** C33-C35, C74: the axioms for signatures, macs and authenticated encryption. *)
From Coq Require Import List Arith Bool Lia.
From Verif Require Import Syntax_Model Traversal_Model Traversal_Spec Semantics_Spec Semantics_Proofs Subst_Model Subst_Spec Subst_Proofs Order_Model Order_Spec Macro_Model
  Binding_Proofs Macro_Props Unify_Model Unify_Spec Unify_Proofs Graph_Model Graph_Spec Graph_Proofs Graph_Props Expander_Model Expander_Spec Expander_Proofs Expander_Props
  Exists_Model Exists_Spec Exists_Props Search_Model Search_Spec Search_Proofs Search_Props Crypto_Model Crypto_Spec Crypto_Proofs.
Import ListNotations.

(** ** C33 *)
(** What the general axioms say: unforgeability with the message in the place of the signature and conversely. *)
Lemma uf_general_meaning : forall get_sort main key split mac verify ax,
  uf_general get_sort (KVampire main) (KVampire key) true true split mac verify = Some ax ->
  forall (M : structure) (rho : env M), holds ax rho <->
    unforgeable M (fun u k => fint M (Fuser mac) [u; k]) (fun sigma m k => accepts M verify m sigma (named M k)) main key split.
Proof.
  intros get_sort main key split mac verify ax H M rho.
  apply (general_meaning M get_sort main key split _ _ (fun u k => fint M (Fuser mac) [u; k]) (fun a b k => accepts M verify a b (named M k)) ax rho H).
  - reflexivity.
  - intros a b k r. reflexivity.
Qed.
Lemma euf_general_meaning : forall get_sort main key split sign verify pk ax,
  euf_general get_sort (KVampire main) (KVampire key) true true split sign verify pk = Some ax ->
  forall (M : structure) (rho : env M), holds ax rho <->
    unforgeable M (fun u k => fint M (Fuser sign) [u; k]) (fun sigma m k => accepts M verify m sigma (fint M (Fuser pk) [named M k])) main key split.
Proof.
  intros get_sort main key split sign verify pk ax H M rho.
  apply (general_meaning M get_sort main key split _ _ (fun u k => fint M (Fuser sign) [u; k]) (fun a b k => accepts M verify a b (fint M (Fuser pk) [named M k])) ax rho H).
  - reflexivity.
  - intros a b k r. reflexivity.
Qed.
Theorem C33_general_meaning_partial : forall get_sort main key split,
  (forall mac verify ax, uf_general get_sort (KVampire main) (KVampire key) true true split mac verify = Some ax ->
   forall (M : structure) (rho : env M), holds ax rho <->
     unforgeable M (fun u k => fint M (Fuser mac) [u; k]) (fun sigma m k => accepts M verify m sigma (named M k)) main key split) /\
  (forall sign verify pk ax, euf_general get_sort (KVampire main) (KVampire key) true true split sign verify pk = Some ax ->
   forall (M : structure) (rho : env M), holds ax rho <->
     unforgeable M (fun u k => fint M (Fuser sign) [u; k]) (fun sigma m k => accepts M verify m sigma (fint M (Fuser pk) [named M k])) main key split).
Proof. exact (fun g i j s => conj (uf_general_meaning g i j s) (euf_general_meaning g i j s)). Qed.
Print Assumptions C33_general_meaning_partial.

(** A structure with one key: message 0 has the mac 2, every other message the mac 3; a mac is a subterm of itself only; the key occurs
    nowhere. [verify(s, m, k)] holds exactly when [s] is the mac of [m]. *)
Definition c_M : structure := sfinM (fun s => match s with SName => 10 | _ => 0 end) (fun s => match s with SName => 10 | _ => 3 end)
  (fun s ds => match s, ds with
     | Feval _, [d] => d | Fcast SMessage, _ => 1 | Fuser 0, [m; _] => if m =? 0 then 2 else 3
     | Fuser 1, [s; m; _] => b2n (s =? (if m =? 0 then 2 else 3)) | Fsubterm 0, [s; m] => b2n ((s =? m) && (2 <=? s))
     | Fuser 3, [k] => k | _, _ => 0 end).
Definition c_sort (f : formula) : option sort :=
  match f with
  | FVar v => Some (vsort v) | FFun (Fname _) _ => Some SName | FFun (Fstep _) _ => Some SStep | FFun Flt _ => Some SBool
  | FFun (Fb _) _ => Some SBool | FFun (Fuser 1) _ => Some SCondition | FFun (Fta _) _ => Some SCondition | _ => Some SMessage
  end.
Lemma swapped : uf_correct c_M 0 1 /\ uf_unforgeable c_M 0 1 0 1 4 /\ euf_unforgeable c_M 0 1 3 0 1 4 /\
  (exists ax, uf_general c_sort (KVampire 0) (KVampire 1) true true 4 0 1 = Some ax /\ forall rho : env c_M, ~ holds ax rho) /\
  (exists ax, euf_general c_sort (KVampire 0) (KVampire 1) true true 4 0 1 3 = Some ax /\ forall rho : env c_M, ~ holds ax rho).
Proof.
  assert (Hacc : forall a b k, accepts c_M 1 a b k <-> a = if b =? 0 then 2 else 3).
  { intros a b k. unfold accepts, tholds. cbn [c_M sfinM dtest fint]. rewrite n2b_b2n. apply Nat.eqb_eq. }
  assert (Hun : forall f : nat -> nat -> nat -> Prop, (forall sigma m k, f sigma m k -> sigma = if m =? 0 then 2 else 3) -> unforgeable c_M (fun u k => fint c_M (Fuser 0) [u; k]) f 0 1 4).
  { intros f Hf sigma m k Ds Dm Dk Ha Hno. apply Hf in Ha. apply (Hno m Dm eq_refl). right; left. subst sigma. unfold tholds. cbn [c_M sfinM dtest fint]. rewrite n2b_b2n.
    destruct (m =? 0); reflexivity. }
  split. { intros m k _ _. apply Hacc. reflexivity. }
  split. { apply Hun. intros sigma m k H. apply Hacc in H. exact H. }
  split. { apply Hun. intros sigma m k H. apply Hacc in H. exact H. }
  split; eexists; (split; [reflexivity|]); intros rho H; vm_compute in H; discriminate.
Qed.
Theorem C33_general_refuted : uf_correct c_M 0 1 /\ uf_unforgeable c_M 0 1 0 1 4 /\ euf_unforgeable c_M 0 1 3 0 1 4 /\
  (exists ax, uf_general c_sort (KVampire 0) (KVampire 1) true true 4 0 1 = Some ax /\ forall rho : env c_M, ~ holds ax rho) /\
  (exists ax, euf_general c_sort (KVampire 0) (KVampire 1) true true 4 0 1 3 = Some ax /\ forall rho : env c_M, ~ holds ax rho).
Proof. exact swapped. Qed.
Print Assumptions C33_general_refuted.

(** With the axiom that honest macs are accepted, the general axiom asks of every message [a] and key [k] that the mac of the mac of [a]
    (or the mac of something equal to it) occurs in the mac of [a] or in [a], or that the key leaks. *)
Lemma clash : forall get_sort main key split mac verify ax,
  uf_general get_sort (KVampire main) (KVampire key) true true split mac verify = Some ax ->
  forall (M : structure) (rho : env M), holds (uf_base mac verify) rho -> holds ax rho ->
  forall a k, dom M SMessage a -> dom M SName k -> dom M SMessage (named M k) -> let h := fint M (Fuser mac) [a; named M k] in dom M SMessage h ->
  ~ (forall u, dom M SMessage u -> value M u = value M h -> let hu := fint M (Fuser mac) [u; named M k] in
       ~ (tholds M (Fsubterm main) [hu; h] \/ tholds M (Fsubterm main) [hu; a] \/
          tholds M (Fsubterm key) [k; h] \/ tholds M (Fsubterm key) [k; a] \/ tholds M (Fuser split) [k])).
Proof.
  intros get_sort main key split mac verify ax H M rho Hb Hax a k Da Dk Dc h Dh. apply uf_base_meaning in Hb.
  pose proof (proj1 (uf_general_meaning _ _ _ _ _ _ _ H M rho) Hax) as Hg. apply (Hg a h k Da Dh Dk). apply Hb; assumption.
Qed.
Theorem C33_forces : forall get_sort main key split mac verify ax,
  uf_general get_sort (KVampire main) (KVampire key) true true split mac verify = Some ax ->
  forall (M : structure) (rho : env M), holds (uf_base mac verify) rho -> holds ax rho ->
  forall a k, dom M SMessage a -> dom M SName k -> dom M SMessage (named M k) -> let h := fint M (Fuser mac) [a; named M k] in dom M SMessage h ->
  ~ (forall u, dom M SMessage u -> value M u = value M h -> let hu := fint M (Fuser mac) [u; named M k] in
       ~ (tholds M (Fsubterm main) [hu; h] \/ tholds M (Fsubterm main) [hu; a] \/
          tholds M (Fsubterm key) [k; h] \/ tholds M (Fsubterm key) [k; a] \/ tholds M (Fuser split) [k])).
Proof. exact clash. Qed.
Print Assumptions C33_forces.

(** The axiom for honest macs. *)
Theorem C33_base : forall mac verify (M : structure) (rho : env M), holds (uf_base mac verify) rho <-> uf_correct M mac verify.
Proof. exact (fun mac verify M rho => uf_base_meaning M mac verify rho). Qed.
Print Assumptions C33_base.

(** Candidates for instances: every verification at any depth, with message, signature and key in their places (renamed), and nothing
    else. *)
Theorem C33_uf_candidates : forall mac verify hmac mv tlts,
  exists n, forall fuel, n <= fuel -> exists cs, candidates (uf_found mac verify hmac) fuel mv tlts = Some cs /\
  (forall t p f m s k, In t tlts -> at_path t p f -> uf_checks mac verify hmac f m s k -> exists m' s' k' c,
     translate_vars mv m = Some m' /\ translate_vars mv s = Some s' /\ translate_vars mv k = Some k' /\ In c cs /\
     rich_eqb m' (ca_message c) = true /\ rich_eqb s' (ca_signature c) = true /\ rich_eqb k' (ca_key c) = true) /\
  (forall c, In c cs -> exists t p f m s k, In t tlts /\ at_path t p f /\ uf_checks mac verify hmac f m s k /\
     translate_vars mv m = Some (ca_message c) /\ translate_vars mv s = Some (ca_signature c) /\ translate_vars mv k = Some (ca_key c)).
Proof. exact (fun mac verify hmac mv tlts => candidates_exact _ _ (uf_found_in mac verify hmac) mv tlts). Qed.
Print Assumptions C33_uf_candidates.
Theorem C33_euf_candidates : forall verify pk mv tlts,
  exists n, forall fuel, n <= fuel -> exists cs, candidates (euf_found verify pk) fuel mv tlts = Some cs /\
  (forall t p f m s k, In t tlts -> at_path t p f -> euf_checks verify pk f m s k -> exists m' s' k' c,
     translate_vars mv m = Some m' /\ translate_vars mv s = Some s' /\ translate_vars mv k = Some k' /\ In c cs /\
     rich_eqb m' (ca_message c) = true /\ rich_eqb s' (ca_signature c) = true /\ rich_eqb k' (ca_key c) = true) /\
  (forall c, In c cs -> exists t p f m s k, In t tlts /\ at_path t p f /\ euf_checks verify pk f m s k /\
     translate_vars mv m = Some (ca_message c) /\ translate_vars mv s = Some (ca_signature c) /\ translate_vars mv k = Some (ca_key c)).
Proof. exact (fun verify pk mv tlts => candidates_exact _ _ (euf_found_in verify pk) mv tlts). Qed.
Print Assumptions C33_euf_candidates.

(** An instance is only produced when no name that the key search visits can be the key; then it says, for all values of the variables of
    the candidate, that an accepted signature implies one of the uses found, for some message of the same value.
    Missing: clashing bound variables (see C31); completeness of the search for the uses (see C32, C34). *)
Theorem C33_instance_partial : forall get_sort steps cells anc tq mfuel scmp, (forall a b, scmp a b = Eq <-> a = b) ->
  forall sound_main sound_key kmain kkey main_nexts key_nexts signed premise fuel mv c ax,
  instance get_sort steps cells anc tq mfuel scmp true sound_main sound_key kmain kkey main_nexts key_nexts signed premise fuel mv c = Some (Some ax) ->
  exists uid free ds,
  formulas_max_var_or_max tq fuel [ca_message c; ca_signature c; ca_key c] mv = Some uid /\
  (forall i, In i (map vid free) <-> occurs_free i (ca_message c) \/ occurs_free i (ca_signature c) \/ occurs_free i (ca_key c)) /\
  finds_nothing get_sort steps anc tq mfuel SName sound_key kkey key_nexts fuel (ca_key c)
    (terms_and_bvars steps cells ++ [(ca_message c, []); (ca_signature c, [])]) false (mkFlags true false false false true) = Some true /\
  preprocess_terms get_sort SMessage sound_main kmain steps anc tq mfuel main_nexts fuel
    (signed (FVar (mkVar uid SMessage)) (cast_name (ca_key c))) [(ca_message c, []); (ca_signature c, [])] true (mkFlags true true true true true) = Some ds /\
  ((forall d, In d ds -> one_sort (fst d)) -> no_clash ds -> forall M : structure, (forall s, exists d, dom M s d) ->
    forall rho : env M, holds ax rho <->
    forall vs, typed free vs -> let rho' := bindv rho free vs in
      holds (premise (ca_signature c) (ca_message c) (cast_name (ca_key c))) rho' ->
      ~ (forall u, dom M SMessage u -> eval (ev_msg (FVar (mkVar uid SMessage))) (upd rho' uid u) = eval (ev_msg (ca_message c)) (upd rho' uid u) ->
           ~ exists d, In d ds /\ holds (mk_exists (fst d) (snd d)) (upd rho' uid u))).
Proof. exact instance_meaning. Qed.
Print Assumptions C33_instance_partial.
(** In the evaluated realm: one of the uses found, for the message itself. Missing besides: capture (see C06). *)
Theorem C33_instance_evaluated_partial : forall get_sort steps cells anc tq mfuel scmp, (forall a b, scmp a b = Eq <-> a = b) ->
  forall sound_main sound_key kmain kkey main_nexts key_nexts signed premise fuel mv c ax,
  instance get_sort steps cells anc tq mfuel scmp false sound_main sound_key kmain kkey main_nexts key_nexts signed premise fuel mv c = Some (Some ax) ->
  exists uid free ds,
  formulas_max_var_or_max tq fuel [ca_message c; ca_signature c; ca_key c] mv = Some uid /\
  (forall i, In i (map vid free) <-> occurs_free i (ca_message c) \/ occurs_free i (ca_signature c) \/ occurs_free i (ca_key c)) /\
  finds_nothing get_sort steps anc tq mfuel SName sound_key kkey key_nexts fuel (ca_key c)
    (terms_and_bvars steps cells ++ [(ca_message c, []); (ca_signature c, [])]) false (mkFlags true false false false true) = Some true /\
  preprocess_terms get_sort SMessage sound_main kmain steps anc tq mfuel main_nexts fuel
    (signed (FVar (mkVar uid SMessage)) (cast_name (ca_key c))) [(ca_message c, []); (ca_signature c, [])] true (mkFlags true true true true true) = Some ds /\
  ((forall d, In d ds -> one_sort (fst d)) -> no_clash ds -> no_capture (one_var uid (ca_message c)) (into_exist_formula scmp ds) ->
    forall M : structure, (forall s, exists d, dom M s d) ->
    forall rho : env M, holds ax rho <->
    forall vs, typed free vs -> let rho' := bindv rho free vs in
      holds (premise (ca_signature c) (ca_message c) (cast_name (ca_key c))) rho' ->
      exists d, In d ds /\ holds (mk_exists (fst d) (snd d)) (upd rho' uid (eval (ca_message c) rho'))).
Proof. exact instance_evaluated. Qed.
Print Assumptions C33_instance_evaluated_partial.
(** The instances of the two assumptions have the premise of the verification, signature first. *)
Theorem C33_premise : forall (M : structure) (rho : env M) sg m k,
  (forall mac verify, holds (uf_premise mac verify false sg m k) rho <-> accepts M verify (eval sg rho) (eval m rho) (eval k rho)) /\
  (forall mac verify, holds (uf_premise mac verify true sg m k) rho <-> value M (eval sg rho) = value M (fint M (Fuser mac) [eval m rho; eval k rho])) /\
  (forall verify pk, holds (euf_premise verify pk sg m k) rho <-> accepts M verify (eval sg rho) (eval m rho) (fint M (Fuser pk) [eval k rho])).
Proof. exact (fun M rho sg m k => conj (fun mac verify => iff_refl _) (conj (fun mac verify => holds_meq _ _ _ _) (fun verify pk => iff_refl _))). Qed.
Print Assumptions C33_premise.
(** The key is looked for in every condition, every message and every assignment, under the variables of the step and of the assignment. *)
Lemma searched : forall steps cells t bvs, In (t, bvs) (terms_and_bvars steps cells) <->
  (exists s, In s steps /\ (t = ps_cond s \/ t = ps_msg s) /\ bvs = ps_vars s) \/
  (exists c a, In c cells /\ In a (ce_asgs c) /\ t = as_content a /\ bvs = ps_vars (as_step a) ++ as_fresh a).
Proof.
  intros steps cells t bvs. unfold terms_and_bvars. rewrite in_app_iff, !in_flat_map. split.
  - intros [(s & Hs & [E|[E|[]]])|(c & Hc & H)].
    + injection E as <- <-. left. eauto 6.
    + injection E as <- <-. left. eauto 6.
    + apply in_map_iff in H as (a & E & Ha). injection E as <- <-. right. exists c, a. auto.
  - intros [(s & Hs & Ht & ->)|(c & a & Hc & Ha & -> & ->)].
    + left. exists s. split; [exact Hs|]. cbn. destruct Ht as [->| ->]; auto.
    + right. exists c. split; [exact Hc|]. apply in_map_iff. exists a. auto.
Qed.
Theorem C33_searched : forall steps cells t bvs, In (t, bvs) (terms_and_bvars steps cells) <->
  (exists s, In s steps /\ (t = ps_cond s \/ t = ps_msg s) /\ bvs = ps_vars s) \/
  (exists c a, In c cells /\ In a (ce_asgs c) /\ t = as_content a /\ bvs = ps_vars (as_step a) ++ as_fresh a).
Proof. exact searched. Qed.
Print Assumptions C33_searched.
Theorem C33_key_partial : forall get_sort steps anc tq mfuel sound kind nexts fuel x ms keep fl,
  finds_nothing get_sort steps anc tq mfuel SName sound kind nexts fuel x ms keep fl = Some true ->
  forall m bvs f st, In (m, bvs) ms -> visits steps anc tq nexts (m, mkSt fl bvs None) (f, st) -> get_sort f = Some SName ->
  (forall v, x <> FVar v) /\ (linear x -> linear f -> vars_apart x f -> ~ unifiable x f) /\ (no_vars f -> ~ unifiable x f).
Proof. exact nothing_found. Qed.
Print Assumptions C33_key_partial.

(** Step [A(i)] sends [mac(n1(i), k)]; the query tests [verify(input@t, b, k)]. *)
Definition nm (i : nat) (l : list formula) : formula := cast_name (FFun (Fname i) l).
Definition c_k : formula := FFun (Fname 0) [].
Definition c_A : pstep := mkPStep 1 [ix 0] TRUE (FFun (Fuser 0) [nm 1 [FVar (ix 0)]; nm 0 []]).
Definition c_t : var := mkVar 1 SStep.
Definition c_b : formula := FFun (Fuser 9) [].
Definition c_in (t : var) : formula := FFun (Fmacro MInput) [FVar t].
Definition c_query : formula := fimp TRUE (ev_cond (FFun (Fuser 1) [c_in c_t; c_b; cast_name c_k])).
Example C33_example :
  candidates (uf_found 0 1 false) 30 5 [c_query] = Some [mkCand c_b (c_in (mkVar 6 SStep)) c_k] /\
  uf_instance c_sort [c_A] [] s_anc (fun _ => mkTaQuant [] [] []) 30 scmp0 true true true (KVampire 0) (KVampire 1) 0 1 false 60 5
    (mkCand c_b (c_in (mkVar 6 SStep)) c_k) =
  Some (Some (mk_forall [mkVar 6 SStep]
    (fimp (ev_cond (FFun (Fuser 1) [c_in (mkVar 6 SStep); c_b; cast_name c_k]))
       (mk_exists [mkVar 7 SMessage] (fand (meq (ev_msg (FVar (mkVar 7 SMessage))) (ev_msg c_b))
          (ors [mk_exists [ix 0] (ors [ands [meq (FVar (mkVar 7 SMessage)) (nm 1 [FVar (ix 0)]);
             lt (FFun (Fstep 1) [FVar (ix 0)]) (FVar (mkVar 6 SStep))]])])))))).
Proof. split; vm_compute; reflexivity. Qed.
(** When the step also sends the key, there is no axiom. *)
Example C33_example_leak :
  uf_instance c_sort [mkPStep 1 [] TRUE (FFun (Fuser 8) [nm 0 []])] [] s_anc (fun _ => mkTaQuant [] [] []) 30 scmp0 true true true (KVampire 0) (KVampire 1) 0 1 false 60 5
    (mkCand c_b (c_in (mkVar 6 SStep)) c_k) = Some None.
Proof. vm_compute. reflexivity. Qed.
Example C33_example_euf :
  candidates (euf_found 1 3) 30 5 [fnot (ev_cond (FFun (Fuser 1) [c_in c_t; c_b; FFun (Fuser 3) [cast_name c_k]]))] = Some [mkCand c_b (c_in (mkVar 6 SStep)) c_k] /\
  exists ax, euf_instance c_sort [mkPStep 1 [ix 0] TRUE (FFun (Fuser 8) [FFun (Fuser 2) [nm 1 [FVar (ix 0)]; nm 0 []]; FFun (Fuser 3) [nm 0 []]])] [] s_anc
    (fun _ => mkTaQuant [] [] []) 30 scmp0 true true true (KVampire 0) (KVampire 1) 2 1 3 80 5 (mkCand c_b (c_in (mkVar 6 SStep)) c_k) = Some (Some ax).
Proof. split; [vm_compute; reflexivity|]. eexists. vm_compute. reflexivity. Qed.

(** ** C34 *)
(** Every subterm is visited, except for the macs that are compared directly, when no equality has a mac on one side only (or without
    hmac). *)
Theorem C34_visits_partial : forall steps anc tq mac verify hmac st, mac <> verify ->
  forall f p g, at_path f p g -> (hmac = true -> forall q, ~ one_sided mac f q) ->
  visits steps anc tq (uf_main_nexts mac verify hmac) (f, st) (g, st) \/ compared mac verify hmac f p.
Proof. exact (fun steps anc tq mac verify hmac st H f p g => main_visits steps anc tq mac verify hmac st H (length p) p (le_n _) f g). Qed.
Print Assumptions C34_visits_partial.

(** Otherwise the other side is not visited: here [mac(b, k)] in [mac(a, k) = u(mac(b, k))] is at a position of the term but is never
    visited, and the search for macs of [x] reports nothing for it. *)
Definition c_a : formula := FFun (Fuser 10) [].
Definition c_mac (m : formula) : formula := FFun (Fuser 0) [m; cast_name c_k].
Definition c_eq : formula := meq (c_mac c_a) (FFun (Fuser 8) [c_mac c_b]).
Lemma other_side_missed : at_path c_eq [1; 0] (c_mac c_b) /\ ~ compared 0 1 true c_eq [1; 0] /\
  (forall steps anc tq st, (forall e, visits steps anc tq (uf_main_nexts 0 1 true) (c_eq, st) e -> fst e <> c_mac c_b)) /\
  preprocess_terms c_sort SMessage true (KVampire 0) [] s_anc (fun _ => mkTaQuant [] [] []) 30 (uf_main_nexts 0 1 true) 30
    (FFun (Fuser 0) [FVar (mkVar 7 SMessage); cast_name c_k]) [(c_eq, [])] true ALL = Some [] /\
  preprocess_terms c_sort SMessage true (KVampire 0) [] s_anc (fun _ => mkTaQuant [] [] []) 30 children 30
    (FFun (Fuser 0) [FVar (mkVar 7 SMessage); cast_name c_k]) [(c_eq, [])] true ALL <> Some [].
Proof.
  split. { repeat (econstructor; [reflexivity|]). constructor. }
  split.
  { intros (q & i & g & s & args & Hp & Hg & _ & Hq & Hd). destruct q as [|a q]; [discriminate|]. destruct q as [|b q]; [|destruct q; discriminate].
    injection Hp as <- <-. apply child_fun in Hq. cbn in Hq. injection Hq as <- <-. destruct Hd as [(_ & [E|E] & _)|(E & _)]; discriminate. }
  split.
  { intros steps anc tq st.
    assert (H : forall e e', visits steps anc tq (uf_main_nexts 0 1 true) e e' -> In (fst e) [c_eq; c_a; cast_name c_k; c_k] -> In (fst e') [c_eq; c_a; cast_name c_k; c_k]).
    { intros e e' Hv. induction Hv as [e|f s a e Ha Hv IH|f s us u e Eu Hu Hv IH]; intros Hin; [exact Hin| |].
      - apply IH. cbn [fst In] in Hin. destruct Hin as [E|[E|[E|[E|[]]]]]; subst f; cbn in Ha; [destruct Ha as [<-|[<-|[]]]; cbn; auto|destruct Ha|destruct Ha as [<-|[]]; cbn; auto|destruct Ha].
      - exfalso. cbn [fst In] in Hin. destruct Hin as [E|[E|[E|[E|[]]]]]; subst f; cbn in Eu; injection Eu as <-; destruct Hu. }
    intros e He E. apply H in He; [|left; reflexivity]. rewrite E in He. cbn [In] in He. destruct He as [He|[He|[He|[He|[]]]]]; discriminate. }
  split; [vm_compute; reflexivity|]. vm_compute. discriminate.
Qed.
Theorem C34_other_side_refuted : at_path c_eq [1; 0] (c_mac c_b) /\ ~ compared 0 1 true c_eq [1; 0] /\
  (forall steps anc tq st, (forall e, visits steps anc tq (uf_main_nexts 0 1 true) (c_eq, st) e -> fst e <> c_mac c_b)) /\
  preprocess_terms c_sort SMessage true (KVampire 0) [] s_anc (fun _ => mkTaQuant [] [] []) 30 (uf_main_nexts 0 1 true) 30
    (FFun (Fuser 0) [FVar (mkVar 7 SMessage); cast_name c_k]) [(c_eq, [])] true ALL = Some [] /\
  preprocess_terms c_sort SMessage true (KVampire 0) [] s_anc (fun _ => mkTaQuant [] [] []) 30 children 30
    (FFun (Fuser 0) [FVar (mkVar 7 SMessage); cast_name c_k]) [(c_eq, [])] true ALL <> Some [].
Proof. exact other_side_missed. Qed.
Print Assumptions C34_other_side_refuted.

(** A test for the hypothesis. *)
Definition macb (mac : nat) (f : formula) : bool := match f with FFun s _ => fsym_eqb s (Fuser mac) | _ => false end.
Fixpoint even_sided (mac : nat) (f : formula) : bool :=
  match f with
  | FVar _ => true
  | FFun s args =>
      (match args with [l; r] => if fsym_eqb s (Fb CEq) || fsym_eqb s (Fta TEq) then Bool.eqb (macb mac l) (macb mac r) else true | _ => true end) &&
      forallb (even_sided mac) args
  | FQ _ _ b => even_sided mac b
  end.
Lemma macb_true mac f : macb mac f = true <-> is_mac mac f.
Proof.
  split.
  - destruct f as [v|s args|q vs b]; try discriminate. intros H. apply fsym_eqb_true in H as ->. eexists; reflexivity.
  - intros (args & ->). apply fsym_eqb_true. reflexivity.
Qed.
Lemma even_sided_spec mac f : even_sided mac f = true -> forall q, ~ one_sided mac f q.
Proof.
  intros H q (s & l & r & Hq & Hs & Hor). revert H. remember (FFun s [l; r]) as g eqn:Eg. induction Hq as [f|h args i p a g Hn Hp IH|q vs b p g Hp IH]; intros H.
  - subst f. cbn [even_sided] in H. apply andb_prop in H as [H _].
    replace (fsym_eqb s (Fb CEq) || fsym_eqb s (Fta TEq)) with true in H by (destruct Hs as [->| ->]; reflexivity).
    apply eqb_prop in H. rewrite <- !macb_true in Hor. destruct Hor as [[H1 H2]|[H1 H2]]; congruence.
  - cbn [even_sided] in H. apply andb_prop in H as [_ H]. rewrite forallb_forall in H. apply IH; [exact Eg|]. apply H. eapply nth_error_In; eauto.
  - apply IH; auto.
Qed.

(** Two macs compared, one of them of a mac; and a verification of a mac. *)
Example C34_example :
  let f := fimp (meq (c_mac c_a) (c_mac (c_mac c_b))) (FFun (Fuser 1) [c_mac c_b; c_a; cast_name c_k]) in
  (forall q, ~ one_sided 0 f q) /\ at_path f [0; 1; 0] (c_mac c_b) /\ ~ compared 0 1 true f [0; 1; 0] /\ compared 0 1 true f [0; 1].
Proof.
  assert (Hm : forall m, is_mac 0 (c_mac m)) by (intros m; eexists; reflexivity).
  split.
  { apply even_sided_spec. reflexivity. }
  split. { repeat (econstructor; [reflexivity|]). constructor. }
  split.
  { intros (q & i & g & s & args & Hp & Hg & _ & Hq & Hd). destruct q as [|x [|y [|z q]]]; try discriminate; [|destruct q; discriminate].
    injection Hp as <- <- <-. apply at_path_cons in Hq as (a & Ha & Hq). apply child_fun in Ha. injection Ha as <-. apply child_fun in Hq. injection Hq as <- <-.
    destruct Hd as [(_ & [E|E] & _)|(E & _)]; discriminate. }
  exists [0], 1, (c_mac (c_mac c_b)), (Fb CEq), [c_mac c_a; c_mac (c_mac c_b)]. split; [reflexivity|]. split; [repeat (econstructor; [reflexivity|]); constructor|].
  split; [apply Hm|]. split; [repeat (econstructor; [reflexivity|]); constructor|]. left. split; [reflexivity|]. split; [left; reflexivity|reflexivity].
Qed.

(** ** C35 *)
(** The top level terms that are encryptions are all collected, and the side condition tells whether they are all randomised by a name. *)
Theorem C35_top_level_partial : forall enc tlts es sc, enc_candidates enc tlts = (es, sc) ->
  (sc = true <-> forall t m r k, In t tlts -> is_enc enc t m r k -> exists n l, r = FFun (Fcast SMessage) (n :: l)) /\
  (forall t m n l k, In t tlts -> is_enc enc t m (FFun (Fcast SMessage) (n :: l)) k ->
     exists e, In e es /\ rich_eqb n (en_rand e) = true /\ rich_eqb m (en_message e) = true /\ rich_eqb k (en_key e) = true) /\
  (forall e, In e es -> exists t l, In t tlts /\ is_enc enc t (en_message e) (FFun (Fcast SMessage) (en_rand e :: l)) (en_key e)).
Proof. exact enc_candidates_spec. Qed.
Print Assumptions C35_top_level_partial.

(** Two messages encrypted with the same randomness: inside other terms they are not seen; at top level they are seen, but as the two
    messages do not unify the condition on them is dropped. In both cases an instance is produced, whose side condition is true in every
    structure. *)
Definition c_enc (m : formula) : formula := FFun (Fuser 5) [m; nm 1 []; cast_name c_k].
Definition c_steps (f : formula -> formula) : list pstep := [mkPStep 1 [] TRUE (f (c_enc c_a)); mkPStep 2 [] TRUE (f (c_enc c_b))].
Definition c_tlts (f : formula -> formula) : list formula := map fst (terms_and_bvars (c_steps f) []).
Definition c_inst (f : formula -> formula) : option (option formula) :=
  let (es, sc) := enc_candidates 5 (c_tlts f) in
  ctxt_instance c_sort (fun _ => mkTaQuant [] [] []) 30 true true (KVampire 0) (KVampire 1) (c_steps f) [] s_anc scmp0 5 6 7 80 5 es sc (c_in (mkVar 6 SStep), c_k).
Lemma reuse_missed :
  enc_candidates 5 (c_tlts (fun t => FFun (Fuser 8) [t])) = ([], true) /\
  enc_candidates 5 (c_tlts (fun t => t)) = ([mkEnc (FFun (Fname 1) []) c_a (cast_name c_k); mkEnc (FFun (Fname 1) []) c_b (cast_name c_k)], true) /\
  forall f, f = (fun t => FFun (Fuser 8) [t]) \/ f = (fun t => t) -> exists ax, c_inst f = Some (Some ax) /\
    other_sc c_sort 30 80 9 (cast_name c_k) (fst (enc_candidates 5 (c_tlts f))) = Some (ands []) /\ forall (M : structure) (rho : env M), holds (ands []) rho.
Proof.
  split; [vm_compute; reflexivity|]. split; [vm_compute; reflexivity|]. intros f [-> | ->].
  - eexists. split; [vm_compute; reflexivity|]. split; [vm_compute; reflexivity|]. intros M rho. apply holds_and_list. constructor.
  - eexists. split; [vm_compute; reflexivity|]. split; [vm_compute; reflexivity|]. intros M rho. apply holds_and_list. constructor.
Qed.
Theorem C35_reuse_refuted :
  enc_candidates 5 (c_tlts (fun t => FFun (Fuser 8) [t])) = ([], true) /\
  enc_candidates 5 (c_tlts (fun t => t)) = ([mkEnc (FFun (Fname 1) []) c_a (cast_name c_k); mkEnc (FFun (Fname 1) []) c_b (cast_name c_k)], true) /\
  forall f, f = (fun t => FFun (Fuser 8) [t]) \/ f = (fun t => t) -> exists ax, c_inst f = Some (Some ax) /\
    other_sc c_sort 30 80 9 (cast_name c_k) (fst (enc_candidates 5 (c_tlts f))) = Some (ands []) /\ forall (M : structure) (rho : env M), holds (ands []) rho.
Proof. exact reuse_missed. Qed.
Print Assumptions C35_reuse_refuted.

(** Decryptions are found at any depth. *)
Theorem C35_decryptions : forall dec mv tlts,
  exists n, forall fuel, n <= fuel -> exists cs, dec_candidates dec fuel mv tlts = Some cs /\
  (forall t p c k, In t tlts -> at_path t p (FFun (Fuser dec) [c; FFun (Fcast SMessage) [k]]) -> exists c' k' d,
     translate_vars mv c = Some c' /\ translate_vars mv k = Some k' /\ In d cs /\ rich_eqb c' (fst d) = true /\ rich_eqb k' (snd d) = true) /\
  (forall d, In d cs -> exists t p c k, In t tlts /\ at_path t p (FFun (Fuser dec) [c; FFun (Fcast SMessage) [k]]) /\
     translate_vars mv c = Some (fst d) /\ translate_vars mv k = Some (snd d)).
Proof. exact dec_candidates_exact. Qed.
Print Assumptions C35_decryptions.
(** An instance needs every candidate encryption to use a name, and no leak of the key that the search sees; it then says that a
    decryption that does not fail, under the condition on the pairs of encryptions, implies that the cipher is one of the encryptions found. *)
Theorem C35_instance_partial : forall get_sort steps cells anc tq mfuel scmp, (forall a b, scmp a b = Eq <-> a = b) ->
  forall sound_main sound_key kmain kkey enc dec fail fuel mv es sc cipher key ax,
  ctxt_instance get_sort tq mfuel sound_main sound_key kmain kkey steps cells anc scmp enc dec fail fuel mv es sc (cipher, key) = Some (Some ax) ->
  sc = true /\ exists uid free ds other,
  formulas_max_var_or_max tq fuel [cipher; key] mv = Some uid /\
  (forall i, In i (map vid free) <-> occurs_free i cipher \/ occurs_free i key) /\
  finds_nothing get_sort steps anc tq mfuel SName sound_key kkey (ctxt_key_nexts enc dec) fuel key
    (terms_and_bvars steps cells ++ [(cipher, [])]) false (mkFlags true false false false true) = Some true /\
  other_sc get_sort mfuel fuel (uid + 2) (cast_name key) es = Some other /\
  let made := FFun (Fuser enc) [FVar (mkVar uid SMessage); cast_name (FVar (mkVar (uid + 1) SName)); cast_name key] in
  preprocess_terms get_sort SMessage sound_main kmain steps anc tq mfuel children fuel made [(cipher, [])] true (mkFlags true true true true true) = Some ds /\
  ((forall d, In d ds -> one_sort (fst d)) -> no_clash ds -> forall M : structure, (forall s, exists d, dom M s d) ->
    forall rho : env M, holds ax rho <->
    forall vs, typed free vs -> let rho' := bindv rho free vs in
      eval (ev_msg (FFun (Fuser dec) [cipher; cast_name key])) rho' <> eval (ev_msg (FFun (Fuser fail) [])) rho' -> holds other rho' ->
      ~ (forall u r, dom M SMessage u -> dom M SName r -> let rho2 := upd (upd rho' uid u) (uid + 1) r in
           eval (ev_msg cipher) rho2 = eval (ev_msg made) rho2 -> ~ exists d, In d ds /\ holds (mk_exists (fst d) (snd d)) rho2)).
Proof. exact ctxt_meaning. Qed.
Print Assumptions C35_instance_partial.
(** The condition: for every two candidates whose randomness, keys and messages unify, the equations of the randomness and of the key of
    the decryption imply those of the keys and of the messages. *)
Theorem C35_condition_partial : forall get_sort mfuel fuel mv k_f,
  (forall es other, other_sc get_sort mfuel fuel mv k_f es = Some other -> forall (M : structure) (rho : env M),
     holds other rho <-> forall i j e1 e2 f, i < j -> nth_error es i = Some e1 -> nth_error es j = Some e2 ->
       pair_condition get_sort mfuel fuel mv k_f (e1, e2) = Some (Some f) -> holds f rho) /\
  (forall e1 e2 f, pair_condition get_sort mfuel fuel mv k_f (e1, e2) = Some (Some f) ->
     exists r2 k2 m2 uk ur uk12 um free,
     translate_vars mv (en_rand e2) = Some r2 /\ translate_vars mv (en_key e2) = Some k2 /\ translate_vars mv (en_message e2) = Some m2 /\
     mgu mfuel k_f (en_key e1) = Some (Some uk) /\ mgu mfuel (en_rand e1) r2 = Some (Some ur) /\
     mgu mfuel (en_key e1) k2 = Some (Some uk12) /\ mgu mfuel (en_message e1) m2 = Some (Some um) /\
     (forall i, In i (map vid free) <-> exists g, In g [en_rand e1; en_message e1; en_key e1; r2; m2] /\ occurs_free i g) /\
     ((forall u, In u [uk; ur; uk12; um] -> as_equalities get_sort u <> None) -> forall (M : structure) (rho : env M), holds f rho <->
       forall vs, typed free vs -> let rho' := bindv rho free vs in
         solves M rho' ur -> solves M rho' uk -> solves M rho' uk12 /\ solves M rho' um)).
Proof. exact (fun g n fuel mv k => conj (other_meaning g n fuel mv k) (pair_meaning g (fun _ => mkTaQuant [] [] []) n fuel mv k)). Qed.
Print Assumptions C35_condition_partial.
(** Randomness [n1(i)] for two messages [u(i)] and [u(j)]: a condition is stated, with free variables of both. *)
Example C35_condition_example :
  let e i := mkEnc (FFun (Fname 1) [FVar (ix i)]) (FFun (Fuser 8) [FVar (ix i)]) (cast_name c_k) in
  exists f, pair_condition c_sort 30 80 9 (cast_name c_k) (e 0, e 1) = Some (Some f) /\ free_vars 80 f = Some [] /\
  other_sc c_sort 30 80 9 (cast_name c_k) [e 0; e 1] = Some (ands [f]).
Proof. eexists. vm_compute. repeat split. Qed.

(** ** C74 *)
Theorem C74_uf_key : forall mac verify,
  (forall f a, In a (uf_key_nexts mac verify f) <-> exists i, at_path f [i] a /\ ~ key_position (uf_uses mac verify) f i) /\
  forall steps anc tq st f p g, at_path f p g -> visits steps anc tq (uf_key_nexts mac verify) (f, st) (g, st) \/ under_key (uf_uses mac verify) f p.
Proof.
  exact (fun mac verify => conj (uf_key_exact mac verify)
    (fun steps anc tq st f p g => visits_all steps anc tq _ _ (uf_uses_dec mac verify) (uf_key_exact mac verify) f p g st)).
Qed.
Print Assumptions C74_uf_key.
Theorem C74_euf_key : forall sign pk,
  (forall f a, In a (euf_key_nexts sign pk f) <-> exists i, at_path f [i] a /\ ~ key_position (euf_uses sign pk) f i) /\
  forall steps anc tq st f p g, at_path f p g -> visits steps anc tq (euf_key_nexts sign pk) (f, st) (g, st) \/ under_key (euf_uses sign pk) f p.
Proof.
  exact (fun sign pk => conj (euf_key_exact sign pk)
    (fun steps anc tq st f p g => visits_all steps anc tq _ _ (euf_uses_dec sign pk) (euf_key_exact sign pk) f p g st)).
Qed.
Print Assumptions C74_euf_key.
Theorem C74_ctxt_key : forall enc dec,
  (forall f a, In a (ctxt_key_nexts enc dec f) <-> exists i, at_path f [i] a /\ ~ key_position (ctxt_uses enc dec) f i) /\
  forall steps anc tq st f p g, at_path f p g -> visits steps anc tq (ctxt_key_nexts enc dec) (f, st) (g, st) \/ under_key (ctxt_uses enc dec) f p.
Proof.
  exact (fun enc dec => conj (ctxt_key_exact enc dec)
    (fun steps anc tq st f p g => visits_all steps anc tq _ _ (ctxt_uses_dec enc dec) (ctxt_key_exact enc dec) f p g st)).
Qed.
Print Assumptions C74_ctxt_key.
Theorem C74_ctxt_rand : forall enc,
  (forall f a, In a (ctxt_rand_nexts enc f) <-> exists i, at_path f [i] a /\ ~ key_position (rand_uses enc) f i) /\
  forall steps anc tq st f p g, at_path f p g -> visits steps anc tq (ctxt_rand_nexts enc) (f, st) (g, st) \/ under_key (rand_uses enc) f p.
Proof.
  exact (fun enc => conj (ctxt_rand_exact enc)
    (fun steps anc tq st f p g => visits_all steps anc tq _ _ (rand_uses_dec enc) (ctxt_rand_exact enc) f p g st)).
Qed.
Print Assumptions C74_ctxt_rand.
(** In [mac(n1, n1)] the message is visited and the key is not; in [mac(n1, u(n1))] both are visited. *)
Example C74_example :
  uf_key_nexts 0 1 (FFun (Fuser 0) [nm 1 []; nm 1 []]) = [nm 1 []] /\
  key_position (uf_uses 0 1) (FFun (Fuser 0) [nm 1 []; nm 1 []]) 1 /\
  uf_key_nexts 0 1 (FFun (Fuser 0) [nm 1 []; FFun (Fuser 8) [nm 1 []]]) = [nm 1 []; FFun (Fuser 8) [nm 1 []]].
Proof.
  split; [reflexivity|]. split; [|reflexivity]. exists (Fuser 0), [nm 1 []; nm 1 []], [FFun (Fname 1) []]. split; [reflexivity|]. split; [left; auto|reflexivity].
Qed.

(** ** C75 *)
Lemma ctxt_base_meaning : forall enc dec (M : structure) (rho : env M), holds (ctxt_base enc dec) rho <-> decrypts M enc dec.
Proof.
  intros enc dec M rho. unfold ctxt_base. rewrite holds_all. unfold decrypts. split.
  - intros H m r k Dm Dr Dk. exact (proj1 (holds_meq _ _ _ _) (H [m; r; k] ltac:(repeat constructor; assumption))).
  - intros H ds Hds. inversion Hds as [|? m ? ? Dm Hds1]; subst. inversion Hds1 as [|? r ? ? Dr Hds2]; subst.
    apply typed_one in Hds2 as (k & -> & Dk). apply holds_meq. exact (H m r k Dm Dr Dk).
Qed.
Theorem C75_base_partial : forall enc dec (M : structure) (rho : env M), holds (ctxt_base enc dec) rho <-> decrypts M enc dec.
Proof. exact ctxt_base_meaning. Qed.
Print Assumptions C75_base_partial.
(** The general axiom decrypts with a name instead of a message. *)
Lemma ctxt_general_sorts : forall get_sort i j l enc dec fail, exists ax,
  ctxt_general get_sort (KVampire i) (KVampire j) (KVampire l) true true true enc dec fail = Some ax /\ ~ argument_sorted ax (Fuser dec) 1 SMessage.
Proof.
  intros get_sort i j l enc dec fail. eexists. split; [reflexivity|]. intros H.
  specialize (H [0; 0; 0; 0; 0] [FVar (mkVar 1 SMessage); FVar (mkVar 3 SName)] (mkVar 3 SName)).
  enough (SName = SMessage) by discriminate. apply H; [|reflexivity]. constructor. repeat (econstructor; [reflexivity|]). constructor.
Qed.
Theorem C75_sorts_refuted : forall get_sort i j l enc dec fail, exists ax,
  ctxt_general get_sort (KVampire i) (KVampire j) (KVampire l) true true true enc dec fail = Some ax /\ ~ argument_sorted ax (Fuser dec) 1 SMessage.
Proof. exact ctxt_general_sorts. Qed.
Print Assumptions C75_sorts_refuted.
Definition c_M2 : structure := sfinM (fun _ => 0) (fun _ => 3) (fun s ds => match s, ds with Feval _, [d] => d | Fuser 5, [m; _; _] => m | Fuser 6, [c; _] => c | _, _ => 0 end).
Example C75_example : decrypts c_M2 5 6 /\ ~ decrypts c_M 5 6.
Proof.
  split; [intros m r k _ _ _; reflexivity|]. intros H. specialize (H 2 0 0). enough (2 = 0) by discriminate. apply H; cbn; lia.
Qed.
