From Coq Require Import List Arith Bool Lia.
From Verif Require Import Syntax_Model Syntax_Proofs Traversal_Model Traversal_Spec Subst_Spec Traversal_Proofs Semantics_Spec Semantics_Proofs Subst_Model Subst_Proofs
  Order_Model Order_Spec Order_Proofs Macro_Model Binding_Proofs Unify_Model Unify_Spec Unify_Proofs Graph_Model Graph_Proofs Expander_Model Exists_Model Exists_Spec Exists_Proofs
  Search_Model Search_Spec Search_Proofs Search_Props Crypto_Model Crypto_Spec.
Import ListNotations.

Lemma fsym_eqb_true a b : fsym_eqb a b = true <-> a = b.
Proof. unfold fsym_eqb. destruct (fsym_eq_dec a b); split; congruence. Qed.

Lemma some_inj {A} (a b : A) : Some a = Some b -> a = b.
Proof. congruence. Qed.

(** *** The general axioms *)
Section General.
  Context (M : structure).
  Lemma typed1 v d : typed (M:=M) [v] [d] <-> dom M (vsort v) d.
  Proof. split; [inversion 1; auto|intros H; constructor; [exact H|constructor]]. Qed.
  Lemma typed_one v ds : typed (M:=M) [v] ds -> exists d, ds = [d] /\ dom M (vsort v) d.
  Proof. intros H. inversion H as [|? d ? ? Hd Ht]; subst. inversion Ht; subst. eauto. Qed.
  Lemma general_meaning get_sort i j split signed verified signed' accepted ax rho :
    general get_sort (KVampire i) (KVampire j) true true split signed verified = Some ax ->
    (forall u k (rho : env M), eval (signed u k) rho = signed' (eval u rho) (eval k rho)) ->
    (forall a b k (rho : env M), holds (ev_cond (verified a b (cast_name k))) rho <-> accepted (eval a rho) (eval b rho) (eval k rho)) ->
    (holds (M:=M) ax rho <-> unforgeable M signed' (fun sigma m k => accepted m sigma k) i j split).
  Proof.
    unfold general. cbn [f_a negb]. intros E Hs Ha. apply some_inj in E as <-. rewrite holds_all. unfold unforgeable. split.
    - intros H sigma m k Ds Dm Dk Hacc Hno.
      specialize (H [m; sigma; k] ltac:(repeat constructor; assumption)). pose proof (proj1 (holds_imp _ _ _ _) H) as H'. rewrite Ha in H'. specialize (H' Hacc). clear H. rename H' into H.
      eapply holds_ex_elim; [exact H|]. intros ds Hds Hu. apply typed_one in Hds as (u & -> & Du).
      apply holds_and in Hu as [Hv Hu]. apply holds_meq in Hv. apply (Hno u Du Hv).
      rewrite !holds_or in Hu. unfold holds in Hu. cbn [eval map app] in Hu. rewrite Hs in Hu. cbv [tholds].
      destruct Hu as [[[[Hu|Hu]|Hu]|Hu]|Hu]; auto 6.
    - intros H ds Hds. inversion Hds as [|? m ? ? Dm Hds1]; subst. inversion Hds1 as [|? sigma ? ? Ds Hds2]; subst.
      apply typed_one in Hds2 as (k & -> & Dk). apply holds_imp. intros Hacc. apply Ha in Hacc.
      match goal with |- holds ?f ?r => destruct (holds_dec f r) as [Hd|Hd]; [exact Hd|] end. exfalso.
      apply (H sigma m k Ds Dm Dk Hacc). intros u Du Hv Hu. apply Hd.
      apply (holds_ex_intro [mkVar 4 SMessage] _ _ [u]); [apply typed1; exact Du|].
      apply holds_and. split; [apply holds_meq; exact Hv|]. rewrite !holds_or. unfold holds. cbn [eval map app]. rewrite Hs.
      unfold tholds in Hu. destruct Hu as [Hu|[Hu|[Hu|[Hu|Hu]]]]; auto 6.
  Qed.
  Lemma uf_base_meaning mac verify (rho : env M) : holds (uf_base mac verify) rho <-> uf_correct M mac verify.
  Proof.
    unfold uf_base. rewrite holds_all. unfold uf_correct. split.
    - intros H m k Dm Dk. exact (H [m; k] ltac:(repeat constructor; assumption)).
    - intros H ds Hds. inversion Hds as [|? m ? ? Dm Hds1]; subst. apply typed_one in Hds1 as (k & -> & Dk). exact (H m k Dm Dk).
  Qed.
End General.

(** *** Candidates *)
Lemma all_terms_complete fuel f ts : all_terms fuel f = Some ts -> forall g, In g ts <-> exists p, at_path f p g.
Proof.
  intros H. destruct (all_depth_exact f) as (n & ts' & ds & ps & Hrun & _ & HF & _ & Hall).
  assert (E : ts = ts').
  { destruct (Hrun (n + fuel) ltac:(lia)) as [Hr _]. unfold all_terms, iter_with in *.
    rewrite (pile_collect_mono _ fuel (n + fuel) _ _ _ H ltac:(lia)) in Hr. congruence. }
  subst ts'. intros g. split.
  - intros Hg. clear - HF Hg. induction HF as [|p a ps ts Ha HF IH]; [destruct Hg|]. destruct Hg as [->|Hg]; eauto.
  - intros (p & Hp). pose proof (Hall p g Hp) as Hin. clear - HF Hin Hp. induction HF as [|p' a ps ts Ha HF IH]; [destruct Hin|].
    destruct Hin as [->|Hin]; [left; eapply at_path_fun; eauto|right; auto].
Qed.
Lemma all_terms_total f : exists n, forall m, n <= m -> all_terms m f <> None.
Proof. destruct (all_depth_exact f) as (n & ts & ds & ps & H & _). exists n. intros m Hm. rewrite (proj1 (H m Hm)). discriminate. Qed.

Lemma rich_eqb_refl f : rich_eqb f f = true.
Proof.
  induction f as [v|s args IH|q vs b IH] using formula_ind'; cbn.
  - unfold var_eqb. apply Nat.eqb_refl.
  - rewrite (proj2 (fsym_eqb_true s s) eq_refl). cbn. induction IH as [|a l Ha _ IHl]; [reflexivity|]. rewrite Ha. exact IHl.
  - rewrite IH. destruct q; cbn; rewrite andb_true_r; induction vs as [|v vs IHv]; cbn; auto; unfold var_eqb at 1; rewrite Nat.eqb_refl; exact IHv.
Qed.
Lemma cand_eqb_refl c : cand_eqb c c = true.
Proof. unfold cand_eqb. rewrite !rich_eqb_refl. reflexivity. Qed.
Lemma enc_eqb_refl c : enc_eqb c c = true.
Proof. unfold enc_eqb. rewrite !rich_eqb_refl. reflexivity. Qed.

Section Uniq.
  Context {A : Type} (eqb : A -> A -> bool) (Hrefl : forall a, eqb a a = true).
  Lemma uniq_in seen l a : In a (uniq eqb seen l) -> In a l.
  Proof.
    revert seen. induction l as [|b l IH]; intros seen H; cbn in *; [exact H|]. destruct (existsb (eqb b) seen).
    - right. eapply IH; eauto.
    - destruct H as [->|H]; [auto|right; eapply IH; eauto].
  Qed.
  Lemma uniq_covers seen l a : In a l -> exists b, (In b seen \/ In b (uniq eqb seen l)) /\ eqb a b = true.
  Proof.
    revert seen. induction l as [|b l IH]; intros seen H; [destruct H|]. cbn. destruct (existsb (eqb b) seen) eqn:E.
    - destruct H as [->|H]; [|apply IH; exact H]. apply existsb_exists in E as (c & Hc & Ec). eauto.
    - destruct H as [->|H].
      + exists a. split; [right; left; reflexivity|apply Hrefl].
      + destruct (IH (b :: seen) H) as (c & [[->|Hc]|Hc] & Ec); exists c; split; auto; right; cbn; auto.
  Qed.
  Lemma uniq_all l a : In a l -> exists b, In b (uniq eqb [] l) /\ eqb a b = true.
  Proof. intros H. destruct (uniq_covers [] l a H) as (b & [[]|Hb] & E). eauto. Qed.
End Uniq.

Lemma prepare_total mv c : exists c', prepare mv c = Some c'.
Proof.
  unfold prepare. destruct (translate_total (ca_message c) mv) as [m ->], (translate_total (ca_signature c) mv) as [s ->], (translate_total (ca_key c) mv) as [k ->].
  eauto.
Qed.
Lemma candidates_spec found fuel mv tlts cs : candidates found fuel mv tlts = Some cs ->
  (forall t p f c, In t tlts -> at_path t p f -> In c (found f) -> exists c' d, prepare mv c = Some c' /\ In d cs /\ cand_eqb c' d = true) /\
  (forall d, In d cs -> exists t p f c, In t tlts /\ at_path t p f /\ In c (found f) /\ prepare mv c = Some d).
Proof.
  unfold candidates. destruct (mapM (all_terms fuel) tlts) as [ts|] eqn:Et; [|discriminate].
  destruct (mapM (prepare mv) (flat_map found (concat ts))) as [l|] eqn:El; [|discriminate]. intros [= <-]. split.
  - intros t p f c Ht Hp Hc. destruct (mapM_defined _ _ _ t Et Ht) as (fs & Hfs & Ef).
    assert (Hin : In c (flat_map found (concat ts))).
    { apply in_flat_map. exists f. split; [|exact Hc]. apply in_concat. exists fs. split; [exact Hfs|]. apply (all_terms_complete _ _ _ Ef). eauto. }
    destruct (mapM_defined _ _ _ c El Hin) as (c' & Hc' & Ec). destruct (uniq_all cand_eqb cand_eqb_refl l c' Hc') as (d & Hd & E). eauto.
  - intros d Hd. apply uniq_in in Hd. apply (proj1 (mapM_in _ _ _ El d)) in Hd as (c & Hc & Ec).
    apply in_flat_map in Hc as (f & Hf & Hc). apply in_concat in Hf as (fs & Hfs & Hf).
    apply (proj1 (mapM_in _ _ _ Et fs)) in Hfs as (t & Ht & Et'). apply (all_terms_complete _ _ _ Et') in Hf as (p & Hp). exists t, p, f, c. auto.
Qed.
Lemma candidates_total found mv tlts : exists n, forall fuel, n <= fuel -> candidates found fuel mv tlts <> None.
Proof.
  assert (H : exists n, forall fuel, n <= fuel -> mapM (all_terms fuel) tlts <> None).
  { assert (H : exists n, forall fuel, n <= fuel -> forall t, In t tlts -> all_terms fuel t <> None).
    { induction tlts as [|t l (n & IH)]; [exists 0; intros ? _ ? []|]. destruct (all_terms_total t) as (m & Hm). exists (n + m).
      intros fuel Hf t' [<-|Ht]; [apply Hm; lia|apply IH; [lia|exact Ht]]. }
    destruct H as (n & H). exists n. intros fuel Hf. apply mapM_total. apply H. exact Hf. }
  destruct H as (n & H). exists n. intros fuel Hf. unfold candidates. specialize (H fuel Hf). destruct (mapM (all_terms fuel) tlts) as [ts|]; [|congruence].
  assert (Hm : mapM (prepare mv) (flat_map found (concat ts)) <> None).
  { apply mapM_total. intros c _. destruct (prepare_total mv c) as [c' ->]. discriminate. }
  destruct (mapM (prepare mv) (flat_map found (concat ts))); [discriminate|congruence].
Qed.

Lemma name_under_some f k : name_under f = Some k <-> f = FFun (Fcast SMessage) [k].
Proof.
  split.
  - unfold name_under. destruct f as [v|s l|q vs b]; try discriminate. destruct s; try discriminate. destruct s; try discriminate.
    destruct l as [|a [|b l]]; try discriminate. intros [= ->]. reflexivity.
  - intros ->. reflexivity.
Qed.
Lemma from_mac_in mac h sg c : In c (from_mac mac h sg) <-> h = FFun (Fuser mac) [ca_message c; FFun (Fcast SMessage) [ca_key c]] /\ sg = ca_signature c.
Proof.
  split.
  - unfold from_mac, named_mac. destruct h as [v|s l|q vs b]; try (intros []). destruct l as [|m [|k [|x l]]]; try (intros []).
    destruct (fsym_eqb s (Fuser mac)) eqn:E; [|intros []]. destruct (name_under k) as [n|] eqn:Ek; [|intros []]. apply fsym_eqb_true in E as ->.
    apply name_under_some in Ek as ->. intros [<-|[]]. auto.
  - intros [-> ->]. unfold from_mac, named_mac. rewrite (proj2 (fsym_eqb_true _ _) eq_refl). cbn. destruct c; cbn. auto.
Qed.
Lemma eval_under_some f t : eval_under f = Some t <-> f = FFun (Feval SMessage) [t].
Proof.
  split.
  - unfold eval_under. destruct f as [v|s l|q vs b]; try discriminate. destruct s; try discriminate. destruct s; try discriminate.
    destruct l as [|a [|b l]]; try discriminate. intros [= ->]. reflexivity.
  - intros ->. reflexivity.
Qed.

Lemma uf_found_in mac verify hmac f m s k : In (mkCand m s k) (uf_found mac verify hmac f) <-> uf_checks mac verify hmac f m s k.
Proof.
  split.
  - destruct f as [v|h args|q vs b]; try (intros []). unfold uf_found. rewrite in_app_iff. intros [H|H].
    + destruct args as [|sg [|mm [|key [|x l]]]]; try (destruct H; fail). destruct (fsym_eqb h (Fuser verify)) eqn:E; [|destruct H].
      destruct (name_under key) as [n|] eqn:Ek; [|destruct H]. apply fsym_eqb_true in E as ->. apply name_under_some in Ek as ->.
      destruct H as [H|[]]. injection H as -> -> ->. constructor.
    + destruct args as [|l [|r [|x a]]]; try (destruct H; fail). destruct hmac; [|destruct H]. destruct (fsym_eqb h (Fb CEq)) eqn:E.
      * apply fsym_eqb_true in E as ->. rewrite !in_app_iff, !from_mac_in in H. cbn [ca_message ca_signature ca_key] in H.
        destruct H as [[-> ->]|[[-> ->]|H]]; [constructor; reflexivity..|].
        destruct (eval_under l) as [l'|] eqn:El; [|destruct H]. destruct (eval_under r) as [r'|] eqn:Er; [|destruct H].
        apply eval_under_some in El as ->. apply eval_under_some in Er as ->. rewrite in_app_iff, !from_mac_in in H. cbn [ca_message ca_signature ca_key] in H.
        destruct H as [[-> ->]|[-> ->]]; constructor; reflexivity.
      * destruct (fsym_eqb h (Fta TEq)) eqn:E2; [|destruct H]. apply fsym_eqb_true in E2 as ->.
        rewrite !in_app_iff, !from_mac_in in H. cbn [ca_message ca_signature ca_key] in H. destruct H as [[-> ->]|[-> ->]]; constructor; reflexivity.
  - intros H. destruct H; try subst hmac; unfold uf_found.
    + apply in_app_iff. left. rewrite (proj2 (fsym_eqb_true _ _) eq_refl). cbn. auto.
    + apply in_app_iff. right. rewrite (proj2 (fsym_eqb_true _ _) eq_refl). rewrite !in_app_iff, !from_mac_in. cbn. auto.
    + apply in_app_iff. right. rewrite (proj2 (fsym_eqb_true _ _) eq_refl). rewrite !in_app_iff, !from_mac_in. cbn. auto.
    + apply in_app_iff. right. rewrite (proj2 (fsym_eqb_true _ _) eq_refl). cbn [eval_under]. rewrite !in_app_iff, !from_mac_in. cbn. auto 6.
    + apply in_app_iff. right. rewrite (proj2 (fsym_eqb_true _ _) eq_refl). cbn [eval_under]. rewrite !in_app_iff, !from_mac_in. cbn. auto 6.
    + apply in_app_iff. right. replace (fsym_eqb (Fta TEq) (Fb CEq)) with false by reflexivity.
      rewrite (proj2 (fsym_eqb_true _ _) eq_refl). rewrite !in_app_iff, !from_mac_in. cbn. auto.
    + apply in_app_iff. right. replace (fsym_eqb (Fta TEq) (Fb CEq)) with false by reflexivity.
      rewrite (proj2 (fsym_eqb_true _ _) eq_refl). rewrite !in_app_iff, !from_mac_in. cbn. auto.
Qed.
Lemma euf_found_in verify pk f m s k : In (mkCand m s k) (euf_found verify pk f) <-> euf_checks verify pk f m s k.
Proof.
  split.
  - unfold euf_found. destruct f as [v|h args|q vs b]; try (intros []). destruct args as [|sg [|mm [|p [|x l]]]]; try (intros []).
    destruct (fsym_eqb h (Fuser verify)) eqn:E; [|intros []]. destruct p as [v|t pargs|q vs b]; try (intros []).
    destruct pargs as [|key [|y l]]; try (intros []). destruct (fsym_eqb t (Fuser pk)) eqn:E2; [|intros []].
    destruct (name_under key) as [n|] eqn:Ek; [|intros []]. apply fsym_eqb_true in E as ->. apply fsym_eqb_true in E2 as ->. apply name_under_some in Ek as ->.
    intros [H|[]]. injection H as -> -> ->. constructor.
  - intros []. unfold euf_found. rewrite !(proj2 (fsym_eqb_true _ _) eq_refl). cbn. auto.
Qed.

(** [found] finds exactly what [checks] says: so do the candidates, over all positions. *)
Lemma candidates_exact found checks (Hf : forall f m s k, In (mkCand m s k) (found f) <-> checks f m s k) mv tlts :
  exists n, forall fuel, n <= fuel -> exists cs, candidates found fuel mv tlts = Some cs /\
  (forall t p f m s k, In t tlts -> at_path t p f -> checks f m s k -> exists m' s' k' c,
     translate_vars mv m = Some m' /\ translate_vars mv s = Some s' /\ translate_vars mv k = Some k' /\ In c cs /\
     rich_eqb m' (ca_message c) = true /\ rich_eqb s' (ca_signature c) = true /\ rich_eqb k' (ca_key c) = true) /\
  (forall c, In c cs -> exists t p f m s k, In t tlts /\ at_path t p f /\ checks f m s k /\
     translate_vars mv m = Some (ca_message c) /\ translate_vars mv s = Some (ca_signature c) /\ translate_vars mv k = Some (ca_key c)).
Proof.
  destruct (candidates_total found mv tlts) as (n & Hn). exists n. intros fuel Hfu. specialize (Hn fuel Hfu).
  destruct (candidates found fuel mv tlts) as [cs|] eqn:E; [|congruence]. exists cs. split; [reflexivity|].
  destruct (candidates_spec _ _ _ _ _ E) as [H1 H2]. split.
  - intros t p f m s k Ht Hp Hc. apply Hf in Hc. destruct (H1 t p f _ Ht Hp Hc) as (c' & d & Ep & Hd & Eq).
    unfold prepare in Ep. cbn [ca_message ca_signature ca_key] in Ep. destruct (translate_vars mv m) as [m'|], (translate_vars mv s) as [s'|], (translate_vars mv k) as [k'|]; try discriminate.
    injection Ep as <-. unfold cand_eqb in Eq. cbn [ca_message ca_signature ca_key] in Eq. apply andb_prop in Eq as [Eq E3]. apply andb_prop in Eq as [E1 E2].
    exists m', s', k', d. auto 8.
  - intros c Hc. destruct (H2 c Hc) as (t & p & f & [m s k] & Ht & Hp & Hin & Ep). apply Hf in Hin. exists t, p, f, m, s, k.
    unfold prepare in Ep. cbn [ca_message ca_signature ca_key] in Ep. destruct (translate_vars mv m) as [m'|], (translate_vars mv s) as [s'|], (translate_vars mv k) as [k'|]; try discriminate.
    injection Ep as <-. auto 8.
Qed.

(** *** Where the key searches go *)
Definition exact_but (uses : fsym -> nat -> nat -> Prop) (nexts : formula -> list formula) : Prop :=
  forall f a, In a (nexts f) <-> exists i, at_path f [i] a /\ ~ key_position uses f i.

Lemma child_fun s args i a : at_path (FFun s args) [i] a <-> nth_error args i = Some a.
Proof. split; [inversion 1 as [|? ? ? ? ? ? Hn Hp|]; subst; inversion Hp; subst; exact Hn|intros H; econstructor; [exact H|constructor]]. Qed.
Lemma child_quant q vs b i a : at_path (FQ q vs b) [i] a <-> i = 0 /\ a = b.
Proof. split; [inversion 1 as [| |? ? ? ? ? Hp]; subst; inversion Hp; subst; auto|intros [-> ->]; constructor; constructor]. Qed.
Lemma child_var v i a : ~ at_path (FVar v) [i] a.
Proof. inversion 1. Qed.
Lemma key_fun uses s args i : key_position uses (FFun s args) i <-> uses s (length args) i /\ exists l, nth_error args i = Some (FFun (Fcast SMessage) l).
Proof.
  split.
  - intros (s' & args' & l & E & Hu & Hn). injection E as <- <-. eauto.
  - intros (Hu & l & Hn). exists s, args, l. auto.
Qed.
Lemma is_cast_true f : is_cast f = true <-> exists l, f = FFun (Fcast SMessage) l.
Proof.
  split.
  - destruct f as [v|s l|q vs b]; try discriminate. destruct s; try discriminate. destruct s; try discriminate. eauto.
  - intros (l & ->). reflexivity.
Qed.
Lemma all_children uses s args : (forall i, ~ key_position uses (FFun s args) i) ->
  forall a, In a args <-> exists i, at_path (FFun s args) [i] a /\ ~ key_position uses (FFun s args) i.
Proof.
  intros H a. split.
  - intros Ha. apply In_nth_error in Ha as (i & Hi). exists i. split; [apply child_fun; exact Hi|apply H].
  - intros (i & Hi & _). apply child_fun in Hi. eapply nth_error_In; eauto.
Qed.
Lemma exact_fun uses nexts :
  (forall v, nexts (FVar v) = []) -> (forall q vs b, nexts (FQ q vs b) = [b]) ->
  (forall s args a, In a (nexts (FFun s args)) <-> exists i, at_path (FFun s args) [i] a /\ ~ key_position uses (FFun s args) i) ->
  exact_but uses nexts.
Proof.
  intros Hv Hq Hf [v|s args|q vs b] a; [| apply Hf|].
  - rewrite Hv. split; [intros []|]. intros (i & H & _). exfalso. eapply child_var; eauto.
  - rewrite Hq. split.
    + intros [<-|[]]. exists 0. split; [constructor; constructor|]. intros (s & args & l & E & _). discriminate.
    + intros (i & H & _). apply child_quant in H as [_ ->]. left; reflexivity.
Qed.
(** One argument is dropped. *)
Lemma drop_one (uses : fsym -> nat -> nat -> Prop) s args j l kept : uses s (length args) j -> (forall i, uses s (length args) i -> i = j) ->
  nth_error args j = Some (FFun (Fcast SMessage) l) ->
  (forall a, In a kept <-> exists i, i <> j /\ nth_error args i = Some a) ->
  forall a, In a kept <-> exists i, at_path (FFun s args) [i] a /\ ~ key_position uses (FFun s args) i.
Proof.
  intros Hu Hone Hj Hk a. rewrite Hk. split.
  - intros (i & Hij & Hi). exists i. split; [apply child_fun; exact Hi|]. rewrite key_fun. intros [Hu' _]. apply Hij, Hone, Hu'.
  - intros (i & Hi & Hn). apply child_fun in Hi. exists i. split; [|exact Hi]. intros ->. apply Hn. apply key_fun. eauto.
Qed.
Ltac nths := repeat match goal with H : nth_error [] ?i = Some _ |- _ => destruct i; discriminate
                                  | H : nth_error (_ :: _) ?i = Some _ |- _ => destruct i; cbn in H; [injection H as <-|] end.

Lemma uf_key_exact mac verify : exact_but (uf_uses mac verify) (uf_key_nexts mac verify).
Proof.
  apply exact_fun; [reflexivity|reflexivity|]. intros s args.
  destruct args as [|x [|y [|z [|w args]]]]; cbn [uf_key_nexts]; try (apply all_children; intros i; rewrite key_fun; cbn; intros [[(_ & E & _)|(_ & E & _)] _]; discriminate).
  - destruct (fsym_eqb s (Fuser mac)) eqn:E1; cbn [andb].
    2:{ apply all_children. intros i. rewrite key_fun. cbn. intros [[(-> & _)|(_ & E & _)] _]; [rewrite (proj2 (fsym_eqb_true _ _) eq_refl) in E1|]; discriminate. }
    apply fsym_eqb_true in E1 as ->. destruct (is_cast y) eqn:E2.
    + apply is_cast_true in E2 as (l & ->). apply (drop_one _ _ _ 1 l).
      * left. auto.
      * intros i [(_ & _ & ->)|(_ & E & _)]; [reflexivity|discriminate].
      * reflexivity.
      * intros a. split; [intros [<-|[]]; exists 0; split; [discriminate|reflexivity]|]. intros (i & Hi & Hn). nths; cbn; auto; congruence.
    + apply all_children. intros i. rewrite key_fun. cbn. intros [[(_ & _ & ->)|(_ & E & _)] (l & Hl)]; [|discriminate]. injection Hl as ->. discriminate.
  - destruct (fsym_eqb s (Fuser verify)) eqn:E1; cbn [andb].
    2:{ apply all_children. intros i. rewrite key_fun. cbn. intros [[(_ & E & _)|(-> & _)] _]; [|rewrite (proj2 (fsym_eqb_true _ _) eq_refl) in E1]; discriminate. }
    apply fsym_eqb_true in E1 as ->. destruct (is_cast z) eqn:E2.
    + apply is_cast_true in E2 as (l & ->). apply (drop_one _ _ _ 2 l).
      * right. auto.
      * intros i [(_ & E & _)|(_ & _ & ->)]; [discriminate|reflexivity].
      * reflexivity.
      * intros a. split; [intros [<-|[<-|[]]]; [exists 0|exists 1]; split; try discriminate; reflexivity|]. intros (i & Hi & Hn). nths; cbn; auto; congruence.
    + apply all_children. intros i. rewrite key_fun. cbn. intros [[(_ & E & _)|(_ & _ & ->)] (l & Hl)]; [discriminate|]. injection Hl as ->. discriminate.
Qed.
Lemma euf_key_exact sign pk : exact_but (euf_uses sign pk) (euf_key_nexts sign pk).
Proof.
  apply exact_fun; [reflexivity|reflexivity|]. intros s args.
  destruct args as [|x [|y [|z args]]]; cbn [euf_key_nexts]; try (apply all_children; intros i; rewrite key_fun; cbn; intros [[(_ & E & _)|(_ & E & _)] _]; discriminate).
  - destruct (fsym_eqb s (Fuser pk)) eqn:E1; cbn [andb].
    2:{ apply all_children. intros i. rewrite key_fun. cbn. intros [[(_ & E & _)|(-> & _)] _]; [|rewrite (proj2 (fsym_eqb_true _ _) eq_refl) in E1]; discriminate. }
    apply fsym_eqb_true in E1 as ->. destruct (is_cast x) eqn:E2.
    + apply is_cast_true in E2 as (l & ->). apply (drop_one _ _ _ 0 l).
      * right. auto.
      * intros i [(_ & E & _)|(_ & _ & ->)]; [discriminate|reflexivity].
      * reflexivity.
      * intros a. split; [intros []|]. intros (i & Hi & Hn). nths; cbn; auto; congruence.
    + apply all_children. intros i. rewrite key_fun. cbn. intros [[(_ & E & _)|(_ & _ & ->)] (l & Hl)]; [discriminate|]. injection Hl as ->. discriminate.
  - destruct (fsym_eqb s (Fuser sign)) eqn:E1; cbn [andb].
    2:{ apply all_children. intros i. rewrite key_fun. cbn. intros [[(-> & _)|(_ & E & _)] _]; [rewrite (proj2 (fsym_eqb_true _ _) eq_refl) in E1|]; discriminate. }
    apply fsym_eqb_true in E1 as ->. destruct (is_cast y) eqn:E2.
    + apply is_cast_true in E2 as (l & ->). apply (drop_one _ _ _ 1 l).
      * left. auto.
      * intros i [(_ & _ & ->)|(_ & E & _)]; [reflexivity|discriminate].
      * reflexivity.
      * intros a. split; [intros [<-|[]]; exists 0; split; [discriminate|reflexivity]|]. intros (i & Hi & Hn). nths; cbn; auto; congruence.
    + apply all_children. intros i. rewrite key_fun. cbn. intros [[(_ & _ & ->)|(_ & E & _)] (l & Hl)]; [|discriminate]. injection Hl as ->. discriminate.
Qed.
Lemma ctxt_key_exact enc dec : exact_but (ctxt_uses enc dec) (ctxt_key_nexts enc dec).
Proof.
  apply exact_fun; [reflexivity|reflexivity|]. intros s args.
  destruct args as [|x [|y [|z [|w args]]]]; cbn [ctxt_key_nexts]; try (apply all_children; intros i; rewrite key_fun; cbn; intros [[(_ & E & _)|(_ & E & _)] _]; discriminate).
  - destruct (fsym_eqb s (Fuser dec)) eqn:E1; cbn [andb].
    2:{ apply all_children. intros i. rewrite key_fun. cbn. intros [[(-> & _)|(_ & E & _)] _]; [rewrite (proj2 (fsym_eqb_true _ _) eq_refl) in E1|]; discriminate. }
    apply fsym_eqb_true in E1 as ->. destruct (is_cast y) eqn:E2.
    + apply is_cast_true in E2 as (l & ->). apply (drop_one _ _ _ 1 l).
      * left. auto.
      * intros i [(_ & _ & ->)|(_ & E & _)]; [reflexivity|discriminate].
      * reflexivity.
      * intros a. split; [intros [<-|[]]; exists 0; split; [discriminate|reflexivity]|]. intros (i & Hi & Hn). nths; cbn; auto; congruence.
    + apply all_children. intros i. rewrite key_fun. cbn. intros [[(_ & _ & ->)|(_ & E & _)] (l & Hl)]; [|discriminate]. injection Hl as ->. discriminate.
  - destruct (fsym_eqb s (Fuser enc)) eqn:E1; cbn [andb].
    2:{ apply all_children. intros i. rewrite key_fun. cbn. intros [[(_ & E & _)|(-> & _)] _]; [|rewrite (proj2 (fsym_eqb_true _ _) eq_refl) in E1]; discriminate. }
    apply fsym_eqb_true in E1 as ->. destruct (is_cast z) eqn:E2.
    + apply is_cast_true in E2 as (l & ->). apply (drop_one _ _ _ 2 l).
      * right. auto.
      * intros i [(_ & E & _)|(_ & _ & ->)]; [discriminate|reflexivity].
      * reflexivity.
      * intros a. split; [intros [<-|[<-|[]]]; [exists 0|exists 1]; split; try discriminate; reflexivity|]. intros (i & Hi & Hn). nths; cbn; auto; congruence.
    + apply all_children. intros i. rewrite key_fun. cbn. intros [[(_ & E & _)|(_ & _ & ->)] (l & Hl)]; [discriminate|]. injection Hl as ->. discriminate.
Qed.
Lemma ctxt_rand_exact enc : exact_but (rand_uses enc) (ctxt_rand_nexts enc).
Proof.
  apply exact_fun; [reflexivity|reflexivity|]. intros s args.
  destruct args as [|x [|y [|z [|w args]]]]; cbn [ctxt_rand_nexts]; try (apply all_children; intros i; rewrite key_fun; cbn; intros [(_ & E & _) _]; discriminate).
  destruct (fsym_eqb s (Fuser enc)) eqn:E1; cbn [andb].
  2:{ apply all_children. intros i. rewrite key_fun. cbn. intros [(-> & _) _]. rewrite (proj2 (fsym_eqb_true _ _) eq_refl) in E1. discriminate. }
  apply fsym_eqb_true in E1 as ->. destruct (is_cast y) eqn:E2.
  - apply is_cast_true in E2 as (l & ->). apply (drop_one _ _ _ 1 l).
    + split; auto.
    + intros i (_ & _ & ->). reflexivity.
    + reflexivity.
    + intros a. split; [intros [<-|[<-|[]]]; [exists 0|exists 2]; split; try discriminate; reflexivity|]. intros (i & Hi & Hn). nths; cbn; auto; congruence.
  - apply all_children. intros i. rewrite key_fun. cbn. intros [(_ & _ & ->) (l & Hl)]. injection Hl as ->. discriminate.
Qed.

(** Every position is visited, or is at or below a name used as a key. *)
Lemma key_position_dec (uses : fsym -> nat -> nat -> Prop) : (forall s n i, {uses s n i} + {~ uses s n i}) -> forall f i, {key_position uses f i} + {~ key_position uses f i}.
Proof.
  intros Hd [v|s args|q vs b] i.
  - right. intros (s & args & l & E & _). discriminate.
  - destruct (Hd s (length args) i) as [Hu|Hu].
    2:{ right. rewrite key_fun. tauto. }
    destruct (nth_error args i) as [a|] eqn:E.
    2:{ right. rewrite key_fun. intros [_ (l & Hl)]. congruence. }
    destruct (is_cast a) eqn:Ea.
    + left. apply is_cast_true in Ea as (l & ->). apply key_fun. eauto.
    + right. rewrite key_fun. intros [_ (l & Hl)]. rewrite E in Hl. injection Hl as ->. discriminate.
  - right. intros (s & args & l & E & _). discriminate.
Qed.
Lemma visits_all steps anc tq (uses : fsym -> nat -> nat -> Prop) nexts : (forall s n i, {uses s n i} + {~ uses s n i}) -> exact_but uses nexts ->
  forall f p g st, at_path f p g -> visits steps anc tq nexts (f, st) (g, st) \/ under_key uses f p.
Proof.
  intros Hd He f p g st H. 
  assert (Hstep : forall f i a p, at_path f [i] a -> visits steps anc tq nexts (a, st) (g, st) \/ under_key uses a p ->
    visits steps anc tq nexts (f, st) (g, st) \/ under_key uses f (i :: p)).
  { intros f' i a p' Hi [Hv|(p1 & j & p2 & g' & -> & Hp & Hk)].
    - destruct (key_position_dec uses Hd f' i) as [Hk|Hk].
      + right. exists [], i, p', f'. split; [reflexivity|]. split; [constructor|exact Hk].
      + left. eapply vi_child; [|exact Hv]. apply He. eauto.
    - right. exists (i :: p1), j, p2, g'. split; [reflexivity|]. split; [|exact Hk].
      inversion Hi as [|? ? ? ? ? ? Hn Hh|? ? ? ? ? Hh]; subst; inversion Hh; subst; econstructor; eauto. }
  induction H as [f|s args i p a g Hn Hp IH|q vs b p g Hp IH].
  - left. constructor.
  - apply (Hstep _ i a p); [apply child_fun; exact Hn|auto].
  - apply (Hstep _ 0 b p); [apply child_quant; auto|auto].
Qed.
Lemma or_dec (P Q : Prop) : {P} + {~ P} -> {Q} + {~ Q} -> {P \/ Q} + {~ (P \/ Q)}.
Proof. intros [H|H] [H'|H']; auto. right. tauto. Qed.
Lemma and3_dec (s t : fsym) (a b c d : nat) : {s = t /\ a = b /\ c = d} + {~ (s = t /\ a = b /\ c = d)}.
Proof. destruct (fsym_eq_dec s t); [|right; tauto]. destruct (Nat.eq_dec a b); [|right; tauto]. destruct (Nat.eq_dec c d); [left; auto|right; tauto]. Qed.
Lemma uf_uses_dec mac verify s n i : {uf_uses mac verify s n i} + {~ uf_uses mac verify s n i}.
Proof. apply or_dec; apply and3_dec. Qed.
Lemma euf_uses_dec sign pk s n i : {euf_uses sign pk s n i} + {~ euf_uses sign pk s n i}.
Proof. apply or_dec; apply and3_dec. Qed.
Lemma ctxt_uses_dec enc dec s n i : {ctxt_uses enc dec s n i} + {~ ctxt_uses enc dec s n i}.
Proof. apply or_dec; apply and3_dec. Qed.
Lemma rand_uses_dec enc s n i : {rand_uses enc s n i} + {~ rand_uses enc s n i}.
Proof. apply and3_dec. Qed.

(** *** The search for macs *)
Lemma is_mac_dec mac f : {is_mac mac f} + {~ is_mac mac f}.
Proof.
  destruct f as [v|s args|q vs b]; [right; intros (l & E); discriminate| |right; intros (l & E); discriminate].
  destruct (fsym_eq_dec s (Fuser mac)) as [->|H]; [left; eexists; reflexivity|right; intros (l & E); congruence].
Qed.
Lemma mac_args_of mac f : (is_mac mac f /\ f = FFun (Fuser mac) (mac_args mac f)) \/ ~ is_mac mac f /\ mac_args mac f = [].
Proof.
  destruct f as [v|s args|q vs b]; try (right; split; [intros (l & E); discriminate|reflexivity]).
  unfold mac_args. destruct (fsym_eqb s (Fuser mac)) eqn:E.
  - apply fsym_eqb_true in E as ->. left. split; [eexists; reflexivity|reflexivity].
  - right. split; [|reflexivity]. intros (l & El). injection El as -> ->. rewrite (proj2 (fsym_eqb_true _ _) eq_refl) in E. discriminate.
Qed.
Definition direct (verify : nat) (hmac : bool) (s : fsym) (args : list formula) (i : nat) : Prop :=
  hmac = true /\ is_equality s /\ length args = 2 \/ s = Fuser verify /\ length args = 3 /\ i = 0.
(** A child is next, or is a mac compared directly whose arguments are next, or is the other side of a comparison with a mac. *)
Lemma main_child mac verify hmac f i a : at_path f [i] a ->
  In a (uf_main_nexts mac verify hmac f) \/
  (exists s args margs, f = FFun s args /\ direct verify hmac s args i /\ a = FFun (Fuser mac) margs /\
     forall b, In b margs -> In b (uf_main_nexts mac verify hmac f)) \/
  (hmac = true /\ one_sided mac f []).
Proof.
  intros H. destruct f as [v|s args|q vs b]; [exfalso; eapply child_var; eauto| |apply child_quant in H as [-> ->]; left; left; reflexivity].
  apply child_fun in H. destruct args as [|x [|y [|z [|w args]]]]; cbn [uf_main_nexts]; try (left; eapply nth_error_In; eauto; fail).
  - destruct hmac; cbn [andb]; [|left; eapply nth_error_In; eauto].
    destruct (fsym_eqb s (Fb CEq) || fsym_eqb s (Fta TEq)) eqn:Es; [|left; eapply nth_error_In; eauto].
    assert (Heq : is_equality s) by (apply orb_prop in Es as [E|E]; apply fsym_eqb_true in E; [left|right]; exact E).
    destruct (mac_args_of mac x) as [[Hx Ex]|[Hx Ex]], (mac_args_of mac y) as [[Hy Ey]|[Hy Ey]].
    + destruct (mac_args mac x ++ mac_args mac y) as [|n ns] eqn:En; [left; eapply nth_error_In; eauto|]. right; left.
      nths; [exists s, [x; y], (mac_args mac x)|exists s, [x; y], (mac_args mac y)];
        (split; [reflexivity|]; split; [left; auto|]; split; [assumption|]; intros b Hb; rewrite <- En; apply in_app_iff; auto).
    + right; right. split; [reflexivity|]. exists s, x, y. split; [constructor|]. auto.
    + right; right. split; [reflexivity|]. exists s, x, y. split; [constructor|]. auto.
    + rewrite Ex, Ey. left. eapply nth_error_In; eauto.
  - destruct x as [v|t margs|q vs b]; try (left; eapply nth_error_In; eauto; fail).
    destruct (fsym_eqb s (Fuser verify)) eqn:E1; cbn [andb]; [|left; eapply nth_error_In; eauto].
    destruct (fsym_eqb t (Fuser mac)) eqn:E2; [|left; eapply nth_error_In; eauto].
    apply fsym_eqb_true in E1 as ->. apply fsym_eqb_true in E2 as ->. nths.
    + right; left. exists (Fuser verify), [FFun (Fuser mac) margs; y; z], margs. split; [reflexivity|]. split; [right; auto|]. split; [reflexivity|].
      intros b Hb. cbn. auto.
    + left. cbn. auto.
    + left. cbn. auto.
Qed.
Lemma at_path_app f p g q h : at_path f p g -> at_path g q h -> at_path f (p ++ q) h.
Proof. induction 1; intros Hq; cbn; auto; econstructor; eauto. Qed.
Lemma at_path_cons f i p g : at_path f (i :: p) g -> exists a, at_path f [i] a /\ at_path a p g.
Proof. inversion 1; subst; [exists a|exists b]; (split; [|assumption]); econstructor; eauto; constructor. Qed.

Lemma main_visits steps anc tq mac verify hmac st : mac <> verify -> forall n p, length p <= n -> forall f g, at_path f p g ->
  (hmac = true -> forall q, ~ one_sided mac f q) ->
  visits steps anc tq (uf_main_nexts mac verify hmac) (f, st) (g, st) \/ compared mac verify hmac f p.
Proof.
  intros Hmv. induction n as [|n IH]; intros [|i p] Hn f g H Hone; cbn in Hn; try lia.
  - inversion H; subst. left. constructor.
  - inversion H; subst. left. constructor.
  - apply at_path_cons in H as (a & Ha & Hp).
    assert (Hlift : forall j b q p', at_path f q b -> In b (uf_main_nexts mac verify hmac f) -> p' = q ++ j -> at_path b j g -> length j <= n ->
      visits steps anc tq (uf_main_nexts mac verify hmac) (f, st) (g, st) \/ compared mac verify hmac f p').
    { intros j b q p' Hq Hb -> Hj Hl. destruct (IH j Hl b g Hj) as [Hv|(q' & k & g' & s & args & -> & Hg & Hm & Hq' & Hd)].
      - intros Hh q' (s & l & r & Hq' & Hs). apply (Hone Hh (q ++ q')). exists s, l, r. split; [eapply at_path_app; eauto|exact Hs].
      - left. eapply vi_child; eauto.
      - right. exists (q ++ q'), k, g', s, args. split; [apply app_assoc|]. split; [eapply at_path_app; eauto|]. split; [exact Hm|].
        split; [eapply at_path_app; eauto|exact Hd]. }
    destruct (main_child mac verify hmac f i a Ha) as [Hin|[(s & args & margs & -> & Hd & -> & Hargs)|[Hh Ho]]].
    + apply (Hlift p a [i]); auto; lia.
    + destruct p as [|j p].
      * right. inversion Hp; subst. exists [], i, (FFun (Fuser mac) margs), s, args. split; [reflexivity|]. split; [exact Ha|]. split; [eexists; reflexivity|].
        split; [constructor|exact Hd].
      * apply at_path_cons in Hp as (b & Hb & Hp). apply (Hlift p b [i; j]).
        -- apply (at_path_app _ [i] _ [j] _ Ha Hb).
        -- apply Hargs. apply child_fun in Hb. eapply nth_error_In; eauto.
        -- reflexivity.
        -- exact Hp.
        -- cbn in Hn. lia.
    + exfalso. eapply Hone; eauto.
Qed.

(** *** Instances *)
Lemma finds_nothing_spec get_sort steps anc tq mfuel aux_sort sound kind nexts fuel x ms keep fl :
  finds_nothing get_sort steps anc tq mfuel aux_sort sound kind nexts fuel x ms keep fl = Some true ->
  preprocess_terms get_sort aux_sort sound kind steps anc tq mfuel nexts fuel x ms keep fl = Some [].
Proof.
  unfold finds_nothing, preprocess_terms. destruct fuel as [|n]; [discriminate|]. cbn [ppile_collect].
  destruct (ppile_next _ (S n) _) as [[[r rest]|]|]; try discriminate. reflexivity.
Qed.
Lemma mgu_fuel n m l r x y : mgu n l r = Some x -> mgu m l r = Some y -> x = y.
Proof.
  unfold mgu. destruct (aux n l r ([], [])) as [[b1 s1]|] eqn:E1; [|discriminate]. destruct (aux m l r ([], [])) as [[b2 s2]|] eqn:E2; [|discriminate].
  apply (aux_mono n (n + m)) in E1; [|lia]. apply (aux_mono m (n + m)) in E2; [|lia]. rewrite E1 in E2. injection E2 as <- <-.
  destruct b1; congruence.
Qed.
(** Nothing that is visited looks like the key. *)
Lemma nothing_found get_sort steps anc tq mfuel sound kind nexts fuel x ms keep fl :
  finds_nothing get_sort steps anc tq mfuel SName sound kind nexts fuel x ms keep fl = Some true ->
  forall m bvs f st, In (m, bvs) ms -> visits steps anc tq nexts (m, mkSt fl bvs None) (f, st) -> get_sort f = Some SName ->
  (forall v, x <> FVar v) /\ (linear x -> linear f -> vars_apart x f -> ~ unifiable x f) /\ (no_vars f -> ~ unifiable x f).
Proof.
  intros H m bvs f st Hm Hv Hs. apply finds_nothing_spec in H. destruct (terms_spec _ _ _ _ _ _ _ _ _ _ _ _ _ _ _ H) as [H1 _].
  destruct (H1 m bvs f st Hm Hv) as (us & ou & _ & Eis & Hout).
  assert (ou = None) as -> by (destruct ou as [u|]; [destruct (Hout u eq_refl) as (g & _ & [])|reflexivity]).
  unfold is_subterm, unified in Eis. rewrite Hs in Eis. unfold sort_eqb in Eis. destruct (sort_eq_dec SName SName) as [_|]; [|congruence].
  assert (Hx : forall v, x <> FVar v) by (intros v ->; discriminate). split; [exact Hx|].
  assert (Hmgu : mgu mfuel x f = Some None) by (destruct x; [exfalso; eapply Hx; reflexivity|exact Eis|exact Eis]).
  split.
  - intros Hl Hr Ha HU. destruct (mgu_linear x f Hl Hr Ha) as (n & ans & Hn & Hu). apply (Hu HU). eapply mgu_fuel; [apply Hn; reflexivity|exact Hmgu].
  - intros Hr HU. destruct (mgu_ground_right x f Hr) as (n & ans & Hn & Hu). apply (Hu HU). eapply mgu_fuel; [apply Hn; reflexivity|exact Hmgu].
Qed.

Lemma free_vars_in fuel f out : free_vars fuel f = Some out -> forall i, In i (map vid out) <-> occurs_free i f.
Proof.
  intros H i. destruct (free_vars_exact f) as (n & out' & Hrun & ps & _ & Hlen & H1 & H2).
  assert (E : out = out').
  { specialize (Hrun (n + fuel) ltac:(lia)). unfold free_vars, iter_with in *. rewrite (pile_collect_mono _ fuel (n + fuel) _ _ _ H ltac:(lia)) in Hrun. congruence. }
  subst out'. split.
  - intros Hi. apply in_map_iff in Hi as (v & <- & Hv). apply In_nth_error in Hv as (k & Hk).
    destruct (nth_error ps k) as [p|] eqn:Ep.
    + destruct (H1 k p v Ep Hk) as (g & Hg & -> & Hb). exists p, v. auto.
    + apply nth_error_None in Ep. assert (nth_error out k <> None) by congruence. apply nth_error_Some in H0. lia.
  - intros (p & v & Hp & <- & Hb). pose proof (H2 p (FVar v) v Hp (conj eq_refl Hb)) as Hin. apply In_nth_error in Hin as (k & Hk).
    destruct (nth_error out k) as [w|] eqn:Ew.
    + destruct (H1 k p w Hk Ew) as (g & Hg & -> & _). pose proof (at_path_fun _ _ _ _ Hp Hg) as E. injection E as ->. apply in_map. eapply nth_error_In; eauto.
    + apply nth_error_None in Ew. assert (nth_error ps k <> None) by congruence. apply nth_error_Some in H0. lia.
Qed.
Lemma var_eqb_refl (v : var) : var_eqb v v = true.
Proof. unfold var_eqb. apply Nat.eqb_refl. Qed.
Lemma free_of_in fuel fs out : free_of fuel fs = Some out -> forall i, In i (map vid out) <-> exists f, In f fs /\ occurs_free i f.
Proof.
  unfold free_of. destruct (mapM (free_vars fuel) fs) as [l|] eqn:E; [|discriminate]. intros [= <-] i. split.
  - intros Hi. apply in_map_iff in Hi as (v & <- & Hv). apply uniq_in in Hv. apply in_concat in Hv as (vs & Hvs & Hv).
    apply (proj1 (mapM_in _ _ _ E vs)) in Hvs as (f & Hf & Ef). exists f. split; [exact Hf|]. apply (free_vars_in _ _ _ Ef). apply in_map. exact Hv.
  - intros (f & Hf & Ho). destruct (mapM_defined _ _ _ f E Hf) as (vs & Hvs & Ef). apply (free_vars_in _ _ _ Ef) in Ho.
    apply in_map_iff in Ho as (v & <- & Hv). destruct (uniq_all var_eqb var_eqb_refl (concat l) v) as (w & Hw & Ew); [apply in_concat; eauto|].
    apply Nat.eqb_eq in Ew. rewrite Ew. apply in_map. exact Hw.
Qed.

Lemma pairs_in {A} (l : list A) a b : In (a, b) (pairs l) <-> exists i j, i < j /\ nth_error l i = Some a /\ nth_error l j = Some b.
Proof.
  induction l as [|x l IH]; cbn [pairs].
  - split; [intros []|]. intros (i & j & _ & H & _). destruct i; discriminate.
  - rewrite in_app_iff, in_map_iff. split.
    + intros [(y & E & Hy)|H].
      * injection E as -> ->. apply In_nth_error in Hy as (j & Hj). exists 0, (S j). split; [lia|auto].
      * apply IH in H as (i & j & Hij & Hi & Hj). exists (S i), (S j). split; [lia|auto].
    + intros ([|i] & [|j] & Hij & Hi & Hj); try lia.
      * left. cbn in *. injection Hi as <-. exists b. split; [reflexivity|]. eapply nth_error_In; eauto.
      * right. apply IH. exists i, j. cbn in *. split; [lia|auto].
Qed.

Section Meaning.
  Context (get_sort : formula -> option sort) (steps : list pstep) (cells : list mcell) (anc : mref -> option ancestors)
    (tq : nat -> ta_quant) (mfuel : nat) (scmp : sort -> sort -> comparison) (Hscmp : forall a b, scmp a b = Eq <-> a = b).
  Lemma instance_meaning sound_main sound_key kmain kkey main_nexts key_nexts signed premise fuel mv c ax :
    instance get_sort steps cells anc tq mfuel scmp true sound_main sound_key kmain kkey main_nexts key_nexts signed premise fuel mv c = Some (Some ax) ->
    exists uid free ds,
    formulas_max_var_or_max tq fuel [ca_message c; ca_signature c; ca_key c] mv = Some uid /\
    (forall i, In i (map vid free) <-> occurs_free i (ca_message c) \/ occurs_free i (ca_signature c) \/ occurs_free i (ca_key c)) /\
    finds_nothing get_sort steps anc tq mfuel SName sound_key kkey key_nexts fuel (ca_key c)
      (terms_and_bvars steps cells ++ [(ca_message c, []); (ca_signature c, [])]) false NO_REC_MACRO = Some true /\
    preprocess_terms get_sort SMessage sound_main kmain steps anc tq mfuel main_nexts fuel
      (signed (FVar (mkVar uid SMessage)) (cast_name (ca_key c))) [(ca_message c, []); (ca_signature c, [])] true ALL = Some ds /\
    ((forall d, In d ds -> one_sort (fst d)) -> no_clash ds -> forall M : structure, (forall s, exists d, dom M s d) ->
      forall rho : env M, holds ax rho <->
      forall vs, typed free vs -> let rho' := bindv rho free vs in
        holds (premise (ca_signature c) (ca_message c) (cast_name (ca_key c))) rho' ->
        ~ (forall u, dom M SMessage u -> eval (ev_msg (FVar (mkVar uid SMessage))) (upd rho' uid u) = eval (ev_msg (ca_message c)) (upd rho' uid u) ->
             ~ exists d, In d ds /\ holds (mk_exists (fst d) (snd d)) (upd rho' uid u))).
  Proof.
    destruct c as [message signature key]. unfold instance. cbn [ca_message ca_signature ca_key].
    destruct (formulas_max_var_or_max tq fuel [message; signature; key] mv) as [uid|] eqn:Emax; [|discriminate].
    destruct (free_of fuel [message; signature; key]) as [free|] eqn:Efree; [|discriminate].
    destruct (finds_nothing _ _ _ _ _ _ _ _ _ _ _ _ _ _) as [[]|] eqn:Ek; try discriminate.
    destruct (preprocess_terms _ _ _ _ _ _ _ _ _ _ _ _ _ _) as [ds|] eqn:Em; try discriminate. intros E. apply some_inj, some_inj in E as <-.
    exists uid, free, ds. split; [reflexivity|]. split.
    { intros i. rewrite (free_of_in _ _ _ Efree i). split.
      - intros (f & [<-|[<-|[<-|[]]]] & H); auto.
      - intros [H|[H|H]]; eexists; (split; [|exact H]); cbn; auto. }
    split; [reflexivity|]. split; [exact Em|]. intros Hos Hcl M Hne rho. rewrite holds_all. split.
    - intros H vs Hvs Hp Hno. set (rho' := bindv rho free vs) in *. specialize (H vs Hvs). pose proof (proj1 (holds_imp _ _ _ _) H Hp) as H'. fold rho' in H'.
      eapply holds_ex_elim; [exact H'|]. intros us Hus Hu. apply typed_one in Hus as (u & -> & Du). rewrite bindv_cons in Hu.
      apply holds_and in Hu as [Hv Hu]. apply holds_meq in Hv. change (bindv (upd rho' (vid (mkVar uid SMessage)) u) [] []) with (upd rho' uid u) in *.
      apply (Hno u Du Hv). apply (merge_equivalent scmp Hscmp ds Hos _ Hne Hcl) in Hu. unfold disjunction in Hu. apply holds_ors in Hu as (f & Hf & Hu).
      apply in_map_iff in Hf as (d & <- & Hd). eauto.
    - intros H vs Hvs. apply holds_imp. intros Hp. specialize (H vs Hvs Hp). cbv zeta in H.
      match goal with |- holds ?f ?r => destruct (holds_dec f r) as [Hd|Hd]; [exact Hd|] end. exfalso. apply H. intros u Du Hv (d & Hin & Hu). apply Hd.
      apply (holds_ex_intro [mkVar uid SMessage] _ _ [u]); [apply typed1; exact Du|]. rewrite bindv_cons.
      change (bindv (upd (bindv rho free vs) (vid (mkVar uid SMessage)) u) [] []) with (upd (bindv rho free vs) uid u).
      apply holds_and. split; [apply holds_meq; exact Hv|]. apply (merge_equivalent scmp Hscmp ds Hos _ Hne Hcl). unfold disjunction. apply holds_ors.
      exists (mk_exists (fst d) (snd d)). split; [|exact Hu]. apply in_map_iff. eauto.
  Qed.

  (** In the evaluated realm the message itself stands for [u]. *)
  Lemma instance_evaluated sound_main sound_key kmain kkey main_nexts key_nexts signed premise fuel mv c ax :
    instance get_sort steps cells anc tq mfuel scmp false sound_main sound_key kmain kkey main_nexts key_nexts signed premise fuel mv c = Some (Some ax) ->
    exists uid free ds,
    formulas_max_var_or_max tq fuel [ca_message c; ca_signature c; ca_key c] mv = Some uid /\
    (forall i, In i (map vid free) <-> occurs_free i (ca_message c) \/ occurs_free i (ca_signature c) \/ occurs_free i (ca_key c)) /\
    finds_nothing get_sort steps anc tq mfuel SName sound_key kkey key_nexts fuel (ca_key c)
      (terms_and_bvars steps cells ++ [(ca_message c, []); (ca_signature c, [])]) false NO_REC_MACRO = Some true /\
    preprocess_terms get_sort SMessage sound_main kmain steps anc tq mfuel main_nexts fuel
      (signed (FVar (mkVar uid SMessage)) (cast_name (ca_key c))) [(ca_message c, []); (ca_signature c, [])] true ALL = Some ds /\
    ((forall d, In d ds -> one_sort (fst d)) -> no_clash ds -> no_capture (one_var uid (ca_message c)) (into_exist_formula scmp ds) ->
      forall M : structure, (forall s, exists d, dom M s d) ->
      forall rho : env M, holds ax rho <->
      forall vs, typed free vs -> let rho' := bindv rho free vs in
        holds (premise (ca_signature c) (ca_message c) (cast_name (ca_key c))) rho' ->
        exists d, In d ds /\ holds (mk_exists (fst d) (snd d)) (upd rho' uid (eval (ca_message c) rho'))).
  Proof.
    destruct c as [message signature key]. unfold instance. cbn [ca_message ca_signature ca_key].
    destruct (formulas_max_var_or_max tq fuel [message; signature; key] mv) as [uid|] eqn:Emax; [|discriminate].
    destruct (free_of fuel [message; signature; key]) as [free|] eqn:Efree; [|discriminate].
    destruct (finds_nothing _ _ _ _ _ _ _ _ _ _ _ _ _ _) as [[]|] eqn:Ek; try discriminate.
    destruct (preprocess_terms _ _ _ _ _ _ _ _ _ _ _ _ _ _) as [ds|] eqn:Em; try discriminate.
    destruct (sapply (one_var uid message) (into_exist_formula scmp ds)) as [b|] eqn:Es; try discriminate.
    intros E. apply some_inj, some_inj in E as <-.
    exists uid, free, ds. split; [reflexivity|]. split.
    { intros i. rewrite (free_of_in _ _ _ Efree i). split.
      - intros (f & [<-|[<-|[<-|[]]]] & H); auto.
      - intros [H|[H|H]]; eexists; (split; [|exact H]); cbn; auto. }
    split; [reflexivity|]. split; [exact Em|]. intros Hos Hcl Hcap M Hne rho. rewrite holds_all.
    assert (Hb : forall rho' : env M, holds b rho' <-> exists d, In d ds /\ holds (mk_exists (fst d) (snd d)) (upd rho' uid (eval message rho'))).
    { intros rho'. unfold holds at 1. rewrite (subst_meaning M _ _ _ rho' (upd rho' uid (eval message rho')) Es Hcap).
      - fold (holds (into_exist_formula scmp ds) (upd rho' uid (eval message rho'))).
        rewrite (merge_equivalent scmp Hscmp ds Hos _ Hne Hcl). unfold disjunction. rewrite holds_ors. split.
        + intros (f & Hf & Hu). apply in_map_iff in Hf as (d & <- & Hd). eauto.
        + intros (d & Hd & Hu). exists (mk_exists (fst d) (snd d)). split; [|exact Hu]. apply in_map_iff. eauto.
      - intros p v t _ _. unfold one_var, upd. rewrite Nat.eqb_sym. destruct (Nat.eqb uid (vid v)) eqn:Ev; intros [= <-]; reflexivity. }
    split.
    - intros H vs Hvs Hp. apply Hb. exact (proj1 (holds_imp _ _ _ _) (H vs Hvs) Hp).
    - intros H vs Hvs. apply holds_imp. intros Hp. apply Hb. exact (H vs Hvs Hp).
  Qed.

  (** INT-CTXT. *)
  Lemma ctxt_meaning sound_main sound_key kmain kkey enc dec fail fuel mv es sc cipher key ax :
    ctxt_instance get_sort tq mfuel sound_main sound_key kmain kkey steps cells anc scmp enc dec fail fuel mv es sc (cipher, key) = Some (Some ax) ->
    sc = true /\ exists uid free ds other,
    formulas_max_var_or_max tq fuel [cipher; key] mv = Some uid /\
    (forall i, In i (map vid free) <-> occurs_free i cipher \/ occurs_free i key) /\
    finds_nothing get_sort steps anc tq mfuel SName sound_key kkey (ctxt_key_nexts enc dec) fuel key
      (terms_and_bvars steps cells ++ [(cipher, [])]) false NO_REC_MACRO = Some true /\
    other_sc get_sort mfuel fuel (uid + 2) (cast_name key) es = Some other /\
    let made := FFun (Fuser enc) [FVar (mkVar uid SMessage); cast_name (FVar (mkVar (uid + 1) SName)); cast_name key] in
    preprocess_terms get_sort SMessage sound_main kmain steps anc tq mfuel children fuel made [(cipher, [])] true ALL = Some ds /\
    ((forall d, In d ds -> one_sort (fst d)) -> no_clash ds -> forall M : structure, (forall s, exists d, dom M s d) ->
      forall rho : env M, holds ax rho <->
      forall vs, typed free vs -> let rho' := bindv rho free vs in
        eval (ev_msg (FFun (Fuser dec) [cipher; cast_name key])) rho' <> eval (ev_msg (FFun (Fuser fail) [])) rho' -> holds other rho' ->
        ~ (forall u r, dom M SMessage u -> dom M SName r -> let rho2 := upd (upd rho' uid u) (uid + 1) r in
             eval (ev_msg cipher) rho2 = eval (ev_msg made) rho2 -> ~ exists d, In d ds /\ holds (mk_exists (fst d) (snd d)) rho2)).
  Proof.
    unfold ctxt_instance.
    destruct (formulas_max_var_or_max tq fuel [cipher; key] mv) as [uid|] eqn:Emax; [|discriminate].
    destruct (free_of fuel [cipher; key]) as [free|] eqn:Efree; [|discriminate].
    destruct sc; cbn [negb]; [|discriminate].
    destruct (finds_nothing _ _ _ _ _ _ _ _ _ _ _ _ _ _) as [[]|] eqn:Ek; try discriminate.
    destruct (preprocess_terms _ _ _ _ _ _ _ _ _ _ _ _ _ _) as [ds|] eqn:Em; try discriminate.
    destruct (other_sc _ _ _ _ _ _) as [other|] eqn:Eo; try discriminate. intros E. apply some_inj, some_inj in E as <-. split; [reflexivity|].
    exists uid, free, ds, other. split; [reflexivity|]. split.
    { intros i. rewrite (free_of_in _ _ _ Efree i). split.
      - intros (f & [<-|[<-|[]]] & H); auto.
      - intros [H|H]; eexists; (split; [|exact H]); cbn; auto. }
    split; [reflexivity|]. split; [exact Eo|]. cbv zeta. split; [exact Em|]. intros Hos Hcl M Hne rho. rewrite holds_all. split.
    - intros H vs Hvs Hp Hside Hno. set (rho' := bindv rho free vs) in *. specialize (H vs Hvs).
      assert (Hprem : holds (fand (fnot (meq (ev_msg (FFun (Fuser dec) [cipher; cast_name key])) (ev_msg (FFun (Fuser fail) [])))) other) rho').
      { apply holds_and. split; [|exact Hside]. apply holds_not. intros Hm. apply Hp. exact (proj1 (holds_meq _ _ _ _) Hm). }
      pose proof (proj1 (holds_imp _ _ _ _) H Hprem) as H'. fold rho' in H'.
      eapply holds_ex_elim; [exact H'|]. intros us Hus Hu. inversion Hus as [|? u ? ? Du Hus1]; subst. apply typed_one in Hus1 as (r & -> & Dr).
      rewrite !bindv_cons in Hu. apply holds_and in Hu as [Hu Hv]. apply holds_meq in Hv.
      apply (Hno u r Du Dr Hv). apply (merge_equivalent scmp Hscmp ds Hos _ Hne Hcl) in Hu. unfold disjunction in Hu. apply holds_ors in Hu as (f & Hf & Hu).
      apply in_map_iff in Hf as (d & <- & Hd). eauto.
    - intros H vs Hvs. apply holds_imp. intros Hprem. apply holds_and in Hprem as [Hp Hside].
      assert (Hp' : eval (ev_msg (FFun (Fuser dec) [cipher; cast_name key])) (bindv rho free vs) <> eval (ev_msg (FFun (Fuser fail) [])) (bindv rho free vs)).
      { intros Heq. apply (proj1 (holds_not _ _ _) Hp). apply holds_meq. exact Heq. }
      specialize (H vs Hvs Hp' Hside). cbv zeta in H.
      match goal with |- holds ?f ?r => destruct (holds_dec f r) as [Hd|Hd]; [exact Hd|] end. exfalso. apply H. intros u r Du Dr Hv (d & Hin & Hu). apply Hd.
      apply (holds_ex_intro [mkVar uid SMessage; mkVar (uid + 1) SName] _ _ [u; r]); [constructor; [exact Du|apply typed1; exact Dr]|]. rewrite !bindv_cons.
      apply holds_and. split; [|apply holds_meq; exact Hv]. apply (merge_equivalent scmp Hscmp ds Hos _ Hne Hcl). unfold disjunction. apply holds_ors.
      exists (mk_exists (fst d) (snd d)). split; [|exact Hu]. apply in_map_iff. eauto.
  Qed.

  (** The condition on two encryptions. *)
  Lemma holds_equalities u eqs : as_equalities get_sort u = Some eqs -> forall (M : structure) (rho : env M),
    Forall (fun f => holds f rho) eqs <-> solves M rho u.
  Proof.
    destruct u as [lp rp]. unfold as_equalities. destruct (existsb _ _); [discriminate|]. intros He M rho. unfold solves. cbn [fst snd].
    apply mapM_Forall2 in He. induction He as [|[j t] e l1 l2 Hp Hf IH]; [split; [intros _ i t []|constructor]|].
    cbn in Hp. destruct (get_sort t); [|discriminate]. injection Hp as <-. split.
    - intros H. inversion H as [|? ? H1 H2]; subst. intros i t' [E|Hin]; [injection E as <- <-; exact (proj1 (holds_meq _ _ _ _) H1)|].
      apply (proj1 IH H2). exact Hin.
    - intros H. constructor; [apply holds_meq; apply H; left; reflexivity|]. apply IH. intros i t' Hin. apply H. right. exact Hin.
  Qed.
  Lemma unify_eqs_some a b l : unify_eqs get_sort mfuel a b = Some (Some l) -> exists u, mgu mfuel a b = Some (Some u) /\
    forall (M : structure) (rho : env M), as_equalities get_sort u <> None -> Forall (fun f => holds f rho) l <-> solves M rho u.
  Proof.
    unfold unify_eqs. destruct (mgu mfuel a b) as [[u|]|] eqn:Eu; try discriminate. intros [= <-]. exists u. split; [reflexivity|].
    intros M rho. destruct (as_equalities get_sort u) as [eqs|] eqn:Ee; [|congruence]. intros _. apply (holds_equalities _ _ Ee).
  Qed.
  Lemma pair_meaning fuel mv k_f e1 e2 f : pair_condition get_sort mfuel fuel mv k_f (e1, e2) = Some (Some f) ->
    exists r2 k2 m2 uk ur uk12 um free,
    translate_vars mv (en_rand e2) = Some r2 /\ translate_vars mv (en_key e2) = Some k2 /\ translate_vars mv (en_message e2) = Some m2 /\
    mgu mfuel k_f (en_key e1) = Some (Some uk) /\ mgu mfuel (en_rand e1) r2 = Some (Some ur) /\
    mgu mfuel (en_key e1) k2 = Some (Some uk12) /\ mgu mfuel (en_message e1) m2 = Some (Some um) /\
    (forall i, In i (map vid free) <-> exists g, In g [en_rand e1; en_message e1; en_key e1; r2; m2] /\ occurs_free i g) /\
    ((forall u, In u [uk; ur; uk12; um] -> as_equalities get_sort u <> None) -> forall (M : structure) (rho : env M), holds f rho <->
      forall vs, typed free vs -> let rho' := bindv rho free vs in
        solves M rho' ur -> solves M rho' uk -> solves M rho' uk12 /\ solves M rho' um).
  Proof.
    unfold pair_condition. destruct (translate_vars mv (en_rand e2)) as [r2|] eqn:Er2; [|discriminate].
    destruct (translate_vars mv (en_key e2)) as [k2|] eqn:Ek2; [|discriminate]. destruct (translate_vars mv (en_message e2)) as [m2|] eqn:Em2; [|discriminate].
    unfold and_then.
    destruct (unify_eqs get_sort mfuel k_f (en_key e1)) as [[luk|]|] eqn:E1; try discriminate. apply unify_eqs_some in E1 as (uk & Euk & Huk).
    destruct (unify_eqs get_sort mfuel (en_rand e1) r2) as [[lur|]|] eqn:E2; try discriminate. apply unify_eqs_some in E2 as (ur & Eur & Hur).
    destruct (unify_eqs get_sort mfuel (en_key e1) k2) as [[luk12|]|] eqn:E3; try discriminate. apply unify_eqs_some in E3 as (uk12 & Euk12 & Huk12).
    destruct (unify_eqs get_sort mfuel (en_message e1) m2) as [[lum|]|] eqn:E4; try discriminate. apply unify_eqs_some in E4 as (um & Eum & Hum).
    destruct (free_of fuel _) as [free|] eqn:Ef; [|discriminate]. intros E. apply some_inj, some_inj in E as <-.
    exists r2, k2, m2, uk, ur, uk12, um, free. repeat (split; [solve [reflexivity|assumption]|]). split.
    { intros i. rewrite (free_of_in _ _ _ Ef i). split; intros (g & Hg & Ho); exists g; (split; [|exact Ho]); cbn in Hg |- *; tauto. }
    intros Hdef M rho. rewrite holds_all. cbv zeta.
    assert (Hg : forall rho' : env M, holds (fimp (ands (lur ++ luk)) (ands (luk12 ++ lum))) rho' <->
      (solves M rho' ur -> solves M rho' uk -> solves M rho' uk12 /\ solves M rho' um)).
    { intros rho'. rewrite holds_imp, !holds_and_list, !Forall_app.
      rewrite (Huk M rho'), (Hur M rho'), (Huk12 M rho'), (Hum M rho') by (apply Hdef; cbn; auto). tauto. }
    split; intros H vs Hvs; [apply Hg|apply Hg]; exact (H vs Hvs).
  Qed.
  Lemma other_meaning fuel mv k_f es other : other_sc get_sort mfuel fuel mv k_f es = Some other -> forall (M : structure) (rho : env M),
    holds other rho <-> forall i j e1 e2 f, i < j -> nth_error es i = Some e1 -> nth_error es j = Some e2 ->
      pair_condition get_sort mfuel fuel mv k_f (e1, e2) = Some (Some f) -> holds f rho.
  Proof.
    unfold other_sc. destruct (mapM _ _) as [l|] eqn:El; [|discriminate]. intros E M rho. apply some_inj in E as <-. rewrite holds_and_list, Forall_forall. split.
    - intros H i j e1 e2 f Hij Hi Hj Hf. apply H. apply in_flat_map. exists (Some f). split; [|left; reflexivity].
      destruct (mapM_defined _ _ _ (e1, e2) El) as (o & Ho & Eo); [apply pairs_in; eauto|]. rewrite Hf in Eo. injection Eo as <-. exact Ho.
    - intros H f Hf. apply in_flat_map in Hf as ([g|] & Hg & Hf); [|destruct Hf]. destruct Hf as [<-|[]].
      apply (proj1 (mapM_in _ _ _ El (Some g))) in Hg as ([e1 e2] & Hp & Ef). apply pairs_in in Hp as (i & j & Hij & Hi & Hj). eapply H; eauto.
  Qed.
End Meaning.

(** *** Decryptions *)
Lemma dec_found_in dec f c k : In (c, k) (dec_found dec f) <-> f = FFun (Fuser dec) [c; FFun (Fcast SMessage) [k]].
Proof.
  unfold dec_found. split.
  - destruct f as [|s [|c' [|key [|? ?]]]|]; try (intros []; fail). destruct (fsym_eqb s (Fuser dec)) eqn:E; [|intros []]. apply fsym_eqb_true in E as ->.
    destruct (name_under key) as [n|] eqn:En; [|intros []]. apply name_under_some in En as ->. intros [[= -> ->]|[]]. reflexivity.
  - intros ->. rewrite (proj2 (fsym_eqb_true (Fuser dec) (Fuser dec)) eq_refl). cbn. auto.
Qed.
Lemma dec_candidates_exact dec mv tlts :
  exists n, forall fuel, n <= fuel -> exists cs, dec_candidates dec fuel mv tlts = Some cs /\
  (forall t p c k, In t tlts -> at_path t p (FFun (Fuser dec) [c; FFun (Fcast SMessage) [k]]) -> exists c' k' d,
     translate_vars mv c = Some c' /\ translate_vars mv k = Some k' /\ In d cs /\ rich_eqb c' (fst d) = true /\ rich_eqb k' (snd d) = true) /\
  (forall d, In d cs -> exists t p c k, In t tlts /\ at_path t p (FFun (Fuser dec) [c; FFun (Fcast SMessage) [k]]) /\
     translate_vars mv c = Some (fst d) /\ translate_vars mv k = Some (snd d)).
Proof.
  destruct (candidates_total (fun _ => []) mv tlts) as (n & Hn). exists n. intros fuel Hf. specialize (Hn fuel Hf). unfold candidates in Hn. unfold dec_candidates.
  destruct (mapM (all_terms fuel) tlts) as [ts|] eqn:Et; [|congruence]. clear Hn.
  assert (Hm : mapM (prepare2 mv) (flat_map (dec_found dec) (concat ts)) <> None).
  { apply mapM_total. intros [c k] _. unfold prepare2. cbn [fst snd]. destruct (translate_total c mv) as [c' ->], (translate_total k mv) as [k' ->]. discriminate. }
  destruct (mapM (prepare2 mv) _) as [l|] eqn:El; [|congruence]. eexists. split; [reflexivity|]. split.
  - intros t p c k Ht Hp. destruct (mapM_defined _ _ _ t Et Ht) as (fs & Hfs & Ef).
    assert (Hin : In (c, k) (flat_map (dec_found dec) (concat ts))).
    { apply in_flat_map. eexists. split; [|apply dec_found_in; reflexivity]. apply in_concat. exists fs. split; [exact Hfs|]. apply (all_terms_complete _ _ _ Ef). eauto. }
    destruct (mapM_defined _ _ _ (c, k) El Hin) as ([c' k'] & Hc' & Ec). unfold prepare2 in Ec. cbn [fst snd] in Ec.
    destruct (translate_vars mv c) as [c2|]; [|discriminate]. destruct (translate_vars mv k) as [k2|]; [|discriminate]. injection Ec as -> ->.
    destruct (uniq_all (fun a b : formula * formula => rich_eqb (fst a) (fst b) && rich_eqb (snd a) (snd b))
      (fun a => andb_true_intro (conj (rich_eqb_refl _) (rich_eqb_refl _))) l _ Hc') as (d & Hd & E). apply andb_prop in E as [E1 E2].
    exists c', k', d. auto 6.
  - intros d Hd. apply uniq_in in Hd. apply (proj1 (mapM_in _ _ _ El d)) in Hd as ([c k] & Hc & Ec).
    apply in_flat_map in Hc as (f & Hff & Hc). apply dec_found_in in Hc as ->. apply in_concat in Hff as (fs & Hfs & Hff).
    apply (proj1 (mapM_in _ _ _ Et fs)) in Hfs as (t & Ht & Et'). apply (all_terms_complete _ _ _ Et') in Hff as (p & Hp). exists t, p, c, k.
    unfold prepare2 in Ec. cbn [fst snd] in Ec. destruct (translate_vars mv c), (translate_vars mv k); try discriminate. injection Ec as <-. auto.
Qed.

(** *** Encryptions *)
Lemma enc_found_spec enc t o : enc_found enc t = Some o <->
  exists m r k, is_enc enc t m r k /\
    (o = None /\ ~ (exists n l, r = FFun (Fcast SMessage) (n :: l)) \/ exists n l, r = FFun (Fcast SMessage) (n :: l) /\ o = Some (mkEnc n m k)).
Proof.
  split.
  - destruct t as [v|s args|q vs b]; try discriminate. destruct args as [|m [|r [|k [|x args]]]]; try discriminate. cbn [enc_found].
    destruct (fsym_eqb s (Fuser enc)) eqn:E; [|discriminate]. apply fsym_eqb_true in E as ->. intros [= <-].
    exists m, r, k. split; [reflexivity|]. destruct r as [v|h l|q vs b]; try (left; split; [reflexivity|]; intros (n & l' & E); discriminate).
    destruct h; try (left; split; [reflexivity|]; intros (n & l' & E); discriminate). destruct s; try (left; split; [reflexivity|]; intros (n & l' & E); discriminate).
    destruct l as [|n l]; [left; split; [reflexivity|]; intros (n & l' & E); discriminate|]. right. exists n, l. auto.
  - intros (m & r & k & -> & [(-> & Hr)|(n & l & -> & ->)]); cbn [enc_found]; rewrite (proj2 (fsym_eqb_true _ _) eq_refl); [|reflexivity].
    f_equal. destruct r as [v|h l|q vs b]; try reflexivity. destruct h; try reflexivity. destruct s; try reflexivity. destruct l as [|n l]; [reflexivity|].
    exfalso. apply Hr. eauto.
Qed.
Lemma enc_candidates_spec enc tlts es sc : enc_candidates enc tlts = (es, sc) ->
  (sc = true <-> forall t m r k, In t tlts -> is_enc enc t m r k -> exists n l, r = FFun (Fcast SMessage) (n :: l)) /\
  (forall t m n l k, In t tlts -> is_enc enc t m (FFun (Fcast SMessage) (n :: l)) k ->
     exists e, In e es /\ rich_eqb n (en_rand e) = true /\ rich_eqb m (en_message e) = true /\ rich_eqb k (en_key e) = true) /\
  (forall e, In e es -> exists t l, In t tlts /\ is_enc enc t (en_message e) (FFun (Fcast SMessage) (en_rand e :: l)) (en_key e)).
Proof.
  unfold enc_candidates. set (found := flat_map _ tlts). intros E. apply pair_equal_spec in E as [<- <-].
  assert (Hfound : forall o, In o found <-> exists t, In t tlts /\ enc_found enc t = Some o).
  { intros o. unfold found. rewrite in_flat_map. split; intros (t & Ht & H); exists t; (split; [exact Ht|]).
    - destruct (enc_found enc t) as [o'|]; [destruct H as [->|[]]; reflexivity|destruct H].
    - rewrite H. left; reflexivity. }
  split; [|split].
  - rewrite forallb_forall. split.
    + intros H t m r k Ht He. destruct (enc_found enc t) as [o|] eqn:Eo.
      * pose proof (proj1 (enc_found_spec _ _ _) Eo) as (m' & r' & k' & He' & Hr). unfold is_enc in *. rewrite He in He'. injection He' as <- <- <-.
        destruct Hr as [(-> & _)|(n & l & -> & _)]; [|eauto]. specialize (H None ltac:(apply Hfound; eauto)). discriminate.
      * exfalso. rewrite He in Eo. cbn [enc_found] in Eo. rewrite (proj2 (fsym_eqb_true _ _) eq_refl) in Eo. discriminate.
    + intros H o Ho. apply Hfound in Ho as (t & Ht & Eo). apply enc_found_spec in Eo as (m & r & k & He & [(-> & Hr)|(n & l & -> & ->)]); [|reflexivity].
      exfalso. apply Hr. eapply H; eauto.
  - intros t m n l k Ht He.
    assert (Ho : In (mkEnc n m k) (flat_map (fun e => match e with Some c => [c] | None => [] end) found)).
    { apply in_flat_map. exists (Some (mkEnc n m k)). split; [|left; reflexivity]. apply Hfound. exists t. split; [exact Ht|]. apply enc_found_spec.
      exists m, (FFun (Fcast SMessage) (n :: l)), k. split; [exact He|]. right. eauto. }
    destruct (uniq_all enc_eqb enc_eqb_refl _ _ Ho) as (e & He' & Eq). unfold enc_eqb in Eq. cbn [en_rand en_message en_key] in Eq.
    apply andb_prop in Eq as [Eq E3]. apply andb_prop in Eq as [E1 E2]. exists e. auto.
  - intros e He. apply uniq_in in He. apply in_flat_map in He as (o & Ho & He). destruct o as [c|]; [|destruct He]. destruct He as [->|[]].
    apply Hfound in Ho as (t & Ht & Eo). apply enc_found_spec in Eo as (m & r & k & He & [(E & _)|(n & l & -> & E)]); [discriminate|]. injection E as ->.
    exists t, l. auto.
Qed.

