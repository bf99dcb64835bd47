From Coq Require Import List Arith Bool Lia String Ascii Permutation.
From Verif Require Import Syntax_Model Sort_Model Parser_Model Source_Model Source_Spec Source_Props Smt_Model Squirrel_Model
  Utils_Model Utils_Spec Convert_Model Convert_Spec Squirrel_Spec Squirrel_Proofs Squirrel_Props Dump_Model Dump_Spec Dump_Proofs Dump_Props
  Dump_Source_Model Dump_Source_Spec Dump_Source_Proofs.
Import ListNotations.
Local Open Scope list_scope.

(** ** The names of the converted file, by kind; [None]: the verification functions of the hashes *)
Definition knm (wide : text -> bool) (k : option skd * path) : text :=
  match fst k with Some s => sanitize wide s (path_text (snd k)) | None => str "verify_" ++ sanitize wide KFunction (path_text (snd k)) end.

Lemma section_keys_iff {A B C} (f : list B -> list C) (h : path -> C) (P : path * A -> Prop) (R : path * A -> list B -> Prop) l m :
  f [] = [] -> (forall a b, f (a ++ b) = f a ++ f b) -> (forall x ys, In x l -> R x ys -> (f ys = [] /\ ~ P x) \/ (f ys = [h (fst x)] /\ P x)) ->
  section R l m -> exists ps, f m = map h ps /\ forall p, In p ps <-> exists a, In (p, a) l /\ P (p, a).
Proof.
  intros H0 Ha H S. induction S as [|x ys l m Hx S IH]; [exists []; split; [exact H0|]; intros p; split; [intros []|intros (a & [] & _)]|].
  destruct (IH ltac:(intros; apply H; [right; assumption|assumption])) as (ps & E & Hp).
  destruct (H x ys (or_introl eq_refl) Hx) as [[Ey Px]|[Ey Px]].
  - exists ps. rewrite Ha, Ey, E. split; [reflexivity|]. intros p. rewrite Hp. split; intros (a & I & Pa).
    + exists a. split; [right; exact I|exact Pa].
    + destruct I as [->|I]; [contradiction|eauto].
  - exists (fst x :: ps). rewrite Ha, Ey, E. split; [reflexivity|]. intros p. cbn [In]. rewrite Hp. split.
    + intros [<-|(a & I & Pa)]; [exists (snd x); rewrite <- surjective_pairing; split; [left; reflexivity|exact Px]|exists a; split; [right; exact I|exact Pa]].
    + intros (a & [->|I] & Pa); [left; reflexivity|right; eauto].
Qed.
Lemma nodup_map_inj {A B} (f : A -> B) l a b : NoDup (map f l) -> In a l -> In b l -> f a = f b -> a = b.
Proof.
  induction l as [|c l IH]; [intros _ []|]. cbn. intros N I J E. apply NoDup_cons_iff in N. destruct N as [Nc N].
  destruct I as [->|I], J as [->|J]; [reflexivity| | |exact (IH N I J E)]; exfalso; apply Nc.
  - rewrite E. apply in_map. exact J.
  - rewrite <- E. apply in_map. exact I.
Qed.

Lemma converted_keys : forall wide table shuffle fuel d x i l code, (forall A (l : list A), Permutation (shuffle A l) l) ->
  convert_dump wide table shuffle fuel d = OOk x -> aget x i = Some l ->
  exists keys, names_of (map (to_item code) l) = map (fun k => code (knm wide k)) keys /\ forall k p, declares d k p -> In (Some k, p) keys.
Proof.
  intros wide table shuffle fuel d x i l code sh E H.
  destruct (C103_contents _ _ _ _ _ _ _ _ sh E H) as (csort & names & operators & macros & Hsort & _ & _ & _ & types & ms & ns & os & xs & cs & T & C & N & F & G & K & S & O & P & q &
    LT & ST & LM & SC & SG & LN & SN & LO & SF & SK & SP & LX & SS & _ & SO & _ & El).
  set (term := fun t b => exists y, convert wide csort names operators macros (Any tt) t = OOk y /\ aget y i = Some b) in *.
  set (asserts := map (fun c => DAssert _) _) in El. set (fixed := [DCrypto (str "nonce") [] []; _; _]) in El.
  assert (Asserts : fnames code asserts = []) by reflexivity.
  assert (Fixed : fnames code fixed = []) by reflexivity.
  assert (Orders : fnames code O = []).
  { eapply section_nothing; [reflexivity|apply fnames_app| |exact SO]. intros c ys [(_ & ->)|(o & _ & ->)]; reflexivity. }
  assert (NT : fnames code T = []) by (nothing (fnames_app code) no_queries_T ST).
  assert (NG : fnames code G = []) by (nothing (fnames_app code) no_queries_G SG).
  assert (NK : fnames code K = []) by (nothing (fnames_app code) no_queries_K SK).
  destruct (section_keys_iff (fnames code) (fun p => code (knm wide (Some KMacro, p))) (fun e => exists s vs t, snd e = DState s vs t) (cell_item wide table d) _ _ eq_refl (fnames_app code)
    ltac:(intros [p m] ys _ R; unfold cell_item in R; cbn [fst snd] in *; destruct m as [| |s vs t|];
          [left; subst; split; [reflexivity|intros (? & ? & ? & X); discriminate X]|left; subst; split; [reflexivity|intros (? & ? & ? & X); discriminate X]| |
           left; subst; split; [reflexivity|intros (? & ? & ? & X); discriminate X]];
          destruct R as (out & args & _ & _ & ->); right; split; [reflexivity|eauto]) SC) as (kC & EC & HkC).
  destruct (section_keys_iff (fnames code) (fun p => code (knm wide (Some KName, p))) (fun e => f_poly (snd e) = false) (name_item wide table d) _ _ eq_refl (fnames_app code)
    ltac:(intros [p m] ys _ R; unfold name_item in R; cbn [fst snd] in *; destruct (f_poly m); [left; subst; split; [reflexivity|discriminate]|];
          destruct R as (ins & args & _ & _ & ->); right; split; reflexivity) SN) as (kN & EN & HkN).
  destruct (section_keys_iff (fnames code) (fun p => code (knm wide (Some KFunction, p))) (fun e => as_function (fst e) (snd e)) (operator_item wide table d) _ _ eq_refl (fnames_app code)
    ltac:(intros [p m] ys _ R; unfold operator_item in R; cbn [fst snd] in *; unfold as_function; destruct (op_def m) eqn:Em;
          [|left; subst; split; [reflexivity|intros ((? & ? & X) & _); discriminate X]];
          destruct R as [(Y & ->)|[(Y & ->)|(Hp & Hu & ins & args & out & _ & _ & _ & ->)]]; [left; split; [reflexivity|intros (_ & X & _); congruence]|
          left; split; [reflexivity|intros (_ & _ & X); contradiction]|];
          right; split; [reflexivity|eauto]) SF) as (kF & EF & HkF).
  destruct (section_keys_iff (fnames code) (fun p => code (knm wide (Some KStep, p))) (fun e => True) (step_item wide table d term) _ _ eq_refl (fnames_app code)
    ltac:(intros [p m] ys I (_ & args & cond & message & updates & _ & _ & _ & _ & ->); right; split; [|exact Logic.I];
          apply LX in I; destruct I as (l1 & l2 & Ei & _);
          assert (In (p, m) (map (fun a => (a_name (x_action a), a)) (d_actions d))) as I by (rewrite Ei; apply in_elt);
          apply in_map_iff in I; destruct I as (m' & Em & _); injection Em as <- <-; reflexivity) SS) as (kS & ES & HkS).
  destruct (section_keys_iff (fnames code) (fun p => code (knm wide (None, p))) (fun e => exists l, op_def (snd e) = Abstract AHash l) (crypto_item wide) _ _ eq_refl (fnames_app code)
    ltac:(intros [p m] ys _ R; unfold crypto_item in R; cbn [fst snd] in *; destruct (op_def m) as [[| | |] ass|];
          [right; subst; split; [reflexivity|eauto]|destruct R as (? & ? & _ & ->)|destruct R as (? & ? & _ & ->)|subst|subst];
          left; split; try reflexivity; intros (? & X); discriminate X) SP) as (kP & EP & HkP).
  exists (map (pair (Some KMacro)) kC ++ map (pair (Some KName)) kN ++ map (pair (Some KFunction)) kF ++ map (pair (Some KStep)) kS ++ map (pair None) kP). split.
  - change (fnames code l = map (fun k => code (knm wide k)) (map (pair (Some KMacro)) kC ++ map (pair (Some KName)) kN ++ map (pair (Some KFunction)) kF ++ map (pair (Some KStep)) kS ++ map (pair None) kP)).
    rewrite El, !fnames_app, NT, EC, EN, EF, NG, NK, Asserts, ES, Orders, Fixed, EP. rewrite !map_app, !map_map. cbn [app].
    change (fnames code [DType (str "index")]) with (@nil name). change (fnames code [DQuery q]) with (@nil name).
    cbn [app]. rewrite app_nil_r. reflexivity.
  - intros k p D. rewrite !in_app_iff. destruct D as [p f L Hp|p o L A|p s vs t L|p x0 L].
    + right; left. apply (in_map (pair (Some KName))). apply HkN. exists f. split; [apply LN; exact L|exact Hp].
    + right; right; left. apply (in_map (pair (Some KFunction))). apply HkF. exists o. split; [apply LO; exact L|exact A].
    + left. apply (in_map (pair (Some KMacro))). apply HkC. exists (DState s vs t). split; [apply LM; exact L|exists s, vs, t; reflexivity].
    + right; right; right; left. apply (in_map (pair (Some KStep))). apply HkS. exists x0. split; [apply LX; exact L|exact Logic.I].
Qed.

(** The items of a symbol. *)
Lemma converted_items : forall wide table shuffle fuel d x i l, (forall A (l : list A), Permutation (shuffle A l) l) ->
  convert_dump wide table shuffle fuel d = OOk x -> aget x i = Some l ->
  (forall p f, last_entry (d_names d) p f -> f_poly f = false -> exists ins args, inputs (f_args f) ins /\ Forall2 (type_name wide table d) ins args /\
     In (DFun (sanitize wide KName (path_text p)) args (str "Name")) l) /\
  (forall p o, last_entry (d_operators d) p o -> as_function p o -> exists ins args out, inputs (op_args o) ins /\ Forall2 (type_name wide table d) ins args /\
     type_name wide table d (op_out o) out /\ In (DFun (sanitize wide KFunction (path_text p)) args out) l) /\
  (forall p s vs t, last_entry (d_macros d) p (DState s vs t) -> exists out args, Forall2 (fun v a => sort_name wide d (table (j_sort v)) a) vs args /\
     In (DCell (sanitize wide KMacro (path_text p)) args out) l) /\
  (forall p x, last_entry (map (fun x => (a_name (x_action x), x)) (d_actions d)) p x -> exists args cond message updates,
     Forall2 (binds wide table d) (a_indices (x_action x)) args /\ In (DStep (sanitize wide KStep (path_text p)) args cond message updates) l).
Proof.
  intros wide table shuffle fuel d x i l sh E H.
  destruct (C103_contents _ _ _ _ _ _ _ _ sh E H) as (csort & names & operators & macros & Hsort & _ & _ & _ & types & ms & ns & os & xs & cs & T & C & N & F & G & K & S & O & P & q &
    LT & ST & LM & SC & SG & LN & SN & LO & SF & SK & SP & LX & SS & _ & SO & _ & El).
  split; [|split; [|split]].
  - intros p f L Hp. apply LN in L. destruct (section_has _ _ _ _ SN L) as (ys & R & Inc). unfold name_item in R. cbn [fst snd] in R. rewrite Hp in R.
    destruct R as (ins & args & Hi & Ha & ->). exists ins, args. split; [exact Hi|]. split; [exact Ha|]. rewrite El, !in_app_iff. do 3 right; left. apply Inc. left. reflexivity.
  - intros p o L ((a & l0 & Ed) & Hp & Hu). apply LO in L. destruct (section_has _ _ _ _ SF L) as (ys & R & Inc). unfold operator_item in R. cbn [fst snd] in R. rewrite Ed in R.
    destruct R as [(Y & _)|[(Y & _)|(_ & _ & ins & args & out & Hi & Ha & Ho & ->)]]; [congruence|contradiction|]. exists ins, args, out.
    repeat (split; [assumption|]). rewrite El, !in_app_iff. do 4 right; left. apply Inc. left. reflexivity.
  - intros p s vs t L. apply LM in L. destruct (section_has _ _ _ _ SC L) as (ys & R & Inc). unfold cell_item in R. cbn [fst snd] in R.
    destruct R as (out & args & _ & Ha & ->). exists out, args. split; [exact Ha|]. rewrite El, !in_app_iff. do 2 right; left. apply Inc. left. reflexivity.
  - intros p x0 L. pose proof L as L'. apply LX in L. destruct (section_has _ _ _ _ SS L) as (ys & R & Inc). destruct R as (_ & args & cond & message & updates & Ha & _ & _ & _ & ->).
    exists args, cond, message, updates. split; [exact Ha|].
    assert (p = a_name (x_action x0)) as ->.
    { destruct L' as (l1 & l2 & Ei & _). assert (In (p, x0) (map (fun a => (a_name (x_action a), a)) (d_actions d))) as I' by (rewrite Ei; apply in_elt).
      apply in_map_iff in I'. destruct I' as (m' & Em & _). injection Em as <- <-. reflexivity. }
    rewrite El, !in_app_iff. do 8 right; left. apply Inc. left. reflexivity.
Qed.

Lemma coded_builtins code bs bf kw : coded code bs bf kw -> builtins bs bf kw.
Proof.
  intros [Inj Ini Cs [Nf Cf] Ck]. split.
  - rewrite Cs, map_map. cbn [fst]. apply (nodup_map (fun e : string * sort => code (str (fst e)))).
    + intros a b Ia Ib E. apply Inj in E. cbn [In] in Ia, Ib.
      repeat (destruct Ia as [<-|Ia]; [repeat (destruct Ib as [<-|Ib]; [first [reflexivity|discriminate E]|]); destruct Ib|]). destruct Ia.
    + repeat (apply NoDup_cons; [cbn; intuition discriminate|]). apply NoDup_nil.
  - intros x s I. rewrite Cs in I. cbn in I. repeat (destruct I as [[= <- <-]|I]; [cbn; tauto|]). destruct I.
  - exact Nf.
  - split; intros I.
    + destruct (Cf _ I) as (s & Es & Is). rewrite <- Ini in Es. apply Inj in Es. apply clear_all in Is; [|reflexivity]. rewrite <- Es in Is. vm_compute in Is. discriminate Is.
    + destruct (Ck _ I) as (s & Es & Is). rewrite <- Ini in Es. apply Inj in Es. apply clear_all in Is; [|reflexivity]. rewrite <- Es in Is. vm_compute in Is. discriminate Is.
Qed.

(** A type of the Squirrel file is not one of CryptoVampire's. *)
Lemma sort_not_builtin wide t : ~ In (sanitize wide KSort t) (map str ["Bool"; "Condition"; "Message"; "Bitstring"; "Step"; "Name"]%string).
Proof.
  destruct (in_dec (list_eq_dec ascii_dec) t special) as [I|N]; intros J.
  - apply (special_reserved wide KSort) in I. cbn [map In] in J.
    repeat (destruct J as [J|J]; [rewrite <- J in I; vm_compute in I; repeat (destruct I as [I|I]; [discriminate I|]); exact I|]). exact J.
  - rewrite not_special in J by exact N. pose proof (kind_underscore KSort (if alnum wide t then t else str "_base64_" ++ base64 t)) as U.
    cbn [map In] in J. repeat (destruct J as [J|J]; [rewrite <- J in U; vm_compute in U; repeat (destruct U as [U|U]; [discriminate U|]); exact U|]). exact J.
Qed.

(** The sort that the name of a type stands for. *)
Section Sorts.
  Context (code : text -> name) (wide : text -> bool) (table : nat -> jsort) (d : dump) (bs : list (name * sort)) (bf : list (name * fcache)) (kw : list name)
          (l : list Source_Model.item) (so : source).
  Context (Co : coded code bs bf kw) (W : well_declared bs bf kw l) (D : declared bs bf l so).
  Notation srt := (e_sorts (penv_of (so_env so))).

  Lemma srt_builtin x s : In (x, s) bs -> srt x = Some s.
  Proof.
    intros I. destruct (srt x) as [s'|] eqn:E.
    - destruct (de_types _ _ _ _ D _ _ E) as [J|(J & _)].
      + assert (N : NoDup (map fst bs)) by apply (bi_sorts _ _ _ (coded_builtins _ _ _ _ Co)).
        f_equal. clear -I J N. induction bs as [|e b IH]; [destruct I|]. cbn in N. apply NoDup_cons_iff in N. destruct N as [Ne N].
        destruct I as [->|I], J as [J|J]; [congruence| | |exact (IH I J N)]; exfalso; apply Ne; apply in_map_iff.
        * exists (x, s'). auto.
        * subst e. exists (x, s). auto.
      + exfalso. apply (proj2 (wd_types _ _ _ _ W) _ J). apply in_map_iff. exists (x, s). auto.
    - exfalso. apply (de_types_all _ _ _ _ D x); [left; apply in_map_iff; exists (x, s); auto|exact E].
  Qed.
  Lemma srt_declared x : In x (types_of l) -> exists k, srt x = Some (SIndex k).
  Proof.
    intros I. destruct (srt x) as [s|] eqn:E; [|exfalso; exact (de_types_all _ _ _ _ D x (or_intror I) E)].
    destruct (de_types _ _ _ _ D _ _ E) as [J|(_ & k & ->)]; [|eauto].
    exfalso. apply (proj2 (wd_types _ _ _ _ W) _ I). apply in_map_iff. exists (x, s). auto.
  Qed.
  Lemma srt_sort n s : sort_name wide d (table n) s -> In (code s) (map fst bs) \/ In (code s) (types_of l) ->
    exists o, srt (code s) = Some o /\ sort_read code wide table d srt (TPlain n) o.
  Proof.
    intros Hs U. remember (table n) as j eqn:Ej. symmetry in Ej.
    assert (Bs : forall x s, In (x, s) [("Bool", SBool); ("Condition", SCondition); ("Message", SMessage); ("Bitstring", SBitstring); ("Step", SStep); ("Name", SName)]%string ->
      srt (code (str x)) = Some s).
    { intros x s0 I. apply srt_builtin. rewrite (co_sorts _ _ _ _ Co). apply (in_map (fun e => (code (str (fst e)), snd e))) in I. exact I. }
    assert (Nb : forall t, In (code t) (map fst bs) -> In t (map str ["Bool"; "Condition"; "Message"; "Bitstring"; "Step"; "Name"]%string)).
    { intros t I. rewrite (co_sorts _ _ _ _ Co), map_map in I. apply in_map_iff in I. destruct I as (e & Ee & I). cbn [fst] in Ee. apply (co_inj _ _ _ _ Co) in Ee. rewrite <- Ee.
      apply in_map. apply (in_map fst) in I. exact I. }
    destruct Hs as [| | | | | |p k Hk Nk|p Hk].
    - exists SMessage. split; [apply Bs; cbn; tauto|apply sr_message; auto].
    - exists SMessage. split; [apply Bs; cbn; tauto|apply sr_message; auto].
    - exists SBool. split; [apply Bs; cbn; tauto|apply sr_boolean; auto].
    - exists SStep. split; [apply Bs; cbn; tauto|apply sr_timestamp; auto].
    - destruct U as [U|U]; [exfalso; apply Nb in U; vm_compute in U; intuition discriminate|]. destruct (srt_declared _ U) as (k & Ek). exists (SIndex k).
      split; [exact Ek|]. apply sr_index; assumption.
    - exists SName. split; [apply Bs; cbn; tauto|apply sr_named; auto].
    - exists SMessage. split; [apply Bs; cbn; tauto|]. eapply sr_large; eauto.
    - destruct U as [U|U]; [exfalso; apply Nb in U; exact (sort_not_builtin _ _ U)|]. destruct (srt_declared _ U) as (j' & Ek). exists (SIndex j'). split; [exact Ek|]. eapply sr_finite; eauto.
  Qed.
  Lemma srt_type t s : type_name wide table d t s -> In (code s) (map fst bs) \/ In (code s) (types_of l) ->
    exists o, srt (code s) = Some o /\ sort_read code wide table d srt t o.
  Proof.
    intros [ts|n s' Hs] U; [|exact (srt_sort n s' Hs U)]. exists SMessage. split; [|apply sr_tuple]. apply srt_builtin. rewrite (co_sorts _ _ _ _ Co). cbn. tauto.
  Qed.
  Lemma srt_types ts ss : Forall2 (type_name wide table d) ts ss -> (forall x, In x (map code ss) -> In x (map fst bs) \/ In x (types_of l)) ->
    forall os, map srt (map code ss) = map Some os -> Forall2 (sort_read code wide table d srt) ts os.
  Proof.
    induction 1 as [|t s ts ss Ht F IH]; intros U [|o os]; cbn [map]; try discriminate; [constructor|]. intros E0.
    assert (Eo : srt (code s) = Some o) by congruence. assert (Es : map srt (map code ss) = map Some os) by congruence.
    destruct (srt_type t s Ht (U _ (or_introl eq_refl))) as (o' & Eo' & R). assert (o' = o) by congruence; subst o'; constructor; [exact R|]. apply IH; [|exact Es]. intros x I. apply U. right. exact I.
  Qed.
  Lemma srt_sorts vs ss : Forall2 (fun v s => sort_name wide d (table (j_sort v)) s) vs ss -> (forall x, In x (map code ss) -> In x (map fst bs) \/ In x (types_of l)) ->
    forall os, map srt (map code ss) = map Some os -> Forall2 (fun v => sort_read code wide table d srt (TPlain (j_sort v))) vs os.
  Proof.
    induction 1 as [|t s ts ss Ht F IH]; intros U [|o os]; cbn [map]; try discriminate; [constructor|]. intros E0.
    assert (Eo : srt (code s) = Some o) by congruence. assert (Es : map srt (map code ss) = map Some os) by congruence.
    destruct (srt_sort _ s Ht (U _ (or_introl eq_refl))) as (o' & Eo' & R). assert (o' = o) by congruence; subst o'; constructor; [exact R|]. apply IH; [|exact Es]. intros x I. apply U. right. exact I.
  Qed.
End Sorts.
