(** C105: the declarations of a converted Squirrel file. *)
From Coq Require Import List Arith Bool Lia String Ascii Permutation.
From Verif Require Import Syntax_Model Sort_Model Parser_Model Source_Model Source_Spec Source_Props Smt_Model Squirrel_Model
  Utils_Model Utils_Spec Convert_Model Convert_Spec Squirrel_Spec Squirrel_Proofs Squirrel_Props Dump_Model Dump_Spec Dump_Proofs Dump_Props
  Dump_Source_Model Dump_Source_Spec Dump_Source_Proofs Dump_Symbols_Proofs.
Import ListNotations.
Local Open Scope list_scope.

(** The declarations of the converted file are accepted. Partial: for Squirrel files that are [declarable], see the refutations below. *)
Theorem C105_accepted_partial : forall wide table shuffle fuel d x i l code bs bf kw sh, (forall A (l : list A), Permutation (shuffle A l) l) ->
  convert_dump wide table shuffle fuel d = OOk x -> aget x i = Some l -> declarable table d -> coded code bs bf kw ->
  exists so, declare_all bs bf kw sh (map (to_item code) l) = DOk so.
Proof.
  intros wide table shuffle fuel d x i l code bs bf kw sh P E H D C. apply C97_accepted; [exact (coded_builtins _ _ _ _ C)|].
  eapply converted_declared; eauto.
Qed.
Print Assumptions C105_accepted_partial.

(** In an accepted file, the names, functions, cells and steps of the Squirrel file are declared as what they are, with the sorts of
    their types. *)
Theorem C105_symbols : forall wide table shuffle fuel d x i l code bs bf kw sh so, (forall A (l : list A), Permutation (shuffle A l) l) ->
  convert_dump wide table shuffle fuel d = OOk x -> aget x i = Some l -> coded code bs bf kw ->
  declare_all bs bf kw sh (map (to_item code) l) = DOk so ->
  let reads := sort_read code wide table d (e_sorts (penv_of (so_env so))) in
  let means k p fc := e_functions (penv_of (so_env so)) (code (sanitize wide k (path_text p))) = Some fc in
  (forall p f, last_entry (d_names d) p f -> f_poly f = false -> exists k ins ss, inputs (f_args f) ins /\ Forall2 reads ins ss /\
     means KName p (mkFc (Fname k) (SgFixed (map cond_of ss) SName) (Some SMessage) None)) /\
  (forall p o, last_entry (d_operators d) p o -> as_function p o -> exists k ins ss out, inputs (op_args o) ins /\ Forall2 reads ins ss /\ reads (op_out o) out /\
     (out = SName /\ means KFunction p (mkFc (Fname k) (SgFixed (map cond_of ss) SName) (Some SMessage) None) \/
      out <> SName /\ means KFunction p (mkFc (Fuser k) (SgFixed (map cond_of ss) (cond_of out)) None None))) /\
  (forall p s vs t, last_entry (d_macros d) p (DState s vs t) -> exists k ss, Forall2 (fun v => reads (TPlain (j_sort v))) vs ss /\
     means KMacro p (mkFc (Fcell k) (SgFixed (ss ++ [SStep]) SMessage) None None)) /\
  (forall p x, last_entry (map (fun x => (a_name (x_action x), x)) (d_actions d)) p x -> exists k ss st,
     Forall2 (fun v => reads (TPlain (j_sort v))) (a_indices (x_action x)) ss /\
     map fst (st_args st) = map (fun v => code (sanitize wide KVariable (j_name v))) (a_indices (x_action x)) /\ map snd (st_args st) = ss /\
     means KStep p (mkFc (Fstep k) (SgFixed ss SStep) None (Some st))) /\
  (forall k p fc k' p' fc', declares d k p -> declares d k' p' -> means k p fc -> means k' p' fc' -> fc_sym fc = fc_sym fc' -> k = k' /\ p = p').
Proof.
  intros wide table shuffle fuel d x i l code bs bf kw sh so P E H C A reads means. pose proof (coded_builtins _ _ _ _ C) as B.
  pose proof (C97_declared _ _ _ _ _ _ B A) as D. assert (W : well_declared bs bf kw (map (to_item code) l)) by (apply (C97_accepted bs bf kw sh); eauto).
  destruct (converted_items _ _ _ _ _ _ _ _ P E H) as (IN & IF & IC & IS).
  assert (Known : forall dt y, In dt l -> In y (names_of [to_item code dt]) ->
     exists fc, e_functions (penv_of (so_env so)) y = Some fc /\ describes (e_sorts (penv_of (so_env so))) (to_item code dt) y fc).
  { intros dt y I J. assert (Ic : forall z, In z (map (to_item code) l) -> In z (completed (map (to_item code) l))).
    { intros z Iz. unfold completed. destruct (in_dec Nat.eq_dec 6 (names_of (map (to_item code) l))); [exact Iz|apply in_app_iff; left; exact Iz]. }
    pose proof (in_map (to_item code) _ _ I) as Im. destruct (e_functions (penv_of (so_env so)) y) as [fc|] eqn:Ef.
    - exists fc. split; [reflexivity|]. eapply (de_funs _ _ _ _ D); [apply Ic; exact Im|exact J|exact Ef].
    - exfalso. apply (proj2 (de_funs_all _ _ _ _ D y)); [|exact Ef]. right. unfold names_of in J |- *. apply in_flat_map. exists (to_item code dt). split; [apply Ic; exact Im|].
      cbn [flat_map] in J. rewrite app_nil_r in J. exact J. }
  assert (Used : forall dt y, In dt l -> In y (types_used (to_item code dt)) -> In y (map fst bs) \/ In y (types_of (map (to_item code) l))).
  { intros dt y I J. eapply (wd_used _ _ _ _ W); [apply in_map; exact I|exact J]. }
  split; [|split; [|split; [|split]]].
  - intros p f L Hp. destruct (IN p f L Hp) as (ins & args & Hi & Fa & I). destruct (Known _ (code (sanitize wide KName (path_text p))) I (or_introl eq_refl)) as (fc & Ef & De).
    cbn [to_item describes] in De. destruct De as (_ & k & ss & o & Eo & Es & De). exists k, ins, ss. split; [exact Hi|]. split.
    + eapply srt_types; eauto. intros y Iy. apply (Used _ _ I). right. exact Iy.
    + assert (o = SName). { assert (X : e_sorts (penv_of (so_env so)) (code (str "Name")) = Some SName); [|congruence].
        eapply srt_builtin; eauto. rewrite (co_sorts _ _ _ _ C). cbn. tauto. }
      destruct De as [(_ & ->)|(N & _)]; [exact Ef|contradiction].
  - intros p o L Ao. destruct (IF p o L Ao) as (ins & args & out & Hi & Fa & Fo & I). destruct (Known _ (code (sanitize wide KFunction (path_text p))) I (or_introl eq_refl)) as (fc & Ef & De).
    cbn [to_item describes] in De. destruct De as (_ & k & ss & so' & Eo & Es & De). exists k, ins, ss, so'. split; [exact Hi|]. split; [|split].
    + eapply srt_types; eauto. intros y Iy. apply (Used _ _ I). right. exact Iy.
    + destruct (srt_type code wide table d bs bf kw _ so C W D _ _ Fo) as (o' & Eo' & R); [apply (Used _ _ I); left; reflexivity|].
      assert (so' = o') by congruence. subst o'. exact R.
    + destruct De as [(Es' & ->)|(N & ->)]; [left|right]; split; assumption.
  - intros p s vs t L. destruct (IC p s vs t L) as (out & args & Fa & I). destruct (Known _ (code (sanitize wide KMacro (path_text p))) I (or_introl eq_refl)) as (fc & Ef & De).
    cbn [to_item describes] in De. destruct De as (_ & k & ss & Es & ->). exists k, ss. split; [|exact Ef].
    eapply srt_sorts; eauto.
  - intros p x0 L. destruct (IS p x0 L) as (args & cond & message & updates & Fa & I). destruct (Known _ (code (sanitize wide KStep (path_text p))) I (or_introl eq_refl)) as (fc & Ef & De).
    cbn [to_item describes sa_params] in De. destruct De as (_ & k & ss & ps & Es & Ep & Eps & ->).
    exists k, ss, (mkStep ps (to_term code message) (to_term code cond)). cbn [st_args]. split; [|split; [|split; [exact Eps|exact Ef]]].
    + assert (Ea : map snd (map (code_pair code) args) = map code (map snd args)) by (rewrite !map_map; reflexivity). rewrite Ea in Es.
      assert (F2 : Forall2 (fun v s => sort_name wide d (table (j_sort v)) s) (a_indices (x_action x0)) (map snd args)).
      { clear -Fa. induction Fa as [|v a vs args (_ & Hs) F IH]; cbn; constructor; assumption. }
      eapply srt_sorts; eauto. intros y Iy. apply (Used _ _ I). cbn [to_item types_used sa_params]. rewrite Ea. exact Iy.
    + rewrite Ep, map_map. cbn [code_pair fst]. clear -Fa. induction Fa as [|v a vs args (Hn & _) F IH]; cbn; [reflexivity|]. rewrite Hn, IH. reflexivity.
  - intros k p fc k' p' fc' Hk Hk' Ef Ef' Es. destruct (converted_keys _ _ _ _ _ _ _ _ code P E H) as (keys & En & Hkeys).
    apply Hkeys in Hk. apply Hkeys in Hk'.
    assert (N : forall k p, In (Some k, p) keys -> In (code (sanitize wide k (path_text p))) (names_of (completed (map (to_item code) l)))).
    { intros a b I. assert (J : In (code (sanitize wide a (path_text b))) (names_of (map (to_item code) l))) by (rewrite En; apply in_map_iff; exists (Some a, b); auto).
      unfold completed. destruct (in_dec Nat.eq_dec 6 (names_of (map (to_item code) l))); [exact J|]. unfold names_of in *. rewrite flat_map_app. apply in_app_iff. left. exact J. }
    assert (X : code (sanitize wide k (path_text p)) = code (sanitize wide k' (path_text p'))) by (eapply (de_distinct _ _ _ _ D); eauto).
    pose proof (proj1 (wd_names _ _ _ _ W)) as Nd. rewrite En in Nd.
    assert (Y : (Some k, p) = (Some k', p')) by (apply (nodup_map_inj (fun k => code (knm wide k)) keys); [exact Nd|assumption|assumption|exact X]).
    injection Y as -> ->. auto.
Qed.
Print Assumptions C105_symbols.

(** ** Examples *)
(** A numbering of the names: those of the list by their position, the others after it. *)
Fixpoint enc (t : text) : nat := match t with [] => 0 | c :: t => S (nat_of_ascii c + 256 * enc t) end.
Lemma enc_inj a : forall b, enc a = enc b -> a = b.
Proof.
  induction a as [|c a IH]; intros [|c' b]; cbn [enc]; try discriminate; [reflexivity|]. intros E. apply eq_add_S in E.
  assert (L : forall c, nat_of_ascii c < 256) by (intros e; apply nat_ascii_bounded).
  pose proof (L c) as Lc. pose proof (L c') as Lc'. assert (enc a = enc b) by lia. assert (nat_of_ascii c = nat_of_ascii c') by lia.
  rewrite (IH b) by assumption. f_equal. rewrite <- (ascii_nat_embedding c), <- (ascii_nat_embedding c'). congruence.
Qed.
Fixpoint pos (l : list text) (t : text) : option nat :=
  match l with [] => None | a :: l => if list_eq_dec ascii_dec a t then Some 0 else option_map S (pos l t) end.
Definition numbered (l : list text) (t : text) : name := match pos l t with Some k => k | None => List.length l + enc t end.
Lemma pos_nth l : forall t k, pos l t = Some k -> nth_error l k = Some t /\ k < List.length l.
Proof.
  induction l as [|a l IH]; intros t k; [discriminate|]. cbn [pos]. destruct (list_eq_dec ascii_dec a t) as [->|N].
  - intros [= <-]. split; [reflexivity|cbn; lia].
  - destruct (pos l t) as [j|] eqn:E; [|discriminate]. cbn. intros [= <-]. destruct (IH t j E). split; [assumption|cbn; lia].
Qed.
Lemma numbered_inj l a b : numbered l a = numbered l b -> a = b.
Proof.
  unfold numbered. destruct (pos l a) as [i|] eqn:A, (pos l b) as [j|] eqn:B.
  - intros ->. apply pos_nth in A, B. destruct A as [A _], B as [B _]. congruence.
  - apply pos_nth in A. destruct A as [_ A]. lia.
  - apply pos_nth in B. destruct B as [_ B]. lia.
  - intros E. apply enc_inj. lia.
Qed.
Definition fixed_names : list text :=
  let l := map str ["true"; "True"; "false"; "False"; "not"; "in"; "init"; "empty"; "ta$true"; "Bool"; "Condition"; "Message"; "Bitstring"; "Step"; "Name";
                    "happens"; "pred"; "input"; "cond"; "msg"; "exec"; "ta$not"; "forall"; "assert"]%string in
  l ++ map (repeat "~"%char) (seq 0 (100 - List.length l)) ++
  map str ["nonce"; "memory_cell"; "euf-cma"; "euf_cma"; "uf-cma"; "uf_cma"; "int-ctxt"; "int_ctxt"; "unfolding"; "~"; "hmac"; "recurisve"; "direct"; "recursive"]%string.
Definition cv_code (used : list string) : text -> name := numbered (fixed_names ++ map str used).
Definition cv_sorts (code : text -> name) : list (name * sort) := map (fun e => (code (str (fst e)), snd e))
  [("Bool", SBool); ("Condition", SCondition); ("Message", SMessage); ("Bitstring", SBitstring); ("Step", SStep); ("Name", SName)]%string.
Definition cv_functions (code : text -> name) : list (name * fcache) := map (fun e => (code (str (fst e)), snd e))
  [("happens", fc_builtin Fhappens (SgFixed [SStep] SBool)); ("pred", fc_builtin Fpred (SgFixed [SStep] SStep));
   ("empty", fc_builtin (Fuser 0) (SgFixed [] SMessage)); ("ta$true", TRUE_TA_CACHE); ("input", fc_builtin (Fmacro MInput) (SgFixed [SStep] SMessage));
   ("exec", fc_builtin (Fmacro MExec) (SgFixed [SStep] SCondition))]%string.
Definition cv_keywords (code : text -> name) : list name := map (fun s => code (str s)) ["forall"; "assert"]%string.
Lemma cv_coded used : coded (cv_code used) (cv_sorts (cv_code used)) (cv_functions (cv_code used)) (cv_keywords (cv_code used)).
Proof.
  split.
  - apply numbered_inj.
  - reflexivity.
  - reflexivity.
  - split.
    + unfold cv_functions. rewrite map_map. cbn [fst]. apply (nodup_map (fun e : string * fcache => cv_code used (str (fst e)))).
      * intros a b Ia Ib E. apply numbered_inj in E. cbn [In] in Ia, Ib.
        repeat (destruct Ia as [<-|Ia]; [repeat (destruct Ib as [<-|Ib]; [first [reflexivity|discriminate E]|]); destruct Ib|]). destruct Ia.
      * repeat (apply NoDup_cons; [cbn; intuition discriminate|]). apply NoDup_nil.
    + intros x I. unfold cv_functions in I. rewrite map_map in I. apply in_map_iff in I. destruct I as (e & <- & I). cbn [fst]. exists (fst e). split; [reflexivity|].
      cbn [In] in I. repeat (destruct I as [<-|I]; [cbn; tauto|]). destruct I.
  - intros x I. unfold cv_keywords in I. apply in_map_iff in I. destruct I as (e & <- & I). exists e. split; [reflexivity|].
    cbn [In] in I. repeat (destruct I as [<-|I]; [cbn; tauto|]). destruct I.
Qed.
Definition reader_names : list string := ["sort_T"; "sort_M"; "index"; "fun_g"; "var_t"; "fun_twice"; "var_a"; "fst"; "snd"; "pair"; "x"; "y"; "var_in1";
  "fun_s"; "name_k"; "var_i"; "fun_h"; "verify_fun_h"; "var_m"; "step_R"; "var_j"]%string.
Lemma last_in {A} (l : list (path * A)) p a : last_entry l p a -> In (p, a) l.
Proof. intros (l1 & l2 & -> & _). apply in_elt. Qed.
Ltac entries H := apply last_in in H; cbn in H; repeat (destruct H as [[= <- <-]|H]; [|]); try destruct H.
Ltac ord := split; [repeat constructor; vm_compute; intuition discriminate|vm_compute; intuition discriminate].
Lemma reader_declarable : declarable sorts reader.
Proof.
  split.
  - intros p k H _. entries H; ord.
  - intros n p H. destruct n as [|[|[|[|n]]]]; try discriminate H. injection H as <-. exists [KFinite; KFixed].
    exists [], [(pth "M", [KLarge]); (pth "M", [KLarge; KEnum])]. split; [reflexivity|]. vm_compute. intuition discriminate.
  - intros p f H _. entries H. ord.
  - intros p s vs t H. apply last_in in H. cbn in H. destruct H as [H|[H|[H|[]]]]; try discriminate H. injection H as <- <- <- <-. split; [ord|].
    intros o H. apply last_in in H. cbn in H. repeat (destruct H as [H|H]; [discriminate H|]). destruct H.
  - intros p o H. apply last_in in H. cbn in H. destruct H as [H|[H|[H|[]]]]; injection H as <- <-; intros (A & B & C).
    + split; [|split]; [repeat constructor; vm_compute; intuition discriminate|left; vm_compute; intuition discriminate|].
      intros (n & [= <-] & [X|(p & k & X & _)]); discriminate X.
    + discriminate B.
    + destruct A as (? & ? & A). discriminate A.
  - intros p o l H E. apply last_in in H. cbn in H. destruct H as [H|[H|[H|[]]]]; injection H as <- <-; try discriminate E. ord.
  - intros p ins ix ts b H. apply last_in in H. cbn in H. destruct H as [H|[H|[H|[]]]]; try discriminate H. injection H as <- <- <- <- <-. split; [ord|].
    intros o H. apply last_in in H. cbn in H. repeat (destruct H as [H|H]; [discriminate H|]). destruct H.
  - intros p o H (vs & b & E). apply last_in in H. cbn in H. destruct H as [H|[H|[H|[]]]]; injection H as <- <-; try discriminate E. ord.
  - intros x H. apply last_in in H. cbn in H. destruct H as [H|[H|[]]]; injection H as <- <-; cbn.
    + split; [repeat constructor; vm_compute; intuition discriminate|right; split; reflexivity].
    + split; [repeat constructor; vm_compute; intuition discriminate|left; vm_compute; intuition discriminate].
Qed.
Definition alternative (i : nat) (d : dump) : list ditem :=
  match convert_dump all_ascii sorts (@in_order) 10 d with OOk x => match aget x i with Some l => l | None => [] end | _ => [] end.
Lemma has_alternative i d : match convert_dump all_ascii sorts (@in_order) 10 d with OOk x => match aget x i with Some _ => true | None => false end | _ => false end = true ->
  exists x, convert_dump all_ascii sorts (@in_order) 10 d = OOk x /\ aget x i = Some (alternative i d).
Proof.
  unfold alternative. intros H. destruct (convert_dump all_ascii sorts (@in_order) 10 d) as [x| | |] eqn:E; try discriminate H.
  exists x. split; [reflexivity|]. destruct (aget x i); [reflexivity|discriminate H].
Qed.
Example C105_example : let code := cv_code reader_names in
  (exists x, convert_dump all_ascii sorts (@in_order) 10 reader = OOk x /\ aget x 1 = Some (alternative 1 reader)) /\
  exists so, declare_all (cv_sorts code) (cv_functions code) (cv_keywords code) false (map (to_item code) (alternative 1 reader)) = DOk so /\
    (e_functions (penv_of (so_env so)) (code (str "fun_h")) = Some (mkFc (Fuser 8) (SgFixed [SMessage; SMessage] SMessage) None None) /\
     e_functions (penv_of (so_env so)) (code (str "name_k")) = Some (mkFc (Fname 7) (SgFixed [SIndex 8] SName) (Some SMessage) None)).
Proof.
  intros code. split; [apply has_alternative; vm_compute; reflexivity|]. apply read_so. vm_compute. split; reflexivity.
Qed.

(** Files that are converted but cannot be declared: a cell and a function of the same name; a function named like one of CryptoVampire's,
    [exec]; a type that is not listed; a function into an index type, on which the reader panics. *)
Definition small (ops : list (path * joperator)) (macros : list (path * jmacro_data)) (types : list (path * list sortkind)) : dump :=
  mkDump (ffn "true" []) [] [] [mkJAction (mkAction (pth "init") [] [] 0) [] (ffn "true" []) [] (ffn "empty" []) []] [] ops macros types.
Definition fn (a b : nat) : joperator := mkOperator false [TPlain a] (TPlain b) (Abstract AOther []).
Definition small_names : list string := ["sort_T"; "sort_M"; "index"; "fun_f"; "fun_s"; "x"; "y"; "fst"; "snd"; "pair"]%string.
Definition reads_file (d : dump) : dres source :=
  let code := cv_code small_names in declare_all (cv_sorts code) (cv_functions code) (cv_keywords code) false (map (to_item code) (alternative 0 d)).
Theorem C105_refuted :
  let converted d := exists x, convert_dump all_ascii sorts (@in_order) 10 d = OOk x /\ aget x 0 = Some (alternative 0 d) in
  let T := (pth "T", [KFinite; KFixed]) in
  (converted (small [(pth "f", fn 0 0)] [(pth "s", DState (TPlain 0) [] (ffn "empty" []))] [T]) /\
   exists so, reads_file (small [(pth "f", fn 0 0)] [(pth "s", DState (TPlain 0) [] (ffn "empty" []))] [T]) = DOk so) /\
  (converted (small [(pth "s", fn 0 0)] [(pth "s", DState (TPlain 0) [] (ffn "empty" []))] [T]) /\
   reads_file (small [(pth "s", fn 0 0)] [(pth "s", DState (TPlain 0) [] (ffn "empty" []))] [T]) = DErr) /\
  (converted (small [(pth "exec", fn 0 0)] [] [T]) /\ reads_file (small [(pth "exec", fn 0 0)] [] [T]) = DErr) /\
  (converted (small [(pth "f", fn 4 0)] [] []) /\ reads_file (small [(pth "f", fn 4 0)] [] []) = DErr) /\
  (converted (small [(pth "f", fn 0 4)] [] [T]) /\ reads_file (small [(pth "f", fn 0 4)] [] [T]) = DPanic).
Proof.
  intros converted T. repeat split; try (apply has_alternative; vm_compute; reflexivity); try (vm_compute; reflexivity).
  assert (A : match reads_file (small [(pth "f", fn 0 0)] [(pth "s", DState (TPlain 0) [] (ffn "empty" []))] [T]) with DOk so => True | _ => False end) by (vm_compute; exact I).
  destruct (reads_file _); try contradiction. eauto.
Qed.
Print Assumptions C105_refuted.

(** The tables of CryptoVampire - sorts, functions and reserved words - meet the hypotheses under any numbering of names that gives [init] its number:
    the only thing left open is what the functions are. *)
Theorem C105_tables : forall (code : text -> name) bf, (forall a b, code a = code b -> a = b) -> code (str "init") = 6 -> map fst bf = map code builtin_functions ->
  coded code (map (fun e => (code (fst e), snd e)) builtin_sorts) bf (map code used_keywords).
Proof.
  intros code bf I J F. split; [exact I|exact J|reflexivity| |].
  - rewrite F. split.
    + assert (N : NoDup builtin_functions) by (repeat (apply NoDup_cons; [vm_compute; intuition discriminate|]); apply NoDup_nil).
      induction N as [|a l Ha N IH]; [apply NoDup_nil|]. cbn [map]. apply NoDup_cons; [|].
      * intros H. apply in_map_iff in H as (b & E & Hb). apply I in E. subst b. contradiction.
      * clear IH F. induction N as [|b m Hb N IH]; [apply NoDup_nil|]. cbn [map]. apply NoDup_cons; [|apply IH; intros H; apply Ha; right; exact H].
        intros H. apply in_map_iff in H as (c & E & Hc). apply I in E. subst c. contradiction.
    + intros x H. unfold builtin_functions in H. rewrite map_map in H. apply in_map_iff in H as (s & <- & H). exists s. split; [reflexivity|exact H].
  - intros x H. unfold used_keywords in H. rewrite map_map in H. apply in_map_iff in H as (s & <- & H). exists s. split; [reflexivity|exact H].
Qed.
Print Assumptions C105_tables.
Example C105_tables_example : let code := numbered (fixed_names ++ map str reader_names ++ used_keywords) in
  coded code (map (fun e => (code (fst e), snd e)) builtin_sorts) (map (fun s => (code s, TRUE_TA_CACHE)) builtin_functions) (map code used_keywords) /\
  (exists so, declare_all (map (fun e => (code (fst e), snd e)) builtin_sorts) (cv_functions code) (map code used_keywords) false (map (to_item code) (alternative 1 reader)) = DOk so).
Proof.
  intros code. split.
  - apply C105_tables; [apply numbered_inj|reflexivity|rewrite map_map; reflexivity].
  - assert (A : match declare_all (map (fun e => (code (fst e), snd e)) builtin_sorts) (cv_functions code) (map code used_keywords) false (map (to_item code) (alternative 1 reader)) with DOk _ => True | _ => False end) by (vm_compute; exact I).
    destruct (declare_all _ _ _ _ _); try contradiction. eauto.
Qed.
