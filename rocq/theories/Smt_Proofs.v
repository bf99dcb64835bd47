(** Proofs for the SMT output. *)
From Coq Require Import List Arith Bool String Ascii Lia DecimalString DecimalNat.
From Verif Require Import Syntax_Model Syntax_Proofs Traversal_Spec Semantics_Spec Semantics_Proofs Search_Model Smt_Model Smt_Spec.
Import ListNotations.

(** ** Induction *)
Lemma no_op_invisible evaluated f : is_no_op evaluated f = invisible evaluated f.
Proof. destruct evaluated, f; reflexivity. Qed.

Section Induction.
  Context (P : smt -> Prop).
  Hypotheses
    (Hvar : forall v, P (SmVar v)) (Hfun : forall f args, Forall P args -> P (SmFun f args))
    (Hall : forall vs b, P b -> P (SmForall vs b)) (Hex : forall vs b, P b -> P (SmExists vs b))
    (Htrue : P SmTrue) (Hfalse : P SmFalse) (Hand : forall l, Forall P l -> P (SmAnd l)) (Hor : forall l, Forall P l -> P (SmOr l))
    (Heq : forall l, Forall P l -> P (SmEq l)) (Hneq : forall l, Forall P l -> P (SmNeq l)) (Hnot : forall a, P a -> P (SmNot a))
    (Himp : forall a b, P a -> P b -> P (SmImplies a b)) (Hsub : forall f a b, P a -> P b -> P (SmSubterm f a b))
    (Hite : forall c l r, P c -> P l -> P r -> P (SmIte c l r)).
  Fixpoint smt_ind' (s : smt) : P s :=
    let all := fix all (l : list smt) : Forall P l := match l with [] => Forall_nil P | a :: l' => Forall_cons a (smt_ind' a) (all l') end in
    match s with
    | SmVar v => Hvar v
    | SmFun f args => Hfun f args (all args)
    | SmForall vs b => Hall vs b (smt_ind' b)
    | SmExists vs b => Hex vs b (smt_ind' b)
    | SmTrue => Htrue
    | SmFalse => Hfalse
    | SmAnd l => Hand l (all l)
    | SmOr l => Hor l (all l)
    | SmEq l => Heq l (all l)
    | SmNeq l => Hneq l (all l)
    | SmNot a => Hnot a (smt_ind' a)
    | SmImplies a b => Himp a b (smt_ind' a) (smt_ind' b)
    | SmSubterm f a b => Hsub f a b (smt_ind' a) (smt_ind' b)
    | SmIte c l r => Hite c l r (smt_ind' c) (smt_ind' l) (smt_ind' r)
    end.
End Induction.

(** The inner loops of the recursive functions. *)
Definition omap {A B : Type} (f : A -> option B) : list A -> option (list B) :=
  fix omap (l : list A) : option (list B) :=
    match l with [] => Some [] | a :: l' => match f a, omap l' with Some x, Some xs => Some (x :: xs) | _, _ => None end end.

Lemma omap_some {A B} (f : A -> option B) l xs : omap f l = Some xs -> Forall2 (fun a x => f a = Some x) l xs.
Proof.
  revert xs. induction l as [|a l IH]; cbn; intros xs H; [injection H as <-; constructor|].
  destruct (f a) as [x|] eqn:E; [|discriminate]. destruct (omap f l) as [ys|]; [|discriminate]. injection H as <-. constructor; auto.
Qed.

Lemma omap_of {A B} (f : A -> option B) l xs : Forall2 (fun a x => f a = Some x) l xs -> omap f l = Some xs.
Proof. induction 1 as [|a x l xs E _ IH]; cbn; [reflexivity|]. rewrite E, IH. reflexivity. Qed.

(** ** Translation *)
Lemma smt_of_fun kind s args : smt_of kind (FFun s args) = match omap (smt_of kind) args with Some xs => smt_app kind s xs | None => None end.
Proof. reflexivity. Qed.

Section Translation.
  Context (kind : nat -> skind).
  Lemma translate f : arities f -> exists s, smt_of kind f = Some s /\ forall (M : structure) (rho : env M), seval s rho = eval f rho.
  Proof.
    induction f as [v|s args IH|q vs b IH] using formula_ind'; intros A.
    - exists (SmVar v). split; reflexivity.
    - inversion A as [|s' args' Ha Hargs|]; subst s' args'.
      assert (exists xs, omap (smt_of kind) args = Some xs /\
                         Forall2 (fun x a => forall (M : structure) (rho : env M), seval x rho = eval a rho) xs args) as (xs & Ex & Hxs).
      { clear Ha A. induction args as [|a args IHl]; [exists []; split; [reflexivity|constructor]|].
        inversion IH as [|? ? IHa IHr]; subst. inversion Hargs as [|? ? Aa Ar]; subst.
        destruct (IHa Aa) as (x & E1 & E2). destruct (IHl IHr Ar) as (xs & E3 & E4).
        exists (x :: xs). cbn. rewrite E1, E3. split; [reflexivity|]. constructor; assumption. }
      rewrite smt_of_fun, Ex.
      assert (Hm : forall (M : structure) (rho : env M), map (fun x => seval x rho) xs = map (fun a => eval a rho) args).
      { intros M rho. clear -Hxs. induction Hxs as [|x a xs args E _ IHl]; cbn; [reflexivity|]. rewrite E, IHl. reflexivity. }
      assert (Hl : List.length xs = List.length args) by (clear -Hxs; induction Hxs; cbn; congruence).
      rewrite <- Hl in Ha.
      assert (Hcases : forall s', smt_app kind s xs = Some s' ->
                (forall (M : structure) (rho : env M), seval s' rho = app s (map (fun x => seval x rho) xs)) ->
                exists s0, smt_app kind s xs = Some s0 /\ (forall (M : structure) (rho : env M), seval s0 rho = eval (FFun s args) rho)).
      { intros s' E H. exists s'. split; [assumption|]. intros M rho. rewrite H, Hm. reflexivity. }
      assert (Hmap : forall (T : Type) (g : smt -> T) (P : T -> bool), forallb (fun a => P (g a)) xs = forallb P (map g xs)).
      { intros T g P. clear. induction xs; cbn; congruence. }
      assert (Hmap' : forall (T : Type) (g : smt -> T) (P : T -> bool), existsb (fun a => P (g a)) xs = existsb P (map g xs)).
      { intros T g P. clear. induction xs; cbn; congruence. }
      destruct s as [c| | | | | |t|so|i| |i|m|i|so|i|i|i|i|i|i];
        try (eapply Hcases; [reflexivity|]; intros M rho; reflexivity).
      + destruct c; cbn in Ha.
        * destruct xs; [|discriminate]. eapply Hcases; [reflexivity|]. reflexivity.
        * destruct xs; [|discriminate]. eapply Hcases; [reflexivity|]. reflexivity.
        * eapply Hcases; [reflexivity|]. intros M rho. cbn. rewrite <- Hmap. reflexivity.
        * eapply Hcases; [reflexivity|]. intros M rho. cbn. rewrite <- Hmap'. reflexivity.
        * destruct xs as [|x [|? ?]]; try discriminate. eapply Hcases; [reflexivity|]. reflexivity.
        * destruct xs as [|x [|y [|? ?]]]; try discriminate. eapply Hcases; [reflexivity|]. reflexivity.
        * destruct xs as [|x [|y [|? ?]]]; try discriminate. eapply Hcases; [reflexivity|]. intros M rho. cbn. rewrite andb_true_r. reflexivity.
      + cbn in Ha. destruct xs as [|x [|y [|z [|? ?]]]]; try discriminate. eapply Hcases; [reflexivity|]. reflexivity.
      + cbn in Ha. destruct xs as [|x [|y [|? ?]]]; try discriminate. destruct (kind i) eqn:Ek.
        * eapply Hcases; [cbn; rewrite Ek; reflexivity|]. reflexivity.
        * eapply Hcases; [cbn; rewrite Ek; reflexivity|]. reflexivity.
    - inversion A as [| |q' vs' b' Ab]; subst. destruct (IH Ab) as (s & E & H).
      assert (Q : forall q0 (M : structure) (rho : env M),
                 quantify q0 vs rho (fun rho' => dtest M (seval s rho')) = quantify q0 vs rho (fun rho' => dtest M (eval b rho'))).
      { intros q0 M. clear -H. induction vs as [|v vs IHv]; intros rho; cbn; [rewrite H; reflexivity|].
        destruct q0; [apply ex_ext|apply all_ext]; intros d _; apply IHv. }
      destruct q; cbn; rewrite E; eexists; (split; [reflexivity|]); intros M rho; cbn; rewrite Q; reflexivity.
  Qed.
End Translation.

(** ** Words *)
Lemma text_eqb_true a b : text_eqb a b = true <-> a = b.
Proof. unfold text_eqb. destruct (list_eq_dec ascii_dec a b); split; congruence. Qed.

Lemma text_eqb_false a b : a <> b -> text_eqb a b = false.
Proof. intros H. destruct (text_eqb a b) eqn:E; [|reflexivity]. apply text_eqb_true in E. contradiction. Qed.

Lemma text_eqb_refl a : text_eqb a a = true.
Proof. apply text_eqb_true. reflexivity. Qed.

Lemma symbol_char_plain c : is_symbol_char c = true -> is_space c = false /\ is_open c = false /\ is_close c = false.
Proof.
  destruct c as [[] [] [] [] [] [] [] []]; vm_compute; intros H; try discriminate H; repeat split; reflexivity.
Qed.

Definition delim (r : text) : Prop := match r with [] => True | c :: _ => is_space c || is_open c || is_close c = true end.

Lemma lex_word_aux w r : forallb is_symbol_char w = true -> delim r -> forall acc, List.app acc w <> [] ->
  lex acc (w ++ r) = option_map (cons (TWord (acc ++ w))) (lex [] r).
Proof.
  intros Hw Hr. induction w as [|c w IH]; intros acc Hn.
  - rewrite app_nil_r in *. cbn [List.app]. destruct acc as [|a acc]; [contradiction|]. destruct r as [|c r]; [reflexivity|].
    cbn [delim] in Hr. cbn [lex]. revert Hr. destruct (is_space c); [reflexivity|]. destruct (is_open c); [reflexivity|]. destruct (is_close c); [reflexivity|intros Hr; discriminate Hr].
  - cbn in Hw. apply andb_prop in Hw. destruct Hw as [Hc Hw]. destruct (symbol_char_plain c Hc) as (H1 & H2 & H3).
    cbn [List.app lex]. rewrite H1, H2, H3, Hc, (IH Hw).
    + rewrite <- app_assoc. reflexivity.
    + destruct acc; discriminate.
Qed.

(** [seqs t es]: the text [t], whatever follows it, is the sequence [es]; [seqw t es]: it is so when a delimiter follows. *)
Definition lexes (t : text) (l : list token) : Prop := forall r, lex [] (t ++ r) = option_map (List.app l) (lex [] r).
Definition lexew (t : text) (l : list token) : Prop := forall r, delim r -> lex [] (t ++ r) = option_map (List.app l) (lex [] r).
Definition parses (l : list token) (es : list sexp) : Prop :=
  forall cur st rest, parse cur st (l ++ rest) = parse (List.app (rev es) cur) st rest.
Definition seqs (t : text) (es : list sexp) : Prop := exists l, lexes t l /\ parses l es.
Definition seqw (t : text) (es : list sexp) : Prop := exists l, lexew t l /\ parses l es.

Lemma option_map_app {A} (l l' : list A) o : option_map (List.app l) (option_map (List.app l') o) = option_map (List.app (l ++ l')) o.
Proof. destruct o; cbn; [rewrite app_assoc|]; reflexivity. Qed.

Lemma parses_app l es l' es' : parses l es -> parses l' es' -> parses (l ++ l') (es ++ es').
Proof. intros H1 H2 cur st rest. rewrite <- app_assoc, H1, H2, rev_app_distr, app_assoc. reflexivity. Qed.

Lemma seqs_app t es t' es' : seqs t es -> seqs t' es' -> seqs (t ++ t') (es ++ es').
Proof.
  intros (l & L & P) (l' & L' & P'). exists (l ++ l'). split; [|apply parses_app; assumption].
  intros r. rewrite <- app_assoc, L, L', option_map_app. reflexivity.
Qed.

Lemma seqs_seqw t es t' es' : seqs t es -> seqw t' es' -> seqw (t ++ t') (es ++ es').
Proof.
  intros (l & L & P) (l' & L' & P'). exists (l ++ l'). split; [|apply parses_app; assumption].
  intros r Hr. rewrite <- app_assoc, L, (L' r Hr), option_map_app. reflexivity.
Qed.

Lemma seqs_weak t es : seqs t es -> seqw t es.
Proof. intros (l & L & P). exists l. split; [|assumption]. intros r _. apply L. Qed.

Lemma seqs_nil : seqs [] [].
Proof. exists []. split; [|intros ? ? ?; reflexivity]. intros r. cbn. destruct (lex [] r); reflexivity. Qed.

Lemma seqs_space t es : seqw t es -> seqs (t ++ str " ") es.
Proof.
  intros (l & L & P). exists l. split; [|assumption]. intros r. rewrite <- app_assoc, L by reflexivity. reflexivity.
Qed.

Lemma seqs_node t es : seqw t es -> seqs (str "(" ++ t ++ str ")") [Node es].
Proof.
  intros (l & L & P). exists (TOpen :: l ++ [TClose]). split.
  - intros r. rewrite <- !app_assoc. cbn [str list_ascii_of_string List.app]. change (lex [] ("("%char :: t ++ ")"%char :: r)) with (option_map (cons TOpen) (lex [] (t ++ ")"%char :: r))).
    rewrite L by reflexivity. change (lex [] (")"%char :: r)) with (option_map (cons TClose) (lex [] r)).
    destruct (lex [] r); cbn; [rewrite <- app_assoc|]; reflexivity.
  - intros cur st rest. cbn [List.app parse]. rewrite <- app_assoc, P. cbn [List.app parse rev]. rewrite app_nil_r, rev_involutive. reflexivity.
Qed.

Lemma seqw_word w : forallb is_symbol_char w = true -> w <> [] -> seqw w [Atom w].
Proof.
  intros H Hn. exists [TWord w]. split; [|intros ? ? ?; reflexivity]. intros r Hr. rewrite (lex_word_aux w r H Hr [] Hn). reflexivity.
Qed.

Lemma seqs_spaced ts es : Forall2 (fun t e => seqw t [e]) ts es -> seqs (spaced ts) es.
Proof.
  induction 1 as [|t e ts es H _ IH]; [apply seqs_nil|]. unfold spaced. cbn [map List.concat].
  apply (seqs_app _ [e] _ es); [apply seqs_space; assumption|exact IH].
Qed.

Lemma seqw_list w ts es : forallb is_symbol_char w = true -> w <> [] -> Forall2 (fun t e => seqw t [e]) ts es ->
  seqw (str "(" ++ w ++ str " " ++ spaced ts ++ str ")") [Node (Atom w :: es)].
Proof.
  intros H Hn Ht. apply seqs_weak.
  replace (str "(" ++ w ++ str " " ++ spaced ts ++ str ")")%list with (str "(" ++ ((w ++ str " ") ++ spaced ts) ++ str ")")%list
    by (rewrite <- !app_assoc; reflexivity).
  apply seqs_node, seqs_weak. apply (seqs_app _ [Atom w] _ es); [apply seqs_space, seqw_word; assumption|apply seqs_spaced; assumption].
Qed.

Lemma read_seqw t e : seqw t [e] -> read_sexp t = Some e.
Proof.
  intros (l & L & P). unfold read_sexp. specialize (L [] I). rewrite app_nil_r in L. rewrite L. cbn. rewrite P. reflexivity.
Qed.

(** Numbers. *)
Lemma dec_symbol n : forallb is_symbol_char (dec n) = true.
Proof.
  unfold dec, str. generalize (Nat.to_uint n). intros u. induction u; cbn [NilEmpty.string_of_uint list_ascii_of_string forallb]; [reflexivity|..];
    rewrite IHu; reflexivity.
Qed.

Lemma dec_inj n m : dec n = dec m -> n = m.
Proof.
  unfold dec, str. intros H. assert (E : NilEmpty.string_of_uint (Nat.to_uint n) = NilEmpty.string_of_uint (Nat.to_uint m)).
  { rewrite <- (string_of_list_ascii_of_string (NilEmpty.string_of_uint (Nat.to_uint n))), H. apply string_of_list_ascii_of_string. }
  apply (f_equal NilEmpty.uint_of_string) in E. rewrite !NilEmpty.usu in E. injection E as E.
  rewrite <- (Unsigned.of_to n), <- (Unsigned.of_to m), E. reflexivity.
Qed.

Lemma symbol_parts w : symbol w -> w <> [] /\ forallb is_symbol_char w = true /\ forall k, In k reserved -> text_eqb w k = false.
Proof.
  unfold symbol. destruct w as [|c w]; [intros []|]. intros (_ & H1 & H2). split; [discriminate|]. split; [assumption|].
  intros k Hk. destruct (text_eqb (c :: w) k) eqn:E; [|reflexivity]. rewrite <- H2. symmetry. apply existsb_exists. exists k. auto.
Qed.

(** ** Reading back what is printed *)
Section RoundTrip.
  Context (fname : fsym -> text) (sname : sort -> text) (fn : text -> option fsym) (so : text -> option sort) (sort_of : nat -> sort).
  Context (evaluated : bool).
  Notation lfun := (legal_fun fname sname fn).
  Notation lvar := (legal_var sname so sort_of).
  Notation leg := (legal fname sname fn so sort_of evaluated).
  Notation pr := (print fname sname evaluated).

  Definition vtext (v : var) : text := match var_text sname v with Some w => w | None => [] end.
  Lemma vtext_some v : lvar v -> exists c, var_text sname v = Some (c :: "X"%char :: dec (vid v)) /\ is_symbol_char c = true.
  Proof.
    intros (Hs & _). unfold var_text. destruct (sname (vsort v)) as [|c w]; [destruct Hs|]. exists c. split; [reflexivity|].
    cbn in Hs. destruct Hs as (_ & H & _). apply andb_prop in H. apply H.
  Qed.
  Lemma var_text_vtext v : lvar v -> var_text sname v = Some (vtext v).
  Proof. intros H. unfold vtext. destruct (vtext_some v H) as (c & -> & _). reflexivity. Qed.
  Lemma vtext_word v : lvar v -> forallb is_symbol_char (vtext v) = true /\ vtext v <> [].
  Proof.
    intros H. unfold vtext. destruct (vtext_some v H) as (c & -> & Hc). split; [|discriminate]. cbn [forallb]. rewrite Hc, dec_symbol. reflexivity.
  Qed.
  Lemma vtext_same u v : lvar u -> lvar v -> vid u = vid v -> vtext u = vtext v.
  Proof.
    intros (_ & _ & Hu) (_ & _ & Hv) E. unfold vtext, var_text. rewrite Hu, Hv, E. reflexivity.
  Qed.
  Lemma vtext_inj u v : lvar u -> lvar v -> vtext u = vtext v -> vid u = vid v.
  Proof.
    intros Hu Hv. unfold vtext. destruct (vtext_some u Hu) as (c & -> & _), (vtext_some v Hv) as (c' & -> & _).
    intros H. apply dec_inj. congruence.
  Qed.
  Lemma vtext_reserved v k : lvar v -> In k reserved -> text_eqb (vtext v) k = false.
  Proof.
    intros Hv Hk. apply text_eqb_false. unfold vtext. destruct (vtext_some v Hv) as (c & -> & _). intros E. subst k.
    cbn in Hk. repeat (destruct Hk as [Hk|Hk]; [discriminate Hk|]). exact Hk.
  Qed.

  (** What the reader knows of a list of variables, innermost first. *)
  Fixpoint wscope (sc : list var) : list (text * var) :=
    match sc with [] => [] | u :: r => (vtext u, mkVar (List.length r) (vsort u)) :: wscope r end.
  Lemma wscope_length sc : List.length (wscope sc) = List.length sc.
  Proof. induction sc; cbn; congruence. Qed.

  Lemma in_scope_var sc v : Forall lvar sc -> lvar v -> In (vid v) (map vid sc) ->
    exists n, level sc v = Some n /\ in_scope (wscope sc) (vtext v) = Some (mkVar n (vsort v)).
  Proof.
    intros Hsc Hv. induction Hsc as [|u sc Hu Hsc IH]; intros Hin; [destruct Hin|]. cbn [level wscope]. unfold in_scope. cbn [find fst].
    destruct (vid u =? vid v) eqn:E.
    - apply Nat.eqb_eq in E. rewrite (vtext_same u v Hu Hv E), text_eqb_refl. exists (List.length sc). split; [reflexivity|]. cbn.
      destruct Hu as (_ & _ & Eu), Hv as (_ & _ & Ev). rewrite Eu, Ev, E. reflexivity.
    - apply Nat.eqb_neq in E. rewrite text_eqb_false by (intros H; apply E, vtext_inj; assumption).
      destruct Hin as [Hin|Hin]; [contradiction|]. apply IH. assumption.
  Qed.

  Lemma in_scope_fun sc f : Forall lvar sc -> lfun f -> in_scope (wscope sc) (fname f) = None.
  Proof.
    intros Hsc (_ & _ & Hf). induction Hsc as [|u sc Hu Hsc IH]; [reflexivity|]. unfold in_scope in *. cbn [wscope find fst].
    rewrite text_eqb_false; [exact IH|]. intros E. apply (Hf u). rewrite (var_text_vtext u Hu), E. reflexivity.
  Qed.

  Lemma function_legal f : lfun f -> function fn (fname f) = Some f.
  Proof.
    intros (Hs & Hf & _). unfold function. rewrite Hf. destruct (existsb (text_eqb (fname f)) reserved) eqn:E; [|reflexivity].
    apply existsb_exists in E. destruct E as (k & Hk & E). destruct (symbol_parts _ Hs) as (_ & _ & H). rewrite (H k Hk) in E. discriminate.
  Qed.

  Lemma is_word_fun f s : lfun f -> In (str s) reserved -> is_word (Atom (fname f)) s = false.
  Proof. intros (Hs & _) H. cbn. apply (symbol_parts _ Hs). assumption. Qed.

  Definition bsexp (v : var) : sexp := Node [Atom (vtext v); Atom (sname (vsort v))].
  Lemma binders_seqs vs : Forall lvar vs -> exists t, binders sname vs = Some t /\ seqs t (map bsexp vs).
  Proof.
    induction 1 as [|v vs Hv _ (t & E & IH)]; [exists []; split; [reflexivity|apply seqs_nil]|].
    cbn [binders]. rewrite (var_text_vtext v Hv), E. eexists. split; [reflexivity|].
    replace (str "(" ++ vtext v ++ str " " ++ sname (vsort v) ++ str ") " ++ t)%list
      with (((str "(" ++ ((vtext v ++ str " ") ++ sname (vsort v)) ++ str ")") ++ str " ") ++ t)%list by (rewrite <- !app_assoc; reflexivity).
    apply (seqs_app _ [bsexp v]); [|exact IH]. apply seqs_space, seqs_weak, seqs_node.
    apply (seqs_seqw _ [Atom (vtext v)]).
    - apply seqs_space. apply seqw_word; apply vtext_word; assumption.
    - destruct Hv as (Hs & _). destruct (symbol_parts _ Hs) as (H1 & H2 & _). apply seqw_word; assumption.
  Qed.

  Lemma read_binders_wscope vs : forall sc, Forall lvar vs -> read_binders so (wscope sc) (map bsexp vs) = Some (wscope (rev vs ++ sc)).
  Proof.
    induction vs as [|v vs IH]; intros sc H; [reflexivity|]. inversion H as [|? ? Hv Hvs]; subst. cbn [map bsexp read_binders].
    destruct Hv as (_ & Eso & _). rewrite Eso, wscope_length. pose proof (IH (v :: sc) Hvs) as E. cbn [wscope] in E. rewrite E. cbn [rev]. rewrite <- app_assoc. reflexivity.
  Qed.

  Lemma new_vars_relevel vs : forall sc, new_vars (wscope sc) (wscope (rev vs ++ sc)) = relevel (List.length sc) vs.
  Proof.
    intros sc. unfold new_vars. rewrite !wscope_length, app_length, rev_length.
    replace (List.length vs + List.length sc - List.length sc) with (List.length (rev vs)) by (rewrite rev_length; lia).
    assert (H : forall us, map snd (firstn (List.length us) (wscope (us ++ sc))) = rev (relevel (List.length sc) (rev us))).
    { induction us as [|u us IH]; [reflexivity|]. cbn [List.length List.app wscope firstn map snd]. rewrite IH, app_length.
      assert (R : forall l n x, relevel n (l ++ [x]) = List.app (relevel n l) [mkVar (n + List.length l) (vsort x)]).
      { induction l as [|y l IHl]; intros n x; cbn; [rewrite Nat.add_0_r; reflexivity|]. rewrite IHl. cbn. rewrite Nat.add_succ_r. reflexivity. }
      cbn [rev]. rewrite R, rev_app_distr. cbn. f_equal. rewrite rev_length, Nat.add_comm. reflexivity. }
    rewrite map_rev, H, rev_involutive, rev_involutive. reflexivity.
  Qed.

  (** The loops. *)
  Lemma read_reads sc l : (fix reads (l : list sexp) : option (list smt) :=
      match l with
      | [] => Some []
      | a :: l' => match read_smt fn so sc a, reads l' with Some x, Some xs => Some (x :: xs) | _, _ => None end
      end) l = omap (read_smt fn so sc) l.
  Proof. reflexivity. Qed.
  Lemma levels_all sc l : (fix all (l : list smt) : option (list smt) :=
    match l with [] => Some [] | a :: l' => match levels sc a, all l' with Some x, Some xs => Some (x :: xs) | _, _ => None end end) l = omap (levels sc) l.
  Proof. reflexivity. Qed.

  Definition good (sc : list var) (s : smt) : Prop :=
    exists t e s', pr s = Some t /\ seqw t [e] /\ levels sc (norm evaluated s) = Some s' /\ read_smt fn so (wscope sc) e = Some s'.

  Lemma good_list sc l : Forall (good sc) l -> exists ts es ss,
    omap pr l = Some ts /\ Forall2 (fun t e => seqw t [e]) ts es /\ omap (levels sc) (map (norm evaluated) l) = Some ss /\
    omap (read_smt fn so (wscope sc)) es = Some ss.
  Proof.
    induction 1 as [|s l (t & e & s' & E1 & E2 & E3 & E4) _ (ts & es & ss & F1 & F2 & F3 & F4)].
    - exists [], [], []. repeat split; constructor.
    - exists (t :: ts), (e :: es), (s' :: ss). cbn. rewrite E1, F1, E3, F3, E4, F4. repeat split. constructor; assumption.
  Qed.

  Lemma good_op sc (w : string) (C : list smt -> smt) l :
    forallb is_symbol_char (str w) = true -> str w <> [] -> Forall (good sc) l ->
    (forall es, read_smt fn so (wscope sc) (Node (Atom (str w) :: es)) = option_map C (omap (read_smt fn so (wscope sc)) es)) ->
    (forall ss, levels sc (C ss) = option_map C (omap (levels sc) ss)) ->
    pr (C l) = option_map (fun_list w) (omap pr l) -> norm evaluated (C l) = C (map (norm evaluated) l) ->
    good sc (C l).
  Proof.
    intros Hw Hn Hl Hr Hlv Hp Hno. destruct (good_list sc l Hl) as (ts & es & ss & F1 & F2 & F3 & F4).
    exists (str "(" ++ str w ++ str " " ++ spaced ts ++ str ")")%list, (Node (Atom (str w) :: es)), (C ss).
    rewrite Hp, F1, Hno, Hlv, F3, Hr, F4. repeat split. apply seqw_list; assumption.
  Qed.

  Lemma good_quant sc q (w : string) (C : list var -> smt -> smt) v vs b :
    forallb is_symbol_char (str w) = true -> str w <> [] -> Forall lvar (v :: vs) -> good (rev (v :: vs) ++ sc) b ->
    (forall bs e, read_smt fn so (wscope sc) (Node [Atom (str w); Node bs; e]) =
                  match read_binders so (wscope sc) bs with
                  | Some sc' => option_map (C (new_vars (wscope sc) sc')) (read_smt fn so sc' e) | None => None end) ->
    (forall s, levels sc (C (v :: vs) s) = option_map (C (relevel (List.length sc) (v :: vs))) (levels (rev (v :: vs) ++ sc) s)) ->
    pr (C (v :: vs) b) = match binders sname (v :: vs), pr b with
                         | Some x, Some y => Some (q ++ x ++ str ") " ++ y ++ str ")") | _, _ => None end ->
    q = (str "(" ++ str w ++ str " " ++ str "(")%list ->
    norm evaluated (C (v :: vs) b) = C (v :: vs) (norm evaluated b) ->
    good sc (C (v :: vs) b).
  Proof.
    intros Hw Hn Hv (t & e & s' & E1 & E2 & E3 & E4) Hr Hlv Hp Hq Hno. destruct (binders_seqs (v :: vs) Hv) as (x & F1 & F2).
    exists (q ++ x ++ str ") " ++ t ++ str ")")%list, (Node [Atom (str w); Node (map bsexp (v :: vs)); e]), (C (relevel (List.length sc) (v :: vs)) s').
    rewrite Hp, F1, E1, Hno, Hlv, E3, Hr, read_binders_wscope by assumption. rewrite E4, new_vars_relevel. repeat split.
    apply seqs_weak. subst q.
    replace ((str "(" ++ str w ++ str " " ++ str "(") ++ x ++ str ") " ++ t ++ str ")")%list
      with (str "(" ++ ((str w ++ str " ") ++ ((str "(" ++ x ++ str ")") ++ str " ") ++ t) ++ str ")")%list by (rewrite <- !app_assoc; reflexivity).
    apply seqs_node. apply (seqs_seqw _ [Atom (str w)]); [apply seqs_space, seqw_word; assumption|].
    apply (seqs_seqw _ [Node (map bsexp (v :: vs))]); [|assumption]. apply seqs_space, seqs_weak, seqs_node, seqs_weak. assumption.
  Qed.

  Lemma round_trip s : forall ids sc, leg ids s -> Forall lvar sc -> (forall i, In i ids -> In i (map vid sc)) -> good sc s.
  Proof.
    induction s as [v|f args IH|vs b IH|vs b IH| | |l IH|l IH|l IH|l IH|a IH|a b IHa IHb|f a b IHa IHb|c l r IHc IHl IHr] using smt_ind';
      intros ids sc L Hsc Hid.
    - inversion L as [? ? Hv Hin| | | | | | | | | | | | | |]; subst. destruct (in_scope_var sc v Hsc Hv (Hid _ Hin)) as (n & E1 & E2).
      exists (vtext v), (Atom (vtext v)), (SmVar (mkVar n (vsort v))). cbn [print norm levels read_smt].
      rewrite (var_text_vtext v Hv), E1, E2. rewrite !(vtext_reserved v) by (assumption || (cbn; tauto)). repeat split.
      apply seqw_word; apply vtext_word; assumption.
    - assert (HF : Forall (leg ids) args -> Forall (good sc) args).
      { intros H. rewrite Forall_forall in IH, H |- *. intros x Hx. apply (IH x Hx ids sc); auto. }
      inversion L as [|? ? ? Hf Hno Hargs|? ? a0 Hno Ha| | | | | | | | | | | |]; subst.
      + assert (Hnorm : norm evaluated (SmFun f args) = SmFun f (map (norm evaluated) args)).
        { cbn. unfold invisible in Hno. destruct evaluated; [|reflexivity]. destruct f; try reflexivity. discriminate. }
        pose proof Hf as (Hs & _). destruct (symbol_parts _ Hs) as (S1 & S2 & S3). destruct args as [|a args].
        * exists (fname f ++ str " ")%list, (Atom (fname f)), (SmFun f []). rewrite Hnorm. cbn [print levels map read_smt]. rewrite no_op_invisible, Hno.
          rewrite !S3 by (cbn; tauto). rewrite (in_scope_fun sc f Hsc Hf), (function_legal f Hf). repeat split.
          apply seqs_weak, seqs_space, seqw_word; assumption.
        * destruct (good_list sc _ (HF Hargs)) as (ts & es & ss & F1 & F2 & F3 & F4).
          exists (str "(" ++ fname f ++ str " " ++ spaced ts ++ str ")")%list, (Node (Atom (fname f) :: es)), (SmFun f ss).
          rewrite Hnorm.
          change (pr (SmFun f (a :: args))) with (if is_no_op evaluated f then match a :: args with [a] => pr a | _ => None end
            else option_map (fun l => str "(" ++ fname f ++ str " " ++ spaced l ++ str ")")%list (omap pr (a :: args))).
          rewrite no_op_invisible, Hno, F1. split; [reflexivity|]. split; [apply seqw_list; assumption|].
          split; [change (levels sc (SmFun f (map (norm evaluated) (a :: args)))) with (option_map (SmFun f) (omap (levels sc) (map (norm evaluated) (a :: args)))); rewrite F3; reflexivity|].
          cbn [read_smt]. rewrite !is_word_fun by (assumption || (cbn; tauto)). rewrite (function_legal f Hf), read_reads, F4. reflexivity.
      + inversion IH as [|? ? IHa _]; subst. destruct (IHa ids sc Ha Hsc Hid) as (t & e & s' & E1 & E2 & E3 & E4).
        exists t, e, s'. split; [cbn [print]; rewrite no_op_invisible, Hno; assumption|]. split; [assumption|]. split; [|assumption].
        unfold invisible in Hno. cbn [norm]. destruct evaluated; [|discriminate]. destruct f; try discriminate. assumption.
    - inversion L; subst. assert (Hb : good (rev vs ++ sc) b).
      { eapply IH; [eassumption|apply Forall_app; split; [apply Forall_rev; assumption|assumption]|].
        intros i Hi. rewrite map_app, map_rev. apply in_or_app. apply in_app_or in Hi. rewrite <- in_rev. destruct Hi; auto. }
      destruct vs as [|v vs]; [exact Hb|].
      apply (good_quant sc (str "(forall (") "forall" SmForall); try reflexivity; try assumption; try discriminate.
    - inversion L; subst. assert (Hb : good (rev vs ++ sc) b).
      { eapply IH; [eassumption|apply Forall_app; split; [apply Forall_rev; assumption|assumption]|].
        intros i Hi. rewrite map_app, map_rev. apply in_or_app. apply in_app_or in Hi. rewrite <- in_rev. destruct Hi; auto. }
      destruct vs as [|v vs]; [exact Hb|].
      apply (good_quant sc (str "(exists (") "exists" SmExists); try reflexivity; try assumption; try discriminate.
    - exists (str "true"), (Atom (str "true")), SmTrue. repeat split. apply seqw_word; [reflexivity|discriminate].
    - exists (str "false"), (Atom (str "false")), SmFalse. repeat split. apply seqw_word; [reflexivity|discriminate].
    - assert (HF : Forall (good sc) l).
      { inversion L as [| | | | | | | ? ? H | | | | | | |]; subst. rewrite Forall_forall in IH, H |- *. intros x Hx. apply (IH x Hx ids sc); auto. }
      destruct l as [|a l]; [exists (str "true"), (Atom (str "true")), SmTrue; repeat split; apply seqw_word; [reflexivity|discriminate]|].
      apply (good_op sc "and" SmAnd); try reflexivity; try assumption; discriminate.
    - assert (HF : Forall (good sc) l).
      { inversion L as [| | | | | | | | ? ? H | | | | | |]; subst. rewrite Forall_forall in IH, H |- *. intros x Hx. apply (IH x Hx ids sc); auto. }
      destruct l as [|a l]; [exists (str "false"), (Atom (str "false")), SmFalse; repeat split; apply seqw_word; [reflexivity|discriminate]|].
      apply (good_op sc "or" SmOr); try reflexivity; try assumption; discriminate.
    - assert (HF : Forall (good sc) l).
      { inversion L as [| | | | | | | | | ? ? H | | | | |]; subst. rewrite Forall_forall in IH, H |- *. intros x Hx. apply (IH x Hx ids sc); auto. }
      destruct l as [|a [|b l]]; [exists (str "true"), (Atom (str "true")), SmTrue; repeat split; apply seqw_word; [reflexivity|discriminate]..|].
      apply (good_op sc "=" SmEq); try reflexivity; try assumption; discriminate.
    - assert (HF : Forall (good sc) l).
      { inversion L as [| | | | | | | | | | ? ? H | | | |]; subst. rewrite Forall_forall in IH, H |- *. intros x Hx. apply (IH x Hx ids sc); auto. }
      destruct l as [|a [|b l]]; [exists (str "true"), (Atom (str "true")), SmTrue; repeat split; apply seqw_word; [reflexivity|discriminate]..|].
      apply (good_op sc "distinct" SmNeq); try reflexivity; try assumption; discriminate.
    - inversion L; subst. destruct (IH ids sc) as (t & e & s' & E1 & E2 & E3 & E4); [assumption..|].
      exists (str "(not " ++ t ++ str ")")%list, (Node [Atom (str "not"); e]), (SmNot s'). cbn [print norm levels]. rewrite E1, E3. repeat split.
      + replace (str "(not " ++ t ++ str ")")%list with (str "(" ++ ((str "not" ++ str " ") ++ t) ++ str ")")%list by (rewrite <- !app_assoc; reflexivity).
        apply seqs_weak, seqs_node. apply (seqs_seqw _ [Atom (str "not")]); [apply seqs_space, seqw_word; [reflexivity|discriminate]|assumption].
      + change (read_smt fn so (wscope sc) (Node [Atom (str "not"); e])) with (option_map SmNot (read_smt fn so (wscope sc) e)). rewrite E4. reflexivity.
    - inversion L; subst. destruct (IHa ids sc) as (t & e & s' & E1 & E2 & E3 & E4); [assumption..|].
      destruct (IHb ids sc) as (t2 & e2 & s2 & F1 & F2 & F3 & F4); [assumption..|].
      exists (str "(=> " ++ t ++ str " " ++ t2 ++ str ")")%list, (Node [Atom (str "=>"); e; e2]), (SmImplies s' s2). cbn [print norm levels].
      rewrite E1, E3, F1, F3. repeat split.
      + replace (str "(=> " ++ t ++ str " " ++ t2 ++ str ")")%list with (str "(" ++ ((str "=>" ++ str " ") ++ (t ++ str " ") ++ t2) ++ str ")")%list
          by (rewrite <- !app_assoc; reflexivity).
        apply seqs_weak, seqs_node. apply (seqs_seqw _ [Atom (str "=>")]); [apply seqs_space, seqw_word; [reflexivity|discriminate]|].
        apply (seqs_seqw _ [e]); [apply seqs_space|]; assumption.
      + change (read_smt fn so (wscope sc) (Node [Atom (str "=>"); e; e2])) with
          (match read_smt fn so (wscope sc) e, read_smt fn so (wscope sc) e2 with Some x, Some y => Some (SmImplies x y) | _, _ => None end).
        rewrite E4, F4. reflexivity.
    - inversion L as [| | | | | | | | | | | | | ? ? ? ? Hf La Lb|]; subst. destruct (IHa ids sc) as (t & e & s' & E1 & E2 & E3 & E4); [assumption..|].
      destruct (IHb ids sc) as (t2 & e2 & s2 & F1 & F2 & F3 & F4); [assumption..|].
      pose proof Hf as (Hs & _). destruct (symbol_parts _ Hs) as (S1 & S2 & S3).
      exists (str "(subterm " ++ fname f ++ str " " ++ t ++ str " " ++ t2 ++ str ")")%list, (Node [Atom (str "subterm"); Atom (fname f); e; e2]), (SmSubterm f s' s2).
      cbn [print norm levels]. rewrite E1, E3, F1, F3. repeat split.
      + replace (str "(subterm " ++ fname f ++ str " " ++ t ++ str " " ++ t2 ++ str ")")%list
          with (str "(" ++ ((str "subterm" ++ str " ") ++ (fname f ++ str " ") ++ (t ++ str " ") ++ t2) ++ str ")")%list
          by (rewrite <- !app_assoc; reflexivity).
        apply seqs_weak, seqs_node. apply (seqs_seqw _ [Atom (str "subterm")]); [apply seqs_space, seqw_word; [reflexivity|discriminate]|].
        apply (seqs_seqw _ [Atom (fname f)]); [apply seqs_space, seqw_word; assumption|].
        apply (seqs_seqw _ [e]); [apply seqs_space|]; assumption.
      + change (read_smt fn so (wscope sc) (Node [Atom (str "subterm"); Atom (fname f); e; e2])) with
          (match function fn (fname f), read_smt fn so (wscope sc) e, read_smt fn so (wscope sc) e2 with Some f, Some x, Some y => Some (SmSubterm f x y) | _, _, _ => None end).
        rewrite (function_legal f Hf), E4, F4. reflexivity.
    - inversion L; subst. destruct (IHc ids sc) as (t & e & s' & E1 & E2 & E3 & E4); [assumption..|].
      destruct (IHl ids sc) as (t2 & e2 & s2 & F1 & F2 & F3 & F4); [assumption..|].
      destruct (IHr ids sc) as (t3 & e3 & s3 & G1 & G2 & G3 & G4); [assumption..|].
      exists (str "(ite " ++ t ++ str " " ++ t2 ++ str " " ++ t3 ++ str ")")%list, (Node [Atom (str "ite"); e; e2; e3]), (SmIte s' s2 s3). cbn [print norm levels].
      rewrite E1, E3, F1, F3, G1, G3. repeat split.
      + replace (str "(ite " ++ t ++ str " " ++ t2 ++ str " " ++ t3 ++ str ")")%list
          with (str "(" ++ ((str "ite" ++ str " ") ++ (t ++ str " ") ++ (t2 ++ str " ") ++ t3) ++ str ")")%list
          by (rewrite <- !app_assoc; reflexivity).
        apply seqs_weak, seqs_node. apply (seqs_seqw _ [Atom (str "ite")]); [apply seqs_space, seqw_word; [reflexivity|discriminate]|].
        apply (seqs_seqw _ [e]); [apply seqs_space; assumption|]. apply (seqs_seqw _ [e2]); [apply seqs_space|]; assumption.
      + change (read_smt fn so (wscope sc) (Node [Atom (str "ite"); e; e2; e3])) with
          (match read_smt fn so (wscope sc) e, read_smt fn so (wscope sc) e2, read_smt fn so (wscope sc) e3 with Some x, Some y, Some z => Some (SmIte x y z) | _, _, _ => None end).
        rewrite E4, F4, G4. reflexivity.
  Qed.

  Lemma print_read s : leg [] s -> exists t s', pr s = Some t /\ levels [] (norm evaluated s) = Some s' /\ read fn so t = Some s'.
  Proof.
    intros L. destruct (round_trip s [] [] L (Forall_nil _)) as (t & e & s' & E1 & E2 & E3 & E4); [intros i []|].
    exists t, s'. split; [assumption|]. split; [assumption|]. unfold read. rewrite (read_seqw t e E2). assumption.
  Qed.
End RoundTrip.

(** ** What is read means the same *)
Section Meaning.
  Context (M : structure).

  Definition agree (sc : list var) (rho rho' : env M) : Prop := forall v n, level sc v = Some n -> rho' n = rho (vid v).

  Lemma level_lt sc v n : level sc v = Some n -> n < List.length sc.
  Proof.
    induction sc as [|u sc IH]; cbn; [discriminate|]. destruct (vid u =? vid v); [intros [= <-]; lia|]. intros H. specialize (IH H). lia.
  Qed.

  Lemma agree_upd sc rho rho' u d : agree sc rho rho' -> agree (u :: sc) (upd rho (vid u) d) (upd rho' (List.length sc) d).
  Proof.
    intros H v n E. cbn in E. unfold upd. destruct (vid u =? vid v) eqn:Ev.
    - injection E as <-. rewrite Nat.eqb_refl. apply Nat.eqb_eq in Ev. rewrite Ev, Nat.eqb_refl. reflexivity.
    - pose proof (level_lt _ _ _ E). replace (n =? List.length sc) with false by (symmetry; apply Nat.eqb_neq; lia).
      rewrite Nat.eqb_sym, Ev. apply H. assumption.
  Qed.

  Lemma quantify_levels q vs : forall sc (rho rho' : env M) k k',
    (forall r r', agree (rev vs ++ sc) r r' -> k r = k' r') -> agree sc rho rho' ->
    quantify q vs rho k = quantify q (relevel (List.length sc) vs) rho' k'.
  Proof.
    induction vs as [|v vs IH]; intros sc rho rho' k k' Hk Ha; [apply Hk; assumption|]. cbn [quantify relevel].
    assert (G : forall d, quantify q vs (upd rho (vid v) d) k = quantify q (relevel (S (List.length sc)) vs) (upd rho' (List.length sc) d) k').
    { intros d. apply (IH (v :: sc)); [|apply agree_upd; assumption]. intros r r' Hr. apply Hk. cbn [rev]. rewrite <- app_assoc. assumption. }
    destruct q; cbn [vsort vid]; [apply ex_ext|apply all_ext]; intros d _; apply G.
  Qed.

  Lemma forallb_map {A B} (g : A -> B) p l : forallb (fun a => p (g a)) l = forallb p (map g l).
  Proof. induction l; cbn; congruence. Qed.
  Lemma existsb_map {A B} (g : A -> B) p l : existsb (fun a => p (g a)) l = existsb p (map g l).
  Proof. induction l; cbn; congruence. Qed.

  Lemma levels_meaning s : forall sc s' (rho rho' : env M), levels sc s = Some s' -> agree sc rho rho' -> seval s' rho' = seval s rho.
  Proof.
    assert (HL : forall l sc ss (rho rho' : env M),
       Forall (fun s => forall sc s' (rho rho' : env M), levels sc s = Some s' -> agree sc rho rho' -> seval s' rho' = seval s rho) l ->
       omap (levels sc) l = Some ss -> agree sc rho rho' -> map (fun a => seval a rho') ss = map (fun a => seval a rho) l).
    { intros l sc ss rho rho' IH E Ha. apply omap_some in E. induction E as [|a x l ss E _ IHE]; [reflexivity|].
      inversion IH as [|? ? IHa IHl]; subst. cbn. rewrite (IHa _ _ _ _ E Ha), IHE by assumption. reflexivity. }
    induction s as [v|f args IH|vs b IH|vs b IH| | |l IH|l IH|l IH|l IH|a IH|a b IHa IHb|f a b IHa IHb|c l r IHc IHl IHr] using smt_ind';
      intros sc s' rho rho' E Ha.
    - cbn in E. destruct (level sc v) as [n|] eqn:En; [|discriminate]. injection E as <-. cbn. apply Ha. assumption.
    - change (option_map (SmFun f) (omap (levels sc) args) = Some s') in E. destruct (omap (levels sc) args) as [ss|] eqn:Es; [|discriminate].
      injection E as <-. cbn. rewrite (HL _ _ _ _ _ IH Es Ha). reflexivity.
    - cbn [levels] in E. destruct (levels (rev vs ++ sc) b) as [b'|] eqn:Eb; [|discriminate]. injection E as <-. cbn. f_equal. symmetry.
      apply quantify_levels; [|assumption]. intros r r' Hr. f_equal. symmetry. apply (IH _ _ _ _ Eb Hr).
    - cbn [levels] in E. destruct (levels (rev vs ++ sc) b) as [b'|] eqn:Eb; [|discriminate]. injection E as <-. cbn. f_equal. symmetry.
      apply quantify_levels; [|assumption]. intros r r' Hr. f_equal. symmetry. apply (IH _ _ _ _ Eb Hr).
    - injection E as <-. reflexivity.
    - injection E as <-. reflexivity.
    - change (option_map SmAnd (omap (levels sc) l) = Some s') in E. destruct (omap (levels sc) l) as [ss|] eqn:Es; [|discriminate].
      injection E as <-. cbn. rewrite !(forallb_map (fun a => seval a _)), (HL _ _ _ _ _ IH Es Ha). reflexivity.
    - change (option_map SmOr (omap (levels sc) l) = Some s') in E. destruct (omap (levels sc) l) as [ss|] eqn:Es; [|discriminate].
      injection E as <-. cbn. rewrite !(existsb_map (fun a => seval a _)), (HL _ _ _ _ _ IH Es Ha). reflexivity.
    - change (option_map SmEq (omap (levels sc) l) = Some s') in E. destruct (omap (levels sc) l) as [ss|] eqn:Es; [|discriminate].
      injection E as <-. cbn. rewrite (HL _ _ _ _ _ IH Es Ha). reflexivity.
    - change (option_map SmNeq (omap (levels sc) l) = Some s') in E. destruct (omap (levels sc) l) as [ss|] eqn:Es; [|discriminate].
      injection E as <-. cbn. rewrite (HL _ _ _ _ _ IH Es Ha). reflexivity.
    - cbn [levels] in E. destruct (levels sc a) as [x|] eqn:E1; [|discriminate]. injection E as <-. cbn. rewrite (IH _ _ _ _ E1 Ha). reflexivity.
    - cbn [levels] in E. destruct (levels sc a) as [x|] eqn:E1; [|discriminate]. destruct (levels sc b) as [y|] eqn:E2; [|discriminate].
      injection E as <-. cbn. rewrite (IHa _ _ _ _ E1 Ha), (IHb _ _ _ _ E2 Ha). reflexivity.
    - cbn [levels] in E. destruct (levels sc a) as [x|] eqn:E1; [|discriminate]. destruct (levels sc b) as [y|] eqn:E2; [|discriminate].
      injection E as <-. cbn. rewrite (IHa _ _ _ _ E1 Ha), (IHb _ _ _ _ E2 Ha). reflexivity.
    - cbn [levels] in E. destruct (levels sc c) as [x|] eqn:E1; [|discriminate]. destruct (levels sc l) as [y|] eqn:E2; [|discriminate].
      destruct (levels sc r) as [z|] eqn:E3; [|discriminate].
      injection E as <-. cbn. rewrite (IHc _ _ _ _ E1 Ha), (IHl _ _ _ _ E2 Ha), (IHr _ _ _ _ E3 Ha). reflexivity.
  Qed.

  Lemma quantify_ext q vs : forall (rho : env M) k k', (forall r, k r = k' r) -> quantify q vs rho k = quantify q vs rho k'.
  Proof.
    induction vs as [|v vs IH]; intros rho k k' H; cbn; [apply H|]. destruct q; [apply ex_ext|apply all_ext]; intros d _; apply IH; assumption.
  Qed.

  Lemma norm_meaning ev s : harmless M ev s -> forall rho : env M, seval (norm ev s) rho = seval s rho.
  Proof.
    assert (HL : forall l (rho : env M), Forall (fun s => harmless M ev s -> forall rho : env M, seval (norm ev s) rho = seval s rho) l ->
       Forall (harmless M ev) l -> map (fun a => seval a rho) (map (norm ev) l) = map (fun a => seval a rho) l).
    { intros l rho IH H. induction l as [|a l IHl]; [reflexivity|]. inversion IH; inversion H; subst. cbn. f_equal; auto. }
    induction s as [v|f args IH|vs b IH|vs b IH| | |l IH|l IH|l IH|l IH|a IH|a b IHa IHb|f a b IHa IHb|c l r IHc IHl IHr] using smt_ind';
      intros H rho; inversion H; subst.
    - reflexivity.
    - assert (E : seval (SmFun f (map (norm ev) args)) rho = seval (SmFun f args) rho) by (cbn; rewrite HL by assumption; reflexivity).
      cbn [norm]. destruct ev; [|exact E]. destruct f; try exact E. destruct args as [|a [|b args]]; try exact E.
      inversion IH; subst. match goal with H : Forall _ [_] |- _ => inversion H; subst end.
      cbn. rewrite H2 by reflexivity. auto.
    - destruct vs as [|v vs].
      + cbn [norm]. rewrite IH by assumption. cbn. symmetry. match goal with H : [] = [] -> _ |- _ => apply (H eq_refl) end.
      + cbn [norm seval]. f_equal. apply quantify_ext. intros r. rewrite IH by assumption. reflexivity.
    - destruct vs as [|v vs].
      + cbn [norm]. rewrite IH by assumption. cbn. symmetry. match goal with H : [] = [] -> _ |- _ => apply (H eq_refl) end.
      + cbn [norm seval]. f_equal. apply quantify_ext. intros r. rewrite IH by assumption. reflexivity.
    - reflexivity.
    - reflexivity.
    - destruct l as [|a l]; [reflexivity|]. cbn [norm seval]. rewrite !(forallb_map (fun a => seval a _)), HL by assumption. reflexivity.
    - destruct l as [|a l]; [reflexivity|]. cbn [norm seval]. rewrite !(existsb_map (fun a => seval a _)), HL by assumption. reflexivity.
    - destruct l as [|a [|b l]]; [reflexivity..|]. cbn [norm seval]. rewrite HL by assumption. reflexivity.
    - destruct l as [|a [|b l]]; [reflexivity..|]. cbn [norm seval]. rewrite HL by assumption. reflexivity.
    - cbn. rewrite IH by assumption. reflexivity.
    - cbn. rewrite IHa, IHb by assumption. reflexivity.
    - cbn. rewrite IHa, IHb by assumption. reflexivity.
    - cbn. rewrite IHc, IHl, IHr by assumption. reflexivity.
  Qed.
End Meaning.

(** ** Files *)
Section Files.
  Context (kind : nat -> skind) (o : smt_options).

  Lemma command_meaning a : axiom_arities a -> exists c, command_of kind o a = Some c /\
    forall (M : structure) (ground : sort -> smt -> env M -> Prop) (rho : env M),
      (match a with XGround _ _ => use_assert_ground o = true -> forall g s, sholds s rho -> ground g s rho | _ => True end ->
       axiom_true M rho a -> (forall q, In q (query_of a) -> ~ holds q rho) -> satisfies M ground rho c) /\
      (satisfies M ground rho c -> (forall q, In q (query_of a) -> ~ holds q rho) /\
        (match a with XGround _ _ => use_assert_ground o = false | _ => True end -> axiom_true M rho a)).
  Proof.
    destruct a as [|f|g f|f|f|fn vs pre post]; cbn; intros A.
    - exists KComment. split; [reflexivity|]. intros. cbn. tauto.
    - destruct (translate kind f A) as (s & E & H). rewrite E. exists (KAssert s). split; [reflexivity|]. intros M ground rho.
      unfold holds, satisfies, sholds. rewrite H. tauto.
    - destruct (translate kind f A) as (s & E & H). rewrite E. eexists. split; [reflexivity|]. intros M ground rho.
      destruct (use_assert_ground o) eqn:Eg; cbn; unfold holds, sholds; [|rewrite H; tauto]. split.
      + intros Hg Hf _. apply Hg; [reflexivity|]. unfold sholds. rewrite H. assumption.
      + intros _. split; [intros q []|discriminate].
    - destruct (translate kind f A) as (s & E & H). rewrite E. eexists. split; [reflexivity|]. intros M ground rho.
      destruct (use_assert_theory o); cbn; unfold holds, sholds; rewrite H; tauto.
    - destruct (translate kind f A) as (s & E & H). rewrite E. eexists. split; [reflexivity|]. intros M ground rho.
      assert (E2 : satisfies M ground rho (if use_assert_not o then KAssertNot s else KAssert (SmNot s)) <-> ~ holds f rho).
      { destruct (use_assert_not o); cbn; unfold holds, sholds; cbn; rewrite ?dtest_inj, ?H; [tauto|]. destruct (dtest M (eval f rho)); cbn; intuition congruence. }
      rewrite E2. split; [auto|]. intros Hn. split; [|auto]. intros q [<-|[]]. assumption.
    - destruct A as [A1 A2]. destruct (translate kind pre A1) as (l & E & H), (translate kind post A2) as (r & E' & H'). rewrite E, E'.
      eexists. split; [reflexivity|]. intros M ground rho.
      assert (E2 : satisfies M ground rho (if no_rewrite o then KAssert (SmForall vs (SmEq [l; r])) else KRewrite fn vs l r) <->
                   holds (FQ QForall vs (FFun (Fb CEq) [pre; post])) rho).
      { assert (E3 : seval (SmForall vs (SmEq [l; r])) rho = eval (FQ QForall vs (FFun (Fb CEq) [pre; post])) rho).
        { cbn [seval eval]. f_equal. apply quantify_ext. intros r'. cbn. rewrite H, H', andb_true_r. reflexivity. }
        destruct (no_rewrite o); cbn [satisfies]; unfold holds, sholds; rewrite E3; tauto. }
      rewrite E2. tauto.
  Qed.

  Lemma file_commands axs : Forall axiom_arities axs -> exists cs, omap (command_of kind o) axs = Some cs /\ file_of kind o axs = Some (cs ++ [KCheckSat]).
  Proof.
    intros H. assert (exists cs, omap (command_of kind o) axs = Some cs) as (cs & E).
    { induction H as [|a axs Ha _ (cs & E)]; [exists []; reflexivity|]. destruct (command_meaning a Ha) as (c & E1 & _). exists (c :: cs). cbn. rewrite E1, E. reflexivity. }
    exists cs. split; [assumption|]. change (option_map (fun l => l ++ [KCheckSat])%list (omap (command_of kind o) axs) = Some (cs ++ [KCheckSat])%list). rewrite E. reflexivity.
  Qed.

  Lemma file_meaning axs : Forall axiom_arities axs -> exists cs, file_of kind o axs = Some (cs ++ [KCheckSat]) /\
    forall (M : structure) (ground : sort -> smt -> env M -> Prop) (rho : env M),
      ((use_assert_ground o = true -> forall g s, sholds s rho -> ground g s rho) ->
       Forall (axiom_true M rho) axs -> (forall q, In q (flat_map query_of axs) -> ~ holds q rho) -> Forall (satisfies M ground rho) (cs ++ [KCheckSat])) /\
      (Forall (satisfies M ground rho) (cs ++ [KCheckSat]) ->
       (forall q, In q (flat_map query_of axs) -> ~ holds q rho) /\ (use_assert_ground o = false -> Forall (axiom_true M rho) axs)).
  Proof.
    intros H. destruct (file_commands axs H) as (cs & E & Ef). exists cs. split; [assumption|]. intros M ground rho. apply omap_some in E.
    assert (EQ : Forall (satisfies M ground rho) (cs ++ [KCheckSat]) <-> Forall (satisfies M ground rho) cs).
    { rewrite Forall_app. split; [tauto|]. intros Hc. split; [assumption|]. constructor; [exact I|constructor]. }
    rewrite EQ. clear EQ Ef. induction E as [|a c axs cs Ec _ IH]; [cbn; repeat split; auto; intros q []|].
    inversion H as [|? ? Ha Haxs]; subst. destruct (command_meaning a Ha) as (c' & Ec' & Hm). rewrite Ec in Ec'. injection Ec' as <-.
    destruct (Hm M ground rho) as [H1 H2]. destruct (IH Haxs) as [I1 I2]. cbn [flat_map]. split.
    - intros Hg Hall Hq. inversion Hall; subst. constructor.
      + apply H1; [destruct a; auto|assumption|]. intros q Hin. apply Hq, in_or_app. auto.
      + apply I1; [assumption..|]. intros q Hin. apply Hq, in_or_app. auto.
    - intros Hall. inversion Hall as [|? ? Hc Hcs]; subst. destruct (H2 Hc) as [Q1 A1]. destruct (I2 Hcs) as [Q2 A2]. split.
      + intros q Hin. apply in_app_or in Hin. destruct Hin; auto.
      + intros Hg. constructor; [apply A1; destruct a; auto|apply A2; assumption].
  Qed.

  Lemma problem_queries pre generated assertions query : flat_map query_of generated = [] ->
    flat_map query_of (problem_axioms pre generated assertions query) = [pre query].
  Proof.
    intros H. unfold problem_axioms. rewrite flat_map_app, H. cbn. rewrite flat_map_app.
    replace (flat_map query_of (map (fun a => XBase (pre a)) assertions)) with (@nil formula); [reflexivity|]. induction assertions; auto.
  Qed.
End Files.
