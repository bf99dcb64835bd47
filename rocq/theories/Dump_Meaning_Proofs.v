(** Proofs about the reading of converted terms (C106). *)
From Coq Require Import List Arith Bool String Ascii Lia.
From Verif Require Import Syntax_Model Traversal_Spec Semantics_Spec Semantics_Proofs Sort_Model Parser_Model Parser_Spec Parser_Proofs Source_Model Smt_Model Squirrel_Model
  Convert_Model Convert_Spec Meaning_Spec Dump_Model Dump_Source_Model Dump_Meaning_Spec.
Import ListNotations.
Local Open Scope list_scope.

Section Ind.
  Variable P : aterm -> Prop.
  Hypothesis Hvar : forall x, P (AVar x).
  Hypothesis Happ : forall f l, Forall P l -> P (AApp f l).
  Hypothesis Hinf : forall o l, Forall P l -> P (AInfix o l).
  Hypothesis Hite : forall c l r, P c -> P l -> P r -> P (AIte c l r).
  Hypothesis Hmac : forall f l, Forall P l -> P (AMacro f l).
  Hypothesis Hfind : forall vs c l r, P c -> P l -> P r -> P (AFind vs c l r).
  Hypothesis Hq : forall q vs b, P b -> P (AQuant q vs b).
  Hypothesis Hlet : forall x d b, P d -> P b -> P (ALet x d b).
  Fixpoint aterm_ind' (a : aterm) : P a :=
    let all := fix all (l : list aterm) : Forall P l := match l with [] => Forall_nil P | a :: l' => Forall_cons a (aterm_ind' a) (all l') end in
    match a with
    | AVar x => Hvar x
    | AApp f l => Happ f l (all l)
    | AInfix o l => Hinf o l (all l)
    | AIte c l r => Hite c l r (aterm_ind' c) (aterm_ind' l) (aterm_ind' r)
    | AMacro f l => Hmac f l (all l)
    | AFind vs c l r => Hfind vs c l r (aterm_ind' c) (aterm_ind' l) (aterm_ind' r)
    | AQuant q vs b => Hq q vs b (aterm_ind' b)
    | ALet x d b => Hlet x d b (aterm_ind' d) (aterm_ind' b)
    end.
End Ind.

Section Reading.
  Context {M : structure} (env : penv) (qsem : qkind -> list sort -> (list (D M) -> list (D M)) -> D M)
    (mval : callee -> realm -> list (D M) -> list (D M) -> D M) (code : text -> name).
  Hypothesis Inj : forall a b, code a = code b -> a = b.
  Hypothesis Ext : extensional M qsem.
  Notation T := (reading env qsem mval code).
  Notation val := (value env qsem mval).

  Lemma in_by {A} r (f : realm -> A) : in_realm r (by_realm f) = f r.
  Proof. destruct r; reflexivity. Qed.
  Lemma by_ext {A} (f g : realm -> A) : (forall r, f r = g r) -> by_realm f = by_realm g.
  Proof. intros H. unfold by_realm. rewrite !H. reflexivity. Qed.
  Lemma fn_ext r f (u v : realm -> list (D M)) : (forall r, u r = v r) -> fn_value M env r f u = fn_value M env r f v.
  Proof. intros H. unfold fn_value. destruct (denotes env f r); [|reflexivity]. unfold apply_fn. rewrite H. reflexivity. Qed.
  Lemma infix_ext o r (u v : realm -> list (D M)) : (forall r, u r = v r) -> infix_value M o r u = infix_value M o r v.
  Proof. intros H. unfold infix_value. destruct o, r; rewrite ?H; reflexivity. Qed.
  Lemma over_ext q ss : forall k k' : list (D M) -> bool, (forall ds, List.length ds = List.length ss -> k ds = k' ds) -> over q ss k = over q ss k'.
  Proof.
    induction ss as [|s ss IH]; intros k k' H; [apply H; reflexivity|]. cbn [over].
    destruct q; [apply ex_ext|apply all_ext]; intros d _; apply IH; intros ds L; apply H; cbn; congruence.
  Qed.

  Definition seen (e : text -> D M * D M) (sc : scope M) : Prop := forall x, e x = by_realm (fun r => val (TVar (code x)) r sc).
  Lemma seen_bind e sc x s d : seen e sc -> seen (fun y => if list_eq_dec ascii_dec y x then stands s d else e y) (bind_name sc (code x) s d).
  Proof.
    intros H y. cbn [value]. unfold bind_name. destruct (list_eq_dec ascii_dec y x) as [->|N].
    - destruct (Nat.eq_dec (code x) (code x)); [reflexivity|congruence].
    - destruct (Nat.eq_dec (code y) (code x)) as [E|_]; [apply Inj in E; contradiction|]. exact (H y).
  Qed.
  Lemma seen_binds : forall vs e sc ds, seen e sc ->
    seen (assign (map fst vs) (stand (sorts_read env code (map snd vs)) ds) e) (bind_names sc (Parser_Spec.binders env (map (code_pair code) vs)) ds).
  Proof.
    induction vs as [|[x ty] vs IH]; intros e sc ds H; [exact H|]. destruct ds as [|d ds]; [exact H|].
    cbn [map fst snd sorts_read stand assign Parser_Spec.binders bind_names code_pair]. apply IH. apply seen_bind. exact H.
  Qed.
  Lemma over_quantify q : forall vs sc (k : scope M -> bool), (forall a b, (forall x, a x = b x) -> k a = k b) ->
    squantify q (Parser_Spec.binders env (map (code_pair code) vs)) sc k = over q (sorts_read env code (map snd vs)) (fun ds => k (bind_names sc (Parser_Spec.binders env (map (code_pair code) vs)) ds)).
  Proof.
    induction vs as [|[x ty] vs IH]; intros sc k Hk; [reflexivity|].
    cbn [map fst snd sorts_read Parser_Spec.binders squantify over bind_names code_pair]. destruct q; [apply ex_ext|apply all_ext]; intros d _; apply IH; exact Hk.
  Qed.
  Lemma binders_named vs : map snd (Parser_Spec.binders env (map (code_pair code) vs)) = sorts_read env code (map snd vs).
  Proof. unfold Parser_Spec.binders, sorts_read, code_pair. rewrite !map_map. reflexivity. Qed.

  Lemma read_value : forall a, message_lets env code a -> forall e sc, seen e sc -> avalue T e a = by_realm (fun r => val (to_term code a) r sc).
  Proof.
    assert (L : forall l, Forall (fun a => message_lets env code a -> forall e sc, seen e sc -> avalue T e a = by_realm (fun r => val (to_term code a) r sc)) l ->
              (forall a, In a l -> message_lets env code a) -> forall e sc, seen e sc ->
              forall r, map (in_realm r) (map (avalue T e) l) = map (fun a => val a r sc) (map (to_term code) l)).
    { intros l F Hl e sc Hs r. rewrite !map_map. apply map_ext_in. intros a Ha. rewrite Forall_forall in F. rewrite (F a Ha (Hl a Ha) e sc Hs). exact (in_by r (fun r => val (to_term code a) r sc)). }
    induction a as [x|f l IH|o l IH|c l r IHc IHl IHr|f l IH|vs c l r IHc IHl IHr|q vs b IHb|x d b IHd IHb] using aterm_ind'; intros ML e sc Hs.
    - exact (Hs x).
    - inversion ML; subst. cbn [avalue to_term value t_app reading]. apply by_ext. intros r. apply fn_ext. intros r'. apply L; auto.
    - inversion ML; subst. cbn [avalue to_term value t_infix reading]. apply by_ext. intros r. apply infix_ext. intros r'. apply L; auto.
    - inversion ML as [| | |? ? ? H2 H3 H4| | | |]; subst. cbn [avalue to_term value t_ite reading]. apply by_ext. intros r'. rewrite (IHc H2 e sc Hs), (IHl H3 e sc Hs), (IHr H4 e sc Hs). destruct r'; reflexivity.
    - inversion ML as [| | | |? ? Hl| | |]; subst. cbn [avalue to_term value t_macro reading]. apply by_ext. intros r.
      rewrite (L l IH Hl e sc Hs RSymbolic : map fst _ = _), (L l IH Hl e sc Hs REvaluated : map snd _ = _). reflexivity.
    - inversion ML as [| | | | |? ? ? ? H3 H4 H5| |]; subst. cbn [avalue to_term value t_find reading]. apply by_ext. intros r'. f_equal. rewrite binders_named. apply Ext. intros ds _.
      rewrite (IHc H3 _ _ (seen_binds vs e sc ds Hs)), (IHl H4 _ _ (seen_binds vs e sc ds Hs)), (IHr H5 e sc Hs). reflexivity.
    - inversion ML as [| | | | | |? ? ? H0|]; subst.
      assert (E1 : forall k, qsem k (sorts_read env code (map snd vs)) (fun ds => [fst (avalue T (assign (map fst vs) (stand (sorts_read env code (map snd vs)) ds) e) b)]) =
                     qsem k (map snd (Parser_Spec.binders env (map (code_pair code) vs))) (fun ds => [val (to_term code b) RSymbolic (bind_names sc (Parser_Spec.binders env (map (code_pair code) vs)) ds)])).
      { intros k. rewrite binders_named. apply Ext. intros ds _. rewrite (IHb H0 _ _ (seen_binds vs e sc ds Hs)). reflexivity. }
      assert (E2 : forall q, over q (sorts_read env code (map snd vs)) (fun ds => dtest M (snd (avalue T (assign (map fst vs) (stand (sorts_read env code (map snd vs)) ds) e) b))) =
                     squantify q (Parser_Spec.binders env (map (code_pair code) vs)) sc (fun sc' => dtest M (val (to_term code b) REvaluated sc'))).
      { intros q'. rewrite over_quantify by (intros a' b' Hab; f_equal; apply value_ext; auto). apply over_ext. intros ds _.
        rewrite (IHb H0 _ _ (seen_binds vs e sc ds Hs)). reflexivity. }
      destruct q; cbn [avalue to_term value t_all t_some reading]; unfold by_realm; rewrite E1, E2; reflexivity.
    - inversion ML as [| | | | | | |x0 ty f fc ss args b0 Ety Hd Hk Hn Ha Hb]; subst.
      transitivity (avalue T (fun y => if list_eq_dec ascii_dec y x0 then avalue T e (AApp f args) else e y) b); [reflexivity|].
      rewrite (IHb Hb (fun y => if list_eq_dec ascii_dec y x0 then avalue T e (AApp f args) else e y)
                 (bind_name sc (code x0) (sort_named env (code ty)) (val (to_term code (AApp f args)) RSymbolic sc))).
      + apply by_ext. intros r. cbn [to_term value fst snd]. rewrite Ety. reflexivity.
      + assert (E : avalue T e (AApp f args) = stands (sort_named env (code ty)) (val (to_term code (AApp f args)) RSymbolic sc)).
        { assert (Md : message_lets env code (AApp f args)) by (constructor; exact Ha). rewrite (IHd Md e sc Hs). unfold stands. apply by_ext. intros r. rewrite Ety.
          cbn [to_term value]. unfold fn_value. rewrite !Hd. unfold apply_fn. rewrite Hk, Hn. cbn [out_sort sort_realm]. destruct r; reflexivity. }
        rewrite E. apply seen_bind. exact Hs.
  Qed.
  Lemma seen_none : seen (fun x => constant env code x) (fun _ => None).
  Proof. intros x. reflexivity. Qed.
End Reading.
