(** C54, C78-C81: the conversion of Squirrel terms. *)
From Coq Require Import List Arith Bool Lia String Ascii Permutation Sorted.
From Verif Require Import Syntax_Model Parser_Infix_Model Smt_Model Squirrel_Model Squirrel_Proofs Utils_Model Utils_Spec Utils_Proofs
  Convert_Model Convert_Spec Convert_Proofs.
Import ListNotations.
Local Open Scope list_scope.

(** ** C54: tuples *)

(** In every alternative, projection [i] of a tuple of [n] elements has the meaning of element [n + 1 - i]. The claim is about
    element [i]. *)
Theorem C54_projection_partial wide csort names operators macros sh i l x k a :
  convert wide csort names operators macros sh (JProj i (JTuple l)) = OOk x -> aget x k = Some a -> 1 <= i <= List.length l ->
  exists t y b, nth_error l (List.length l - i) = Some t /\ convert wide csort names operators macros sh t = OOk y /\ aget y k = Some b /\
    forall D (P : pairs D), meaning P a = meaning P b.
Proof.
  intros E Ha Hi. cbn [convert] in E. destruct (rbind_get _ _ _ _ _ E Ha) as (s & u & z & Es & Hu & [= <-] & [= <-]).
  destruct (iter_snd_get _ _ _ _ _ Es Hu) as (s' & u' & Et & Hu' & ->).
  change (tfold (convert wide csort names operators macros sh) (Any (AApp n_empty [])) l = OOk s') in Et.
  destruct (tfold_get _ _ _ _ _ _ Et Hu') as (e & m & [= <-] & F & ->).
  assert (L : List.length m = List.length l) by (symmetry; eapply F2_len; exact F).
  destruct (nth_error_in_range l (List.length l - i) ltac:(lia)) as (t & Ht).
  destruct (F2_nth _ _ _ F _ _ Ht) as (b & Hb & y & Ey & Hy). exists t, y, b. split; [exact Ht|]. split; [exact Ey|]. split; [exact Hy|].
  intros D P. change n_fst with (str "fst"). rewrite (means_fst _ P).
  assert (S : forall j w, meaning P (Nat.iter j (fun a => AApp n_snd [a]) w) = Nat.iter j (second _ P) (meaning P w)).
  { induction j as [|j IH]; intros w; [reflexivity|]. cbn [Nat.iter nat_rect]. change n_snd with (str "snd"). rewrite (means_snd _ P).
    f_equal. apply IH. }
  rewrite S. apply fold_pairs. rewrite <- L in Hb.
  assert (N : nth_error (rev m) (i - 1) = nth_error m (List.length m - i)); [|congruence].
  clear - Hi L. rewrite <- L in Hi. clear L. assert (D : i - 1 < List.length (rev m)) by (rewrite rev_length; lia).
  rewrite (nth_error_nth' (rev m) (AApp [] []) D), rev_nth by lia.
  rewrite (nth_error_nth' m (AApp [] [])) by lia. f_equal. f_equal. lia.
Qed.
Print Assumptions C54_projection_partial.

(** Free pairs. *)
Inductive tree : Type := Leaf (t : aterm) | Pair (a b : tree) | Fst (a : tree) | Snd (a : tree).
Definition tree_fst (a : tree) : tree := match a with Pair x _ => x | _ => Fst a end.
Definition tree_snd (a : tree) : tree := match a with Pair _ y => y | _ => Snd a end.
Fixpoint tree_of (t : aterm) : tree :=
  match t with
  | AApp f args =>
      if text_eqb f (str "pair") then match args with [a; b] => Pair (tree_of a) (tree_of b) | _ => Leaf t end
      else if text_eqb f (str "fst") then match args with [a] => tree_fst (tree_of a) | _ => Leaf t end
      else if text_eqb f (str "snd") then match args with [a] => tree_snd (tree_of a) | _ => Leaf t end
      else Leaf t
  | _ => Leaf t
  end.
Definition trees : pairs tree.
Proof.
  refine (mkPairs tree tree_of Pair tree_fst tree_snd _ _ _ _ _); reflexivity.
Defined.

Definition vx := mkJVar (str "x") 0.
Definition vy := mkJVar (str "y") 0.
Definition vz := mkJVar (str "z") 0.
Definition ascii_only (s : text) : bool := true.
Definition nofun : path -> option jfun := fun _ => None.
Definition nomacro : path -> option jmacro := fun _ => None.
Definition sort0 (s : nat) : option text := Some (str "Message").

(** The first projection of (x, y) is y. *)
Theorem C54_projection_refuted : exists x y a,
  convert ascii_only sort0 nofun nofun nomacro (Any tt) (JVar vx) = OOk (Any x) /\
  convert ascii_only sort0 nofun nofun nomacro (Any tt) (JVar vy) = OOk (Any y) /\
  convert ascii_only sort0 nofun nofun nomacro (Any tt) (JProj 1 (JTuple [JVar vx; JVar vy])) = OOk (Any a) /\
  meaning trees a = meaning trees y /\ meaning trees x <> meaning trees y.
Proof.
  eexists _, _, _. split; [reflexivity|]. split; [reflexivity|]. split; [reflexivity|]. split; [reflexivity|]. vm_compute. discriminate.
Qed.
Print Assumptions C54_projection_refuted.

(** A case of [C54_projection_partial]: (snd (snd (x, y, z))) in two alternatives. *)
Example C54_example : exists x, convert ascii_only sort0 nofun nofun nomacro (Any tt)
    (JProj 3 (JTuple [JDiff [(str "right", JVar vy); (str "left", JVar vx)]; JVar vy; JVar vz])) = OOk x /\
  covers 2 x /\ option_map (meaning trees) (aget x 0) = Some (Leaf (AVar (str "var_x"))) /\
  option_map (meaning trees) (aget x 1) = Some (Leaf (AVar (str "var_y"))).
Proof. eexists. split; [reflexivity|]. split; [reflexivity|]. split; reflexivity. Qed.

(** ** C78: systems *)

Section Systems.
  Context (wide : text -> bool) (csort : nat -> option text)
    (names operators : path -> option jfun) (macros : path -> option jmacro).
  Context (systems : list text).

  (** The conversion does not panic, and alternative [i] is the conversion of the term of system [i], in the order of the names.
      Partial: a function of one argument of a tuple type may not be applied to a [diff]. *)
Theorem C78_alternatives_partial t : StronglySorted lex systems -> systems_of systems t -> no_diff_tuple names operators t ->
    convert wide csort names operators macros (Any tt) t = OErr \/
    exists x, convert wide csort names operators macros (Any tt) t = OOk x /\ covers (List.length systems) x /\
      forall i s, nth_error systems i = Some s ->
        exists a, aget x i = Some a /\ convert wide csort names operators macros (Any tt) (side s t) = OOk (Any a).
  Proof.
    intros Hs H1 H2. pose proof (conv_good wide csort names operators macros systems Hs t (Any tt) (or_introl eq_refl) H1 H2) as G.
    destruct (convert _ _ _ _ _ _ t) as [x| | |] eqn:E; cbn in G; [|left; reflexivity|destruct G|destruct G].
    right. exists x. split; [reflexivity|]. split; [apply G|]. intros i s Hi. destruct G as (_ & G).
    destruct (G i) as (a & Ha & Ec); [apply nth_error_Some; congruence|]. exists a. split; [exact Ha|].
    rewrite (nth_error_nth _ _ _ Hi) in Ec. exact Ec.
  Qed.

  (** If the terms of all systems are converted, the term is. Partial: no [diff] below a [diff]. *)
Theorem C78_complete_partial t : StronglySorted lex systems -> systems <> [] -> systems_of systems t ->
    no_diff_tuple names operators t -> plain t ->
    (forall s, In s systems -> exists x, convert wide csort names operators macros (Any tt) (side s t) = OOk x) ->
    exists x, convert wide csort names operators macros (Any tt) t = OOk x.
  Proof.
    intros Hs Hn H1 H2 H3 H. eapply conv_complete; eauto; [|left; reflexivity]. intros i Hi. apply H, nth_In. exact Hi.
  Qed.
End Systems.
Print Assumptions C78_alternatives_partial.
Print Assumptions C78_complete_partial.

(** A [diff] of pairs given to a function of pairs: the alternatives have one argument where the terms of the systems have two. *)
Definition encp : path := mkPath [] (str "enc").
Definition pair_fun : path -> option jfun := fun _ => Some (mkJFun false [TTuple [TPlain 0; TPlain 0]] (TPlain 0) false).
Definition d2 (a b : jterm) : jterm := JDiff [(str "left", a); (str "right", b)].
Theorem C78_tuple_refuted :
  let t := JApp (JFun encp) [d2 (JTuple [JVar vx; JVar vy]) (JTuple [JVar vy; JVar vx])] in
  systems_of [str "left"; str "right"] t /\
  exists x a b, convert ascii_only sort0 nofun pair_fun nomacro (Any tt) t = OOk x /\ aget x 0 = Some (AApp (str "fun_enc") [a]) /\
    exists c, convert ascii_only sort0 nofun pair_fun nomacro (Any tt) (side (str "left") t) = OOk (Any (AApp (str "fun_enc") [b; c])).
Proof.
  cbv zeta. split.
  - intros l H. assert (D : l = [(str "left", JTuple [JVar vx; JVar vy]); (str "right", JTuple [JVar vy; JVar vx])]); [|subst; reflexivity].
    inversion H as [|? c Hc H1]; subst. cbn in Hc. destruct Hc as [<-|[<-|[]]].
    + inversion H1 as [|? c Hc _]; subst. destruct Hc.
    + inversion H1 as [|? c Hc H2]; subst; [reflexivity|]. exfalso. cbn in Hc. destruct Hc as [<-|[<-|[]]]; inversion H2 as [|? c Hc H3]; subst;
        cbn in Hc; destruct Hc as [<-|[<-|[]]]; inversion H3 as [|? c Hc _]; subst; destruct Hc.
  - eexists _, _, _. split; [reflexivity|]. split; [reflexivity|]. eexists. reflexivity.
Qed.
Print Assumptions C78_tuple_refuted.

(** A [diff] below a [diff] with an alternative that cannot be converted and belongs to no system: both terms are converted, their
    [diff] is not. *)
Theorem C78_complete_refuted :
  let t := d2 (d2 (JVar vx) (JLet (JVar vx) (JVar vx) (JVar vx))) (JVar vy) in
  (forall s, In s [str "left"; str "right"] -> exists x, convert ascii_only sort0 nofun nofun nomacro (Any tt) (side s t) = OOk x) /\
  convert ascii_only sort0 nofun nofun nomacro (Any tt) t = OErr.
Proof. cbv zeta. split; [|reflexivity]. intros s [<-|[<-|[]]]; eexists; reflexivity. Qed.
Print Assumptions C78_complete_refuted.

(** [diff]s with different numbers of alternatives stop the program. *)
Theorem C78_sizes_panic wide csort names operators macros p k1 k2 k3 k4 k5 v1 v2 v3 v4 v5 :
  convert wide csort names operators macros (Any tt)
    (JAction p [JDiff [(k1, JVar v1); (k2, JVar v2)]; JDiff [(k3, JVar v3); (k4, JVar v4); (k5, JVar v5)]]) = OPanic.
Proof.
  cbn. destruct (text_leb k1 k2), (text_leb k4 k5); cbn; destruct (text_leb k3 k4); cbn; try (destruct (text_leb k3 k5); cbn); reflexivity.
Qed.
Print Assumptions C78_sizes_panic.

(** A case of [C78_alternatives_partial] and [C78_complete_partial]. *)
Definition ex_t : jterm := JQuant JForAll [JVar vx] (JAction encp [d2 (JVar vx) (JTuple [JVar vy]); JVar vz]).
Lemma ex_subs u : sub u ex_t ->
  u = ex_t \/ u = JAction encp [d2 (JVar vx) (JTuple [JVar vy]); JVar vz] \/ u = d2 (JVar vx) (JTuple [JVar vy]) \/
  u = JTuple [JVar vy] \/ exists v, u = JVar v.
Proof.
  assert (V : forall v u, sub u (JVar v) -> u = JVar v) by (intros v w H; inversion H as [|? c Hc _]; subst; [reflexivity|destruct Hc]).
  intros H. inversion H as [|? c Hc H1]; subst; [auto 6|]. cbn in Hc. destruct Hc as [<-|[<-|[]]]; [apply V in H1; (right; right; right; right; eauto)|].
  inversion H1 as [|? c Hc H2]; subst; [auto 6|]. cbn in Hc. destruct Hc as [<-|[<-|[]]]; [|apply V in H2; (right; right; right; right; eauto)].
  inversion H2 as [|? c Hc H3]; subst; [auto 6|]. cbn in Hc. destruct Hc as [<-|[<-|[]]]; [apply V in H3; (right; right; right; right; eauto)|].
  inversion H3 as [|? c Hc H4]; subst; [auto 6|]. cbn in Hc. destruct Hc as [<-|[]]. apply V in H4. (right; right; right; right; eauto).
Qed.
Ltac ex_cases H := apply ex_subs in H; destruct H as [H|[H|[H|[H|(? & H)]]]]; try discriminate H.
Example C78_example :
  StronglySorted lex [str "left"; str "right"] /\ systems_of [str "left"; str "right"] ex_t /\ no_diff_tuple pair_fun pair_fun ex_t /\ plain ex_t /\
  exists a b, convert ascii_only sort0 pair_fun pair_fun nomacro (Any tt) ex_t = OOk (All [a; b]) /\ a <> b.
Proof.
  split. { constructor; [repeat constructor|]. constructor; [apply lex_head; cbn; lia|constructor]. }
  split. { intros l H. ex_cases H. injection H as ->. reflexivity. }
  split. { split; intros p l args H; ex_cases H. }
  split.
  { split; [|split; [|split]].
    - intros l u l' H. ex_cases H. injection H as ->. intros [<-|[<-|[]]] H2.
      + inversion H2 as [|? c Hc _]; subst. destruct Hc.
      + inversion H2 as [|? c Hc H3]; subst. destruct Hc as [<-|[]]. inversion H3 as [|? c Hc _]; subst. destruct Hc.
    - intros l args H. ex_cases H.
    - intros q vars b l H. ex_cases H. injection H as -> -> ->. intros [E|[]]. discriminate.
    - intros vars c a b l H. ex_cases H. }
  eexists _, _. split; [reflexivity|]. discriminate.
Qed.

(** ** C79: arities *)

Section Arity.
  Context (wide : text -> bool) (csort : nat -> option text)
    (names operators : path -> option jfun) (macros : path -> option jmacro).
  Notation conv := (convert wide csort names operators macros).

  Lemma special_applies f l y k a : special f l = OOk y -> aget y k = Some a -> applies a f l.
  Proof.
    unfold special, rpure. destruct (text_eqb f (str "if")) eqn:E.
    - assert (f = str "if") as -> by (unfold text_eqb in E; destruct (list_eq_dec _ _ _); congruence).
      destruct l as [|c [|u [|v [|? ?]]]]; try discriminate. intros [= <-] [= <-]. constructor.
    - destruct (get_operation _) eqn:Eo; intros [= <-] [= <-]; constructor. exact Eo.
  Qed.
  Lemma declare_args f args out y k d : declare csort f args out = OOk y -> aget y k = Some d ->
    exists l s, d = (f, l, s) /\ List.length l = List.length (match last args (TPlain 0) with TTuple es => es | _ => args end).
  Proof.
    intros E Hd. destruct (rbind_get _ _ _ _ _ E Hd) as (s & u & z & _ & _ & Ez & Hz).
    destruct (args_get _ _ _ _ _ _ Ez Hz) as (m & w & F & [= <-] & [= <-]). exists m, u. split; [reflexivity|]. symmetry. eapply F2_len. exact F.
  Qed.

  (** The applications that agree with the declaration. *)
  Definition matching (f : jfun) (args : list jterm) : Prop :=
    (List.length args = List.length (f_args f) /\ is_tuple_type (last (f_args f) (TPlain 0)) = false) \/
    (exists ts es, f_args f = [TTuple ts] /\ args = [JTuple es] /\ List.length es = List.length ts).

  (** An application of a declared function or name is to the declared symbol and has as many arguments as declared. Partial: the
      last argument has no tuple type, or the only argument is a literal tuple. *)
Theorem C79_operator_partial p f args sh x y k j a d : operators p = Some f -> matching f args ->
    declare_operator wide csort p f = Some (OOk y) -> aget y j = Some d ->
    conv sh (JApp (JFun p) args) = OOk x -> aget x k = Some a ->
    exists g l m s, d = (g, l, s) /\ applies a g m /\ List.length m = List.length l.
  Proof.
    intros Ef Hm Ed Hd Ex Ha. rewrite conv_app in Ex. destruct (args_get _ _ _ _ _ _ Ex Ha) as (m & z & F & Es & Hz).
    unfold declare_operator in Ed. destruct (_ || f_poly f); [discriminate|]. injection Ed as Ed.
    destruct (declare_args _ _ _ _ _ _ Ed Hd) as (l & s & -> & Ll). exists (op_text wide p), l, m, s. split; [reflexivity|].
    split; [eapply special_applies; eauto|]. rewrite Ll, <- (F2_len _ _ _ F), Ef.
    destruct Hm as [(La & Hl)|(ts & es & Et & -> & Le)].
    - assert (T : takes_tuple (Some f) = false).
      { apply not_true_is_false. intros T. apply takes_one in T. destruct T as (g & ts & [= <-] & Et). rewrite Et in Hl. discriminate. }
      rewrite T. destruct (last (f_args f) (TPlain 0)); [discriminate|]. rewrite <- La. destruct args as [|[] ?]; reflexivity.
    - unfold takes_tuple. cbn. rewrite Et. cbn. exact Le.
  Qed.
Theorem C79_name_partial p f args sh x y k j a d : names p = Some f -> matching f args ->
    declare_name wide csort p f = Some (OOk y) -> aget y j = Some d ->
    conv sh (JName p args) = OOk x -> aget x k = Some a ->
    exists g l m s, d = (g, l, s) /\ applies a g m /\ List.length m = List.length l.
  Proof.
    intros Ef Hm Ed Hd Ex Ha. rewrite conv_name in Ex. destruct (args_get _ _ _ _ _ _ Ex Ha) as (m & z & F & Es & Hz).
    unfold declare_name in Ed. destruct (f_poly f); [discriminate|].
    assert (Ed' : declare csort (name_text wide p) (f_args f) (rpure (str "Name")) = OOk y) by congruence.
    destruct (declare_args _ _ _ _ _ _ Ed' Hd) as (l & s & -> & Ll). exists (name_text wide p), l, m, s. split; [reflexivity|].
    split; [eapply special_applies; eauto|]. rewrite Ll, <- (F2_len _ _ _ F), Ef.
    destruct Hm as [(La & Hl)|(ts & es & Et & -> & Le)].
    - assert (T : takes_tuple (Some f) = false).
      { apply not_true_is_false. intros T. apply takes_one in T. destruct T as (g & ts & [= <-] & Et). rewrite Et in Hl. discriminate. }
      rewrite T. destruct (last (f_args f) (TPlain 0)); [discriminate|]. rewrite <- La. destruct args as [|[] ?]; reflexivity.
    - unfold takes_tuple. cbn. rewrite Et. cbn. exact Le.
  Qed.
End Arity.
Print Assumptions C79_operator_partial.
Print Assumptions C79_name_partial.

(** A function of pairs applied to a variable has one argument and is declared with two. *)
Theorem C79_variable_refuted :
  declare_operator ascii_only sort0 encp (mkJFun false [TTuple [TPlain 0; TPlain 0]] (TPlain 0) false) =
    Some (OOk (Any (str "fun_enc", [str "Message"; str "Message"], str "Message"))) /\
  convert ascii_only sort0 nofun pair_fun nomacro (Any tt) (JApp (JFun encp) [JVar vx]) = OOk (Any (AApp (str "fun_enc") [AVar (str "var_x")])).
Proof. split; reflexivity. Qed.
Print Assumptions C79_variable_refuted.

(** A function whose last argument of several is a tuple is declared with the elements of that tuple only. *)
Definition mixed : jfun := mkJFun false [TPlain 0; TTuple [TPlain 0; TPlain 0; TPlain 0]] (TPlain 0) false.
Theorem C79_last_refuted :
  declare_operator ascii_only sort0 encp mixed = Some (OOk (Any (str "fun_enc", [str "Message"; str "Message"; str "Message"], str "Message"))) /\
  exists u v, convert ascii_only sort0 nofun (fun _ => Some mixed) nomacro (Any tt) (JApp (JFun encp) [JVar vx; JTuple [JVar vx; JVar vy; JVar vz]]) =
    OOk (Any (AApp (str "fun_enc") [u; v])).
Proof. split; [reflexivity|]. eexists _, _. reflexivity. Qed.
Print Assumptions C79_last_refuted.

Example C79_example : exists f, matching f [JTuple [JVar vx; JVar vy]] /\
  declare_operator ascii_only sort0 encp f = Some (OOk (Any (str "fun_enc", [str "Message"; str "Message"], str "Message"))) /\
  exists a b, convert ascii_only sort0 nofun (fun _ => Some f) nomacro (Any tt) (JApp (JFun encp) [JTuple [JVar vx; JVar vy]]) =
    OOk (Any (AApp (str "fun_enc") [a; b])).
Proof.
  exists (mkJFun false [TTuple [TPlain 0; TPlain 0]] (TPlain 0) false). split; [right; eexists _, _; repeat split|].
  split; [reflexivity|]. eexists _, _. reflexivity.
Qed.

(** ** C80: the query *)

(** In every alternative, the query given to the prover holds exactly when, for all values of the variables, the hypotheses imply the
    query. The side condition says that the declared [&&] and [=>] do not take a tuple. *)
Theorem C80_query wide csort names operators macros variables hypotheses query x k a :
  ~ one_tuple (operators (mkPath [] (str "&&"))) -> ~ one_tuple (operators (mkPath [] (str "=>"))) ->
  mk_query wide csort names operators macros variables hypotheses query = OOk x -> aget x k = Some a ->
  exists vs hs q,
    Forall2 (fun v b => exists s, csort (j_sort v) = Some s /\ b = (sanitize wide KVariable (j_name v), s)) variables vs /\
    Forall2 (fun h b => exists y, convert wide csort names operators macros (Any tt) h = OOk y /\ aget y k = Some b) hypotheses hs /\
    (exists y, convert wide csort names operators macros (Any tt) query = OOk y /\ aget y k = Some q) /\
    forall E (S : satisfaction E) e, sat S e a <-> (forall e', vary S vs e e' -> Forall (sat S e') hs -> sat S e' q).
Proof.
  intros Hand Himp E Ha. unfold mk_query, query_term in E. cbn [convert] in E.
  destruct (rbind_get _ _ _ _ _ E Ha) as (s & u & y & Es & Hu & Ey & Hy).
  destruct (rbind_get _ _ _ _ _ Ey Hy) as (s2 & vs & y2 & Es2 & Hvs & [= <-] & [= <-]).
  assert (Hv : Forall2 (fun v b => exists s, csort (j_sort v) = Some s /\ b = (sanitize wide KVariable (j_name v), s)) variables vs).
  { destruct (binding_any wide csort (map JVar variables)) as [Eb|(ws & ss & Em & Ec & Eb)]; rewrite Es2 in Eb; [discriminate|].
    injection Eb as ->. cbn in Hvs. injection Hvs as <-.
    assert (ws = variables) as -> by (clear - Em; revert variables Em; induction ws as [|w ws IH]; intros [|v l] Em; cbn in Em; try discriminate; [reflexivity|];
      injection Em as <- Em; f_equal; auto).
    clear - Ec. revert ss Ec. induction variables as [|v l IH]; intros [|s ss] Ec; cbn in Ec; try discriminate; constructor.
    - injection Ec as Ec _. exists s. split; [exact Ec|reflexivity].
    - injection Ec as _ Ec. apply IH. exact Ec. }
  change (convert wide csort names operators macros (Any tt) (JApp (JFun (mkPath [] (str "=>")))
    [fold_left (fun acc t => mk_app "&&" [acc; t]) hypotheses (mk_app "true" []); query]) = OOk s) in Es.
  rewrite conv_app in Es.
  assert (NT : forall f, ~ one_tuple f -> takes_tuple f = false) by (intros f H; apply not_true_is_false; rewrite takes_one; exact H).
  assert (Sel : forall args, sel false args = args) by (intros [|[] ?]; reflexivity).
  rewrite (NT _ Himp), Sel in Es. destruct (args_get _ _ _ _ _ _ Es Hu) as (m & z & F & Ez & Hz).
  inversion F as [|? hyp ? r (y1 & Eh & Hh) Fr]; subst. inversion Fr as [|? q ? r' (y3 & Eq & Hq) Fr']; subst. inversion Fr'; subst.
  change (rpure (AInfix Parser_Model.OImplies [hyp; q]) = OOk z) in Ez. injection Ez as <-. injection Hz as <-.
  assert (H : forall l acc y1 hyp, convert wide csort names operators macros (Any tt) (fold_left (fun acc t => mk_app "&&" [acc; t]) l acc) = OOk y1 ->
    aget y1 k = Some hyp -> exists y0 b hs, convert wide csort names operators macros (Any tt) acc = OOk y0 /\ aget y0 k = Some b /\
    Forall2 (fun h b => exists y, convert wide csort names operators macros (Any tt) h = OOk y /\ aget y k = Some b) l hs /\
    forall E (S : satisfaction E) e, sat S e hyp <-> sat S e b /\ Forall (sat S e) hs).
  { clear - NT Hand Sel. induction l as [|h l IH]; intros acc y1 hyp Eh Hh.
    - exists y1, hyp, []. repeat split; auto; tauto.
    - cbn [fold_left] in Eh. destruct (IH _ _ _ Eh Hh) as (y0 & b & hs & E0 & H0 & F & K). unfold mk_app in E0. rewrite conv_app, (NT _ Hand), Sel in E0.
      destruct (args_get _ _ _ _ _ _ E0 H0) as (m & z & F2 & Ez & Hz).
      inversion F2 as [|? a1 ? r (w1 & Ew1 & Hw1) Fr]; subst. inversion Fr as [|? a2 ? r' (w2 & Ew2 & Hw2) Fr']; subst. inversion Fr'; subst.
      change (rpure (AInfix Parser_Model.OAnd [a1; a2]) = OOk z) in Ez. injection Ez as <-. injection Hz as <-.
      exists w1, a1, (a2 :: hs). split; [exact Ew1|]. split; [exact Hw1|]. split; [constructor; eauto|].
      intros E S e. rewrite K, sat_and. split.
      + intros ((P1 & P2) & P3). split; [exact P1|constructor; auto].
      + intros (P1 & P2). inversion P2; subst. tauto. }
  destruct (H _ _ _ _ Eh Hh) as (y0 & b & hs & E0 & H0 & Fh & K). unfold mk_app in E0. rewrite conv_app in E0.
  change (rpure (AApp (str "true") []) = OOk y0) in E0. injection E0 as <-. injection H0 as <-.
  exists vs, hs, q. split; [exact Hv|]. split; [exact Fh|]. split; [eauto|].
  intros E' S e. rewrite sat_forall. split.
  - intros P e' He Hs. specialize (P e' He). rewrite sat_implies, K in P. apply P. split; [apply sat_true|exact Hs].
  - intros P e' He. rewrite sat_implies, K. intros (_ & Hs). auto.
Qed.
Print Assumptions C80_query.

Example C80_example : exists a b,
  mk_query ascii_only sort0 nofun nofun nomacro [vx; vy] [JAction encp [JVar vx]; d2 (JVar vy) (JVar vx)] (JVar vx) = OOk (All [a; b]) /\ a <> b /\
  ~ one_tuple (nofun (mkPath [] (str "&&"))) /\ ~ one_tuple (nofun (mkPath [] (str "=>"))).
Proof.
  eexists _, _. split; [reflexivity|]. split; [discriminate|]. split; intros (g & ts & H & _); discriminate.
Qed.
(** Classical truth in two elements satisfies [satisfaction]. *)
Fixpoint bool_value (env : text -> bool) (t : aterm) : bool :=
  match t with
  | AApp f [] => if text_eqb f (str "true") then true else env f
  | AInfix Parser_Model.OAnd [a; b] => bool_value env a && bool_value env b
  | AInfix Parser_Model.OImplies [a; b] => implb (bool_value env a) (bool_value env b)
  | AQuant QForall vs b =>
      (fix go (vs : list (text * text)) (env : text -> bool) :=
         match vs with
         | [] => bool_value env b
         | (x, _) :: vs' => go vs' (fun y => if text_eqb y x then true else env y) && go vs' (fun y => if text_eqb y x then false else env y)
         end) vs env
  | _ => false
  end.
Inductive assign : list (text * text) -> (text -> bool) -> (text -> bool) -> Prop :=
| assign_nil env : assign [] env env
| assign_cons x s vs env b env' : assign vs (fun y => if text_eqb y x then b else env y) env' -> assign ((x, s) :: vs) env env'.
Definition bool_satisfaction : satisfaction (text -> bool).
Proof.
  refine (mkSat (text -> bool) (fun env t => bool_value env t = true) assign _ _ _ _).
  - reflexivity.
  - intros e a b. cbn. apply andb_true_iff.
  - intros e a b. cbn. destruct (bool_value e a), (bool_value e b); cbn; split; auto.
  - intros e vs b. cbn. revert e. induction vs as [|[x s] vs IH]; intros e.
    + split; [intros H e' He; inversion He; subst; exact H|]. intros H. apply H. constructor.
    + rewrite andb_true_iff, !IH. split.
      * intros (H1 & H2) e' He. inversion He as [|? ? ? ? c ? Ha]; subst. destruct c; auto.
      * intros H. split; intros e' He; apply H; econstructor; exact He.
Defined.

(** ** C81: inputs of steps *)

Section Inputs.
  Context (wide : text -> bool) (csort : nat -> option text)
    (names operators : path -> option jfun) (macros : path -> option jmacro) (by_position : list (item (list jvar)) -> option action).
  Notation conv := (convert wide csort names operators macros).

  (** The term is put below one [let] for each input variable of the global macro that is not a dummy, the first of them outermost;
      the [j]-th from the end stands for the input of the action at the first [j] positions of the step. *)
Theorem C81_inputs_partial sh a t g x k b :
    prepare_term wide csort names operators macros by_position sh a t (Some (MGlobal g)) = OOk x -> aget x k = Some b ->
    exists body ds, (exists y, conv sh t = OOk y /\ aget y k = Some body) /\ b = lets (rev ds) body /\
      map (fun d => fst (fst d)) ds = map (fun v => sanitize wide KVariable (j_name v)) (rev (filter (fun v => negb (text_eqb (j_name v) (str "$dummy"))) g)) /\
      forall j d, nth_error ds j = Some d -> exists c y,
        by_position (firstn j (a_action a)) = Some c /\
        conv sh (JMacro (mkPath [] (str "input")) [] (JAction (a_name c) (map JVar (flat_map (fun i => snd (i_par i) ++ snd (i_sum i)) (a_action c))))) = OOk y /\
        aget y k = Some (snd d).
  Proof.
    intros E Hb. unfold prepare_term in E. destruct (rbind_get _ _ _ _ _ E Hb) as (s & body & y & Es & Hbody & Ey & Hy).
    change (macro_inputs (MGlobal g)) with (filter (fun v => negb (text_eqb (j_name v) (str "$dummy"))) g) in Ey.
    set (vs := rev (filter _ g)) in *. clearbody vs.
    assert (G : forall vs i acc y e b, bind_inputs wide csort names operators macros by_position sh a i vs acc = OOk y -> aget acc k = Some e -> aget y k = Some b ->
      exists ds, b = lets (rev ds) e /\ map (fun d => fst (fst d)) ds = map (fun v => sanitize wide KVariable (j_name v)) vs /\
      forall j d, nth_error ds j = Some d -> exists c y,
        by_position (firstn (i + j) (a_action a)) = Some c /\
        conv sh (JMacro (mkPath [] (str "input")) [] (JAction (a_name c) (map JVar (flat_map (fun i => snd (i_par i) ++ snd (i_sum i)) (a_action c))))) = OOk y /\
        aget y k = Some (snd d)).
    { clear. induction vs as [|v vs IH]; intros i acc y e b E He Hb.
      - cbn in E. injection E as <-. rewrite He in Hb. injection Hb as <-. exists []. split; [reflexivity|]. split; [reflexivity|].
        intros [|j] d H; discriminate.
      - cbn [bind_inputs] in E. destruct (bind_input _ _ _ _ _ _ _ _ _ _ acc) as [acc'| | |] eqn:Ea; try discriminate. cbn [andthen] in E.
        unfold bind_input in Ea. destruct (Nat.ltb _ _); [discriminate|]. destruct (by_position (firstn i (a_action a))) as [c|] eqn:Ec; [|discriminate].
        destruct (aget acc' k) as [e'|] eqn:He'.
        + destruct (rbind_get _ _ _ _ _ Ea He') as (s1 & t1 & y1 & [= <-] & Ht1 & E1 & H1). rewrite He in Ht1. injection Ht1 as <-.
          destruct (rbind_get _ _ _ _ _ E1 H1) as (s2 & d & y2 & E2 & Hd & E3 & H3).
          destruct (rbind_get _ _ _ _ _ E3 H3) as (s4 & so & y4 & E4 & Hso & [= <-] & [= <-]).
          destruct (IH _ _ _ _ _ E He' Hb) as (ds & -> & Hn & Hds).
          exists (((var_text wide v, so), d) :: ds). split; [|split].
          * cbn [rev]. clear. induction (rev ds) as [|[xx dd] l IHl]; cbn; [reflexivity|]. rewrite IHl. reflexivity.
          * cbn. f_equal. exact Hn.
          * intros [|j] d' Hj.
            -- injection Hj as <-. exists c, s2. rewrite Nat.add_0_r. split; [exact Ec|]. split; [exact E2|exact Hd].
            -- cbn in Hj. destruct (Hds j d' Hj) as (c' & y' & P1 & P2 & P3). exists c', y'. rewrite Nat.add_succ_r. auto.
        + exfalso. clear - E He' Hb. revert i acc' y E He' Hb. induction vs as [|v vs IH]; intros i acc y E Ha Hb.
          * injection E as <-. congruence.
          * cbn [bind_inputs] in E. destruct (bind_input _ _ _ _ _ _ _ _ _ _ acc) as [acc'| | |] eqn:Ea; try discriminate. cbn [andthen] in E.
            unfold bind_input in Ea. destruct (Nat.ltb _ _); [discriminate Ea|]. destruct (by_position (firstn (S i) (a_action a))) as [c|] eqn:Ec; [|discriminate Ea].
            destruct (aget acc' k) as [e'|] eqn:He'; [|eapply IH; eauto].
            destruct (rbind_get _ _ _ _ _ Ea He') as (s1 & t1 & y1 & [= <-] & Ht1 & _). congruence. }
    destruct (G vs 0 (Any body) y body b Ey eq_refl Hy) as (ds & H1 & H2 & H3). exists body, ds. eauto 6.
  Qed.
End Inputs.
Print Assumptions C81_inputs_partial.

(** A protocol of tests/rust/squirrel-json-parsing/full1.json: the first position reads [m'], the fourth reads [m]. In the fourth step, [m'] and
    [m] stand for the inputs of the initial step and of the first, instead of those of the first and of the fourth. *)
Definition pos : item (list jvar) := mkItem (0, []) (0, []).
Definition act (s : string) (n : nat) : action := mkAction (mkPath [] (str s)) (repeat pos n) [] 0.
Definition acts (l : list (item (list jvar))) : option action :=
  nth_error [act "init" 0; act "S1" 1; act "S2" 2; act "S3" 3; act "S4" 4] (List.length l).
Definition vd := mkJVar (str "$dummy") 0.
Definition vm := mkJVar (str "m") 0.
Definition vm' := mkJVar (str "n") 0.
Definition input_at (s : string) : aterm := AApp (str "input") [AApp (str s) []].
Theorem C81_inputs_refuted : exists x,
  prepare_term ascii_only sort0 nofun nofun (fun _ => Some MStructured) acts (Any tt) (act "S4" 4) (JVar vm) (Some (MGlobal [vm; vd; vd; vm'])) = OOk (Any x) /\
  bound_to (str "var_n") x = Some (input_at "init") /\ bound_to (str "var_m") x = Some (input_at "step_S1").
Proof. eexists. split; [reflexivity|]. split; reflexivity. Qed.
Print Assumptions C81_inputs_refuted.
