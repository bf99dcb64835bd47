From Coq Require Import List Arith Bool String Ascii Lia Permutation Sorted.
From Verif Require Import Syntax_Model Parser_Model Parser_Infix_Model Smt_Model Squirrel_Model Squirrel_Proofs Utils_Model Utils_Spec
  Convert_Model Convert_Spec Convert_Proofs Meaning_Spec.
Import ListNotations.
Local Open Scope list_scope.

Lemma of_to (f : text) : str (string_of_list_ascii f) = f.
Proof. unfold str. apply list_ascii_of_string_of_list_ascii. Qed.
Lemma operation_spelled f o : get_operation (string_of_list_ascii f) = Some o -> In (f, o) spelling.
Proof.
  unfold get_operation. intros H. apply find_some in H as [_ H]. apply existsb_exists in H as [s [Hs E]]. apply String.eqb_eq in E.
  assert (f = str s) as -> by (rewrite <- E; symmetry; apply of_to).
  destruct o; cbn in Hs; repeat (destruct Hs as [<-|Hs]; [cbn; tauto|]); contradiction.
Qed.
Lemma not_spelled f : get_operation (string_of_list_ascii f) = None -> forall o, ~ In (f, o) spelling.
Proof.
  intros H o I. unfold spelling in I. cbn [map fst snd] in I.
  repeat (destruct I as [I|I]; [injection I as <- <-; discriminate H|]). contradiction.
Qed.

Section Values.
  Context {D : Type} (T : target D).
  Notation av := (avalue T).

  Lemma av_app e f l : av e (AApp f l) = t_app T f (map (av e) l).
  Proof. reflexivity. Qed.

  Lemma special_value e f l y k a d : special f l = OOk y -> aget y k = Some a -> symbol T f (map (av e) l) d -> av e a = d.
  Proof.
    intros Es Ha [H1 [H2 H3]]. unfold special in Es. destruct (text_eqb f (str "if")) eqn:E.
    - apply teqb_spec in E. destruct l as [|c [|u [|v [|? ?]]]]; try discriminate Es. injection Es as <-. cbn in Ha. injection Ha as <-.
      cbn [avalue]. symmetry. apply (H1 E). reflexivity.
    - assert (f <> str "if") as NF by (intros X; rewrite X in E; discriminate E).
      destruct (get_operation _) as [o|] eqn:Eo; injection Es as <-; cbn in Ha; injection Ha as <-.
      + cbn [avalue]. symmetry. apply H2. apply operation_spelled. exact Eo.
      + rewrite av_app. symmetry. apply (H3 NF). apply not_spelled. exact Eo.
  Qed.

  Lemma pairs_value (S : source D) e m ds : s_tuple S [] = t_app T (str "empty") [] ->
    (forall ds d, s_tuple S (ds ++ [d]) = t_app T (str "pair") [d; s_tuple S ds]) ->
    Forall2 (fun d b => av e b = d) ds m -> av e (fold_left (fun acc b => AApp n_pair [b; acc]) m (AApp n_empty [])) = s_tuple S ds.
  Proof.
    intros E0 E1. revert ds. induction m as [|b m IH] using rev_ind; intros ds F.
    - inversion F; subst. cbn [fold_left]. rewrite av_app. symmetry. exact E0.
    - apply Forall2_app_inv_r in F as [ds1 [ds2 [F1 [F2 ->]]]]. inversion F2 as [|d ? ? ? Hb F3]; subst. inversion F3; subst.
      rewrite fold_left_app. cbn [fold_left]. rewrite E1, <- (IH _ F1). reflexivity.
  Qed.

  Lemma proj_value (S : source D) e j u d :
    (forall d, s_proj S 1 d = t_app T (str "fst") [d]) -> (forall i d, 1 <= i -> s_proj S (Datatypes.S i) d = s_proj S i (t_app T (str "snd") [d])) ->
    av e u = d -> av e (AApp n_fst [Nat.iter j (fun a => AApp n_snd [a]) u]) = s_proj S (Datatypes.S j) d.
  Proof.
    intros E1 E2 <-. revert u. induction j as [|j IH]; intros u.
    - cbn [Nat.iter nat_rect]. rewrite E1. reflexivity.
    - rewrite iter_succ, IH, (E2 (Datatypes.S j)) by lia. reflexivity.
  Qed.
End Values.

Lemma assign_matches {D} (V : text -> Prop) (san : text -> text) (e e' : text -> D) xs :
  (forall x y, V x -> V y -> san x = san y -> x = y) -> (forall x, In x xs -> V x) -> (forall x, V x -> e' (san x) = e x) ->
  forall ds x, V x -> assign (map san xs) ds e' (san x) = assign xs ds e x.
Proof.
  intros INJ. revert e e'. induction xs as [|y xs IH]; intros e e' HV M ds x Vx; cbn [map]; [destruct ds; cbn; auto|]. destruct ds as [|d ds]; cbn [assign]; [auto|].
  apply IH; [intros z Hz; apply HV; right; exact Hz| |exact Vx]. intros z Vz.
  destruct (list_eq_dec ascii_dec (san z) (san y)) as [Es|Es], (list_eq_dec ascii_dec z y) as [E|E]; auto.
  - exfalso. apply E. apply INJ; auto. apply HV. left. reflexivity.
  - exfalso. apply Es. congruence.
Qed.

Section Convert.
  Context (wide : text -> bool) (csort : nat -> option text) (names operators : path -> option jfun) (macros : path -> option jmacro).
  Context {D : Type} (S : source D) (T : target D).
  Hypothesis AG : agree wide csort names operators macros S T.
  Notation conv := (convert wide csort names operators macros).
  Notation jv := (jvalue (global_inputs macros) S).
  Notation av := (avalue T).
  Notation san := (sanitize wide KVariable).
  Variable t0 : jterm.
  Hypothesis PR : proper_term wide names operators macros t0.
  Hypothesis DF : diff_free t0.
  Definition matched (e e' : text -> D) : Prop := forall x, variable_of macros t0 x -> e' (san x) = e x.

  Lemma inputs_of p l : macros p = Some (MGlobal l) -> global_inputs macros p = Some (map j_name (macro_inputs (MGlobal l))).
  Proof.
    intros H. unfold global_inputs. rewrite H. f_equal. f_equal. cbn [macro_inputs]. apply filter_ext. intros v. unfold is_dummy.
    change (str "$dummy") with dummy. destruct (list_eq_dec ascii_dec (j_name v) dummy) as [->|N]; [rewrite teqb_refl; reflexivity|].
    destruct (text_eqb (j_name v) dummy) eqn:E; [|reflexivity]. apply teqb_spec in E. contradiction.
  Qed.

  Lemma F2_values (R : jterm -> aterm -> Prop) l m e e' : (forall u b, In u l -> R u b -> av e' b = jv e u) -> Forall2 R l m ->
    map (av e') m = map (jv e) l.
  Proof.
    intros H F. induction F as [|u b l m Hub F IH]; [reflexivity|]. cbn. rewrite IH by (intros; apply H; auto; right; assumption).
    rewrite (H u b (or_introl eq_refl) Hub). reflexivity.
  Qed.

  Lemma sub_in c t : sub t t0 -> In c (parts t) -> sub c t0.
  Proof. intros H I. eapply sub_trans; [apply sub_part; exact I|exact H]. Qed.

  Lemma bound_binding vars x k vs : binding wide csort vars = OOk x -> aget x k = Some vs ->
    exists ws, vars = map JVar ws /\ map fst vs = map san (map bound_name vars) /\ Forall2 (fun n s => csort n = Some s) (map bound_sort vars) (map snd vs).
  Proof.
    intros E H. destruct (binding_any wide csort vars) as [E'|(ws & ss & -> & Es & E')]; rewrite E in E'; [discriminate|]. injection E' as ->.
    cbn in H. injection H as <-. exists ws. split; [reflexivity|]. assert (List.length ws = List.length ss) as L.
    { apply (f_equal (@List.length _)) in Es. rewrite !map_length in Es. exact Es. }
    rewrite !map_map. cbn [bound_name bound_sort]. clear E. revert ss Es L. clear. induction ws as [|w ws IH]; intros [|s ss] Es L; try discriminate L.
    - split; [reflexivity|constructor].
    - cbn in Es. injection Es as E1 E2. destruct (IH ss E2 ltac:(cbn in L; lia)) as [A B]. cbn. split; [f_equal; exact A|constructor; assumption].
  Qed.

  Theorem value t : sub t t0 -> forall sh k x a e e', matched e e' -> conv sh t = OOk x -> aget x k = Some a -> av e' a = jv e t.
  Proof.
    induction t as [t IH] using sub_ind'. intros Ht sh k x a e e' Me Ex Ha.
    assert (IHs : forall c u, In c (parts t) -> sub u c -> forall sh k x a e e', matched e e' -> conv sh u = OOk x -> aget x k = Some a -> av e' a = jv e u).
    { intros c u Hc Hu. apply (IH c u Hc Hu). eapply sub_trans; [exact Hu|]. eapply sub_in; eauto. }
    clear IH.
    assert (IHl : forall l m sh k, (forall u, In u l -> exists c, In c (parts t) /\ sub u c) ->
              Forall2 (fun t b => exists z, conv sh t = OOk z /\ aget z k = Some b) l m -> map (av e') m = map (jv e) l).
    { intros l m sh1 k1 Hl F. eapply F2_values; [|exact F]. intros u b Iu (z & Ez & Hz). destruct (Hl u Iu) as (c & Hc & Hu). eapply IHs; eauto. }
    assert (BV : forall (vars : list jterm) (vs : list (text * text)), (forall v, In v vars -> In v (parts t)) -> (exists ws, vars = map JVar ws) -> map fst vs = map san (map bound_name vars) ->
              forall ds, matched (assign (map bound_name vars) ds e) (assign (map fst vs) ds e')).
    { intros vars vs Hp (ws & Ew) -> ds y Vy. apply (assign_matches (variable_of macros t0)); auto.
      - intros y1 y2. apply (pr_vars _ _ _ _ _ PR).
      - intros y1 I1. apply in_map_iff in I1 as (v & <- & Iv). left. assert (exists w, v = JVar w) as (w & ->).
        { rewrite Ew in Iv. apply in_map_iff in Iv as (w & <- & _). eauto. }
        exists w. split; [|reflexivity]. eapply sub_in; [exact Ht|]. auto. }
    destruct t as [f args|p|p args|p args ts|p args|v|x1 d b|l|i b|l|vars c s f|q vars b].
    - (* application *)
      destruct f as [|p| | | | | | | | | |]; try discriminate Ex. rewrite conv_app in Ex.
      destruct (args_get _ _ _ _ _ _ Ex Ha) as (m & y & F & Es & Hy). cbn [jvalue].
      assert (sub (JFun p) t0) as SF by (eapply sub_in; [exact Ht|left; reflexivity]).
      apply (special_value T e' _ _ _ _ _ _ Es Hy).
      destruct (takes_tuple (operators p)) eqn:Et.
      + apply takes_one in Et. destruct (pr_fun _ _ _ _ _ PR p args Ht Et) as (es & ->). cbn [sel] in F.
        rewrite (IHl es m sh k); [apply (ag_fun_tuple _ _ _ _ _ _ _ AG); exact Et| |exact F].
        intros u Iu. exists (JTuple es). split; [right; left; reflexivity|apply sub_part; exact Iu].
      + assert (sel false args = args) as Esel by (destruct args as [|[] ?]; reflexivity). rewrite Esel in F.
        rewrite (IHl args m sh k); [apply (ag_fun _ _ _ _ _ _ _ AG)| |exact F].
        * intros Ho. apply takes_one in Ho. congruence.
        * intros u Iu. exists u. split; [right; exact Iu|constructor].
    - (* function *)
      cbn [convert] in Ex. destruct (operators p) as [g|] eqn:Eg; [|discriminate]. cbn in Ex.
      destruct (f_args g) eqn:Ef; [|discriminate]. injection Ex as <-. cbn in Ha. injection Ha as <-. cbn [jvalue].
      rewrite av_app. symmetry. eapply (ag_const _ _ _ _ _ _ _ AG); eauto.
    - (* name *)
      rewrite conv_name in Ex. destruct (args_get _ _ _ _ _ _ Ex Ha) as (m & y & F & Es & Hy). cbn [jvalue].
      apply (special_value T e' _ _ _ _ _ _ Es Hy).
      destruct (takes_tuple (names p)) eqn:Et.
      + apply takes_one in Et. destruct (pr_name _ _ _ _ _ PR p args Ht Et) as (es & ->). cbn [sel] in F.
        rewrite (IHl es m sh k); [apply (ag_name_tuple _ _ _ _ _ _ _ AG); exact Et| |exact F].
        intros u Iu. exists (JTuple es). split; [left; reflexivity|apply sub_part; exact Iu].
      + assert (sel false args = args) as Esel by (destruct args as [|[] ?]; reflexivity). rewrite Esel in F.
        rewrite (IHl args m sh k); [apply (ag_name _ _ _ _ _ _ _ AG)| |exact F].
        * intros Ho. apply takes_one in Ho. congruence.
        * intros u Iu. exists u. split; [exact Iu|constructor].
    - (* macro *)
      rewrite conv_macro in Ex. destruct (macros p) as [mm|] eqn:Em; [|discriminate].
      destruct (args_get _ _ _ _ _ _ Ex Ha) as (m & y & F & Es & Hy). injection Es as <-. cbn in Hy. injection Hy as <-. cbn [jvalue].
      assert (forall l, (forall l', mm <> MGlobal l') -> macro_args mm args ts = l ++ [ts] -> l = args -> av e' (macro_app mm (macro_text wide p) m) =
                match global_inputs macros p with
                | Some inputs => s_global S p (map (jv e) args) (map e inputs) (jv e ts)
                | None => s_macro S p (map (jv e) args) (jv e ts)
                end) as PLAIN.
      { intros l Hm El ->. rewrite El in F. unfold global_inputs. rewrite Em. assert (map (av e') m = map (jv e) args ++ [jv e ts]) as Emap.
        { rewrite (IHl (args ++ [ts]) m sh k); [rewrite map_app; reflexivity| |exact F].
          intros u Iu. exists u. split; [|constructor]. apply in_app_iff in Iu as [Iu|[<-|[]]]; [right; exact Iu|left; reflexivity]. }
        destruct mm; try (exfalso; eapply Hm; reflexivity); cbn [macro_app]; rewrite av_app; rewrite Emap;
          symmetry; apply (ag_macro _ _ _ _ _ _ _ AG p _ _ _ Em); exact Hm. }
      destruct mm as [| | |inputs].
      + pose proof (pr_macro _ _ _ _ _ PR p args ts Ht Em) as ->. apply (PLAIN []); [discriminate|reflexivity|reflexivity].
      + apply (PLAIN args); [discriminate|reflexivity|reflexivity].
      + apply (PLAIN args); [discriminate|reflexivity|reflexivity].
      + clear PLAIN. rewrite (inputs_of p inputs Em). cbn [macro_app avalue]. rewrite (ag_global _ _ _ _ _ _ _ AG p inputs) by exact Em. unfold macro_text.
        f_equal. cbn [macro_args] in F. apply Forall2_app_inv_l in F as (m1 & m2 & F1 & F2 & ->). apply Forall2_app_inv_l in F2 as (m3 & m4 & F3 & F4 & ->).
        rewrite !map_app. f_equal; [apply (IHl args m1 sh k); [|exact F1]|f_equal].
        * intros u Iu. exists u. split; [right; exact Iu|constructor].
        * assert (forall w, In w (macro_inputs (MGlobal inputs)) -> variable_of macros t0 (j_name w)) as Vw.
          { intros w Iw. right. exists p, args, ts. eexists. split; [exact Ht|]. split; [apply (inputs_of p inputs Em)|]. apply in_map. exact Iw. }
          clear - F3 Vw Me PR. revert m3 F3. induction (macro_inputs (MGlobal inputs)) as [|w ws IHw]; intros m3 F3; inversion F3 as [|? b ? m5 (z & Ez & Hz) F5]; subst; [reflexivity|].
          cbn in Ez. injection Ez as <-. cbn in Hz. injection Hz as <-. cbn [map]. f_equal.
          -- unfold variable. cbn [avalue]. unfold var_text. apply Me. apply Vw. left. reflexivity.
          -- apply IHw; [|exact F5]. intros w' Iw. apply Vw. right. exact Iw.
        * apply (IHl [ts] m4 sh k); [|exact F4]. intros u [<-|[]]. exists ts. split; [left; reflexivity|constructor].
    - (* action *)
      cbn [convert] in Ex. destruct (args_get _ _ _ _ _ _ Ex Ha) as (m & y & F & Es & Hy). injection Es as <-. cbn in Hy. injection Hy as <-. cbn [jvalue].
      rewrite av_app. rewrite (ag_action _ _ _ _ _ _ _ AG). unfold action_text. f_equal.
      apply (IHl args m sh k); [|exact F]. intros u Iu. exists u. split; [exact Iu|constructor].
    - (* variable *)
      cbn [convert] in Ex. injection Ex as <-. cbn in Ha. injection Ha as <-. cbn [jvalue variable avalue]. unfold variable, var_text. cbn [avalue].
      assert (variable_of macros t0 (j_name v)) as Vv by (left; exists v; auto). apply Me. exact Vv.
    - discriminate Ex.
    - (* tuple *)
      rewrite conv_tuple in Ex. destruct (tfold_get _ _ _ _ _ _ Ex Ha) as (e1 & m & He & F & ->). cbn in He. injection He as <-. cbn [jvalue].
      apply pairs_value; [apply (ag_empty _ _ _ _ _ _ _ AG)|apply (ag_tuple _ _ _ _ _ _ _ AG)|].
      assert (forall u, In u l -> exists c, In c (parts (JTuple l)) /\ sub u c) as Hl by (intros u Iu; exists u; split; [exact Iu|constructor]).
      clear - F IHs Hl Me. induction F as [|u b l m (z & Ez & Hz) F IHF]; [constructor|]. cbn. constructor.
      + destruct (Hl u (or_introl eq_refl)) as (c & Ic & Sc). eapply IHs; eauto.
      + apply IHF; [|]. 2: { intros u' Iu'. exists u'. split; [exact Iu'|constructor]. }
        intros c u' Ic Su. apply (IHs c u'); [right; exact Ic|exact Su].
    - (* projection *)
      cbn [convert] in Ex. destruct (rbind_get _ _ _ _ _ Ex Ha) as (s1 & u & y & E1 & Hu & Ey & Hy). injection Ey as <-. cbn in Hy. injection Hy as <-.
      destruct (iter_snd_get _ _ _ _ _ E1 Hu) as (s2 & u2 & E2 & Hu2 & ->). cbn [jvalue].
      pose proof (pr_proj _ _ _ _ _ PR i b Ht) as Hi.
      transitivity (s_proj S (Datatypes.S (i - 1)) (jv e b)); [|f_equal; lia].
      apply (proj_value T S e' (i - 1) u2 (jv e b)); [apply (ag_first _ _ _ _ _ _ _ AG)|apply (ag_next _ _ _ _ _ _ _ AG)|].
      eapply (IHs b b); eauto; [left; reflexivity|constructor].
    - exfalso. apply (DF l). exact Ht.
    - (* find *)
      cbn [convert] in Ex. destruct (rbind_get _ _ _ _ _ Ex Ha) as (sc & c' & y1 & Ec & Hc & E1 & H1).
      destruct (rbind_get _ _ _ _ _ E1 H1) as (ss & s' & y2 & Es & Hs & E2 & H2).
      destruct (rbind_get _ _ _ _ _ E2 H2) as (sf & f' & y3 & Ef & Hf & E3 & H3).
      destruct (rbind_get _ _ _ _ _ E3 H3) as (sv & vs & y4 & Ev & Hv & E4 & H4). injection E4 as <-. cbn in H4. injection H4 as <-.
      destruct (bound_binding _ _ _ _ Ev Hv) as (ws & Ew & En & Eso). cbn [jvalue avalue].
      pose proof (BV vars vs ltac:(intros v Iv; apply in_app_iff; left; exact Iv) (ex_intro _ ws Ew) En) as MB.
      replace (jv e f) with (av e' f'); [symmetry; apply (ag_find _ _ _ _ _ _ _ AG); [exact Eso| |]|].
      + intros ds. symmetry. eapply (IHs c c); eauto; [|constructor]. cbn. apply in_app_iff. cbn. auto.
      + intros ds. symmetry. eapply (IHs s s); eauto; [|constructor]. cbn. apply in_app_iff. cbn. auto.
      + eapply (IHs f f); eauto; [|constructor]. cbn. apply in_app_iff. cbn. auto.
    - (* quantifiers *)
      cbn [convert] in Ex.
      assert (Q : exists k0, match q with JForAll => k0 = QForall | JExists => k0 = QExists | _ => False end /\
                  rbind (conv sh b) (fun b' => rbind (binding wide csort vars) (fun vs => rpure (AQuant k0 vs b'))) = OOk x).
      { destruct q; try discriminate Ex; eauto. }
      destruct Q as (k0 & Q & Er). clear Ex. destruct (rbind_get _ _ _ _ _ Er Ha) as (sb & b' & y1 & Eb & Hb & E1 & H1).
      destruct (rbind_get _ _ _ _ _ E1 H1) as (sv & vs & y2 & Ev & Hv & E2 & H2). injection E2 as <-. cbn in H2. injection H2 as <-.
      destruct (bound_binding _ _ _ _ Ev Hv) as (ws & Ew & En & Eso).
      pose proof (BV vars vs ltac:(intros v Iv; apply in_app_iff; left; exact Iv) (ex_intro _ ws Ew) En) as MB.
      assert (forall ds, jv (assign (map bound_name vars) ds e) b = av (assign (map fst vs) ds e') b') as EQ.
      { intros ds. symmetry. eapply (IHs b b); eauto; [|constructor]. cbn. apply in_app_iff. cbn. auto. }
      destruct q; try contradiction; subst k0; cbn [jvalue avalue]; symmetry;
        [apply (ag_all _ _ _ _ _ _ _ AG)|apply (ag_some _ _ _ _ _ _ _ AG)]; assumption.
  Qed.
End Convert.
