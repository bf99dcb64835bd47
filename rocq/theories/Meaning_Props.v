(** C88: the conversion of Squirrel terms preserves their meaning. *)
From Coq Require Import List Arith Bool String Ascii Lia Permutation Sorted.
From Verif Require Import Syntax_Model Parser_Model Parser_Infix_Model Smt_Model Squirrel_Model Squirrel_Proofs Utils_Model Utils_Spec
  Convert_Model Convert_Spec Convert_Proofs Meaning_Spec Meaning_Proofs.
Import ListNotations.
Local Open Scope list_scope.

(** The alternative for a system has the value of the term of that system, whenever the symbols agree and the variables have the same
    values. Partial: see [proper_term]; no [diff] stands for the tuple of a function. *)
Theorem C88_meaning_partial : forall wide csort names operators macros systems t x i s D (S : source D) T e e',
  StronglySorted lex systems -> systems_of systems t -> no_diff_tuple names operators t ->
  convert wide csort names operators macros (Any tt) t = OOk x -> nth_error systems i = Some s ->
  agree wide csort names operators macros S T -> proper_term wide names operators macros (side s t) ->
  (forall y, variable_of macros (side s t) y -> e' (sanitize wide KVariable y) = e y) ->
  exists a, aget x i = Some a /\ avalue T e' a = jvalue (global_inputs macros) S e (side s t).
Proof.
  intros wide csort names operators macros systems t x i s D S T e e' Hs H1 H2 Ex Hi AG PR Me.
  pose proof (conv_good wide csort names operators macros systems Hs t (Any tt) (or_introl eq_refl) H1 H2) as G. rewrite Ex in G. destruct G as (_ & G).
  assert (i < List.length systems) as Li by (apply nth_error_Some; congruence). destruct (G i Li) as (a & Ha & Es).
  assert (nth i systems [] = s) as En by (apply nth_error_nth; exact Hi). rewrite En in Es. exists a. split; [exact Ha|].
  eapply value with (k := 0); [exact AG|exact PR| |constructor|exact Me|exact Es|reflexivity].
  apply (side_free systems); [exact (sys_nodup _ Hs)|exact (nth_error_In _ _ Hi)|exact H1].
Qed.
Print Assumptions C88_meaning_partial.

(** ** Readings that agree *)

Definition symb {D} (T : target D) (f : text) (ds : list D) : D :=
  if text_eqb f (str "if") then match ds with [c; l; r] => t_ite T c l r | _ => t_app T f ds end
  else match get_operation (string_of_list_ascii f) with Some o => t_infix T o ds | None => t_app T f ds end.
Lemma symb_symbol {D} (T : target D) f ds : symbol T f ds (symb T f ds).
Proof.
  unfold symbol, symb. split; [|split].
  - intros -> c l r ->. reflexivity.
  - intros o I. unfold spelling in I. cbn [map fst snd] in I.
    repeat (destruct I as [I|I]; [injection I as <- <-; reflexivity|]). contradiction.
  - intros N NS. destruct (text_eqb f (str "if")) eqn:E; [apply teqb_spec in E; contradiction|].
    destruct (get_operation _) as [o|] eqn:Eo; [|reflexivity]. destruct (NS o). apply operation_spelled. exact Eo.
Qed.
(** Every reading of the converted terms gives one of the Squirrel terms; [untuple] inverts tuples. *)
Section Induced.
  Context (wide : text -> bool) (csort : nat -> option text) (names operators : path -> option jfun) (macros : path -> option jmacro).
  Context {D : Type} (T : target D) (untuple : D -> list D).
  Definition tuple_of (ds : list D) : D := fold_left (fun acc d => t_app T (str "pair") [d; acc]) ds (t_app T (str "empty") []).
  Definition sort_of (n : nat) : text := match csort n with Some s => s | None => [] end.
  Definition one_arg (tk : bool) (ds : list D) : list D := if tk then match ds with [d] => untuple d | _ => ds end else ds.
  Definition induced : source D := mkSource D
    (fun p ds => symb T (sanitize wide KFunction (path_text p)) (one_arg (takes_tuple (operators p)) ds))
    (fun p ds => symb T (sanitize wide KName (path_text p)) (one_arg (takes_tuple (names p)) ds))
    (fun p ds d => t_app T (sanitize wide KMacro (path_text p)) (ds ++ [d]))
    (fun p ds is d => t_macro T (sanitize wide KMacro (path_text p)) (ds ++ is ++ [d]))
    (fun p ds => t_app T (sanitize wide KStep (path_text p)) ds)
    tuple_of
    (fun i d => t_app T (str "fst") [Nat.iter (i - 1) (fun x => t_app T (str "snd") [x]) d])
    (fun ns p s d => t_find T (map sort_of ns) p s d) (fun ns p => t_all T (map sort_of ns) p) (fun ns p => t_some T (map sort_of ns) p)
    (t_app T [] []).
  Lemma induced_agree :
    (forall p ds, one_tuple (operators p) -> symb T (sanitize wide KFunction (path_text p)) (untuple (tuple_of ds)) = symb T (sanitize wide KFunction (path_text p)) ds) ->
    (forall p ds, one_tuple (names p) -> symb T (sanitize wide KName (path_text p)) (untuple (tuple_of ds)) = symb T (sanitize wide KName (path_text p)) ds) ->
    (forall p g, operators p = Some g -> f_args g = [] -> symb T (sanitize wide KFunction (path_text p)) [] = t_app T (sanitize wide KFunction (path_text p)) []) ->
    (forall ss p q s t d, (forall ds, p ds = q ds) -> (forall ds, s ds = t ds) ->
       t_find T ss p s d = t_find T ss q t d /\ t_all T ss p = t_all T ss q /\ t_some T ss p = t_some T ss q) ->
    agree wide csort names operators macros induced T.
  Proof.
    intros HF HN HC HE.
    assert (forall ns ss, Forall2 (fun n s => csort n = Some s) ns ss -> map sort_of ns = ss) as HS.
    { intros ns ss F. induction F as [|n s ns ss Hn F IH]; [reflexivity|]. cbn. rewrite IH. unfold sort_of. rewrite Hn. reflexivity. }
    assert (forall f, takes_tuple f = false <-> ~ one_tuple f) as HT.
    { intros f. rewrite <- takes_one. destruct (takes_tuple f); split; intros; congruence. }
    constructor; cbn [induced s_fun s_name s_macro s_global s_action s_tuple s_proj s_find s_all s_some]; try reflexivity.
    - intros p g Ep Eg. unfold one_arg. assert (takes_tuple (operators p) = false) as -> by (rewrite Ep; unfold takes_tuple; cbn; rewrite Eg; reflexivity). eauto.
    - intros p ds H. apply HT in H. rewrite H. apply symb_symbol.
    - intros p ds H. pose proof (proj2 (takes_one _) H) as E. rewrite E. cbn [one_arg]. rewrite (HF p ds H). apply symb_symbol.
    - intros p ds H. apply HT in H. rewrite H. apply symb_symbol.
    - intros p ds H. pose proof (proj2 (takes_one _) H) as E. rewrite E. cbn [one_arg]. rewrite (HN p ds H). apply symb_symbol.
    - intros ds d. unfold tuple_of. rewrite fold_left_app. reflexivity.
    - intros i d Hi. replace (S i - 1) with (S (i - 1)) by lia. rewrite iter_succ. reflexivity.
    - intros ns ss p q s t d F E1 E2. rewrite (HS _ _ F). apply (HE ss p q s t d E1 E2).
    - intros ns ss p q F E. rewrite (HS _ _ F). apply (HE ss p q p q (t_app T [] []) E E).
    - intros ns ss p q F E. rewrite (HS _ _ F). apply (HE ss p q p q (t_app T [] []) E E).
  Qed.
End Induced.

(** ** A case *)

Definition wide0 : text -> bool := fun _ => true.
Definition sort1 : nat -> option text := fun _ => Some (str "Message").
Definition vx1 : jvar := mkJVar (str "x") 0.
Definition vy1 : jvar := mkJVar (str "y") 0.
Definition binary : path -> option jfun := fun _ => Some (mkJFun false [TPlain 0; TPlain 0] (TPlain 0) false).
Definition no_macro : path -> option jmacro := fun _ => None.
Fixpoint bits (n : nat) : list (list nat) := match n with 0 => [[]] | S n => map (cons 0) (bits n) ++ map (cons 1) (bits n) end.
Definition of_b (b : bool) : nat := if b then 1 else 0.
Definition bit_target : target nat := mkTarget nat
  (fun f ds => fold_right Nat.add 0 ds)
  (fun o ds => match o with
               | OAnd => of_b (forallb (Nat.eqb 1) ds)
               | OOr => of_b (existsb (Nat.eqb 1) ds)
               | OEq => match ds with [a; b] => of_b (Nat.eqb a b) | _ => 0 end
               | _ => 0
               end)
  (fun c l r => if Nat.eqb c 1 then l else r) (fun _ ds => fold_right Nat.add 0 ds)
  (fun ss p s d => match find (fun ds => Nat.eqb (p ds) 1) (bits (List.length ss)) with Some ds => s ds | None => d end)
  (fun ss p => of_b (forallb (fun ds => Nat.eqb (p ds) 1) (bits (List.length ss))))
  (fun ss p => of_b (existsb (fun ds => Nat.eqb (p ds) 1) (bits (List.length ss)))).
Lemma bit_agree : agree wide0 sort1 binary binary no_macro (induced wide0 sort1 binary binary bit_target (fun _ => [])) bit_target.
Proof.
  apply induced_agree.
  - intros p ds (g & ts & E & F). injection E as <-. discriminate F.
  - intros p ds (g & ts & E & F). injection E as <-. discriminate F.
  - intros p g E F. injection E as <-. discriminate F.
  - intros ss p q s t d E E'. cbn. repeat split.
    + replace (find (fun ds => Nat.eqb (p ds) 1) (bits (List.length ss))) with (find (fun ds => Nat.eqb (q ds) 1) (bits (List.length ss))).
      { destruct (find _ _); auto. }
      induction (bits _) as [|b l IH]; [reflexivity|]. cbn. rewrite E, IH. reflexivity.
    + f_equal. induction (bits _) as [|b l IH]; [reflexivity|]. cbn. rewrite E, IH. reflexivity.
    + f_equal. induction (bits _) as [|b l IH]; [reflexivity|]. cbn. rewrite E, IH. reflexivity.
Qed.

(** On the left [find x such that x = y in x else (y + y)], on the right [exists x, x = y]; plus [y]. *)
Definition eqxy : jterm := JApp (JFun (mkPath [] (str "="))) [JVar vx1; JVar vy1].
Definition plus (a b : jterm) : jterm := JApp (JFun (mkPath [] (str "plus"))) [a; b].
Definition left_t : jterm := JFind [JVar vx1] eqxy (JVar vx1) (plus (JVar vy1) (JVar vy1)).
Definition right_t : jterm := JQuant JExists [JVar vx1] eqxy.
Definition ex_diff : jterm := plus (JDiff [(str "right", right_t); (str "left", left_t)]) (JVar vy1).
Lemma ex_sub1 u : sub u (plus left_t (JVar vy1)) -> u = plus left_t (JVar vy1) \/ u = left_t \/ u = eqxy \/ u = plus (JVar vy1) (JVar vy1) \/ u = JVar vx1 \/ u = JVar vy1 \/
  u = JFun (mkPath [] (str "=")) \/ u = JFun (mkPath [] (str "plus")).
Proof.
  assert (V : forall v, sub u (JVar v) -> u = JVar v) by (intros v H; inversion H as [|? c Hc _]; subst; [reflexivity|destruct Hc]).
  assert (F : forall v, sub u (JFun v) -> u = JFun v) by (intros v H; inversion H as [|? c Hc _]; subst; [reflexivity|destruct Hc]).
  assert (P : sub u (plus (JVar vy1) (JVar vy1)) -> u = plus (JVar vy1) (JVar vy1) \/ u = JVar vy1 \/ u = JFun (mkPath [] (str "plus"))).
  { intros H. inversion H as [|? c Hc H1]; subst; [auto|]. destruct Hc as [<-|[<-|[<-|[]]]]; [apply F in H1|apply V in H1|apply V in H1]; auto. }
  assert (Q : sub u eqxy -> u = eqxy \/ u = JVar vx1 \/ u = JVar vy1 \/ u = JFun (mkPath [] (str "="))).
  { intros H. inversion H as [|? c Hc H1]; subst; [auto|]. destruct Hc as [<-|[<-|[<-|[]]]]; [apply F in H1|apply V in H1|apply V in H1]; auto. }
  intros H. inversion H as [|? c Hc H1]; subst; [auto|]. destruct Hc as [<-|[<-|[<-|[]]]]; [apply F in H1; auto 9| |apply V in H1; auto 9].
  inversion H1 as [|? c Hc H2]; subst; [auto|]. destruct Hc as [<-|[<-|[<-|[<-|[]]]]].
  - apply V in H2. auto 9.
  - apply Q in H2. intuition auto.
  - apply V in H2. auto 9.
  - apply P in H2. intuition auto.
Qed.
Lemma ex_proper : proper_term wide0 binary binary no_macro (plus left_t (JVar vy1)).
Proof.
  assert (NT : forall p, ~ one_tuple (binary p)) by (intros p (g & ts & E & F); injection E as <-; discriminate F).
  assert (VS : forall x, variable_of no_macro (plus left_t (JVar vy1)) x -> x = str "x" \/ x = str "y").
  { intros x [(v & H & ->)|(p & a & ts & l & _ & E & _)]; [|discriminate E].
    apply ex_sub1 in H. repeat (destruct H as [H|H]; [try discriminate H; injection H as ->; auto|]); discriminate H. }
  constructor.
  - intros p args _ H. destruct (NT _ H).
  - intros p args _ H. destruct (NT _ H).
  - intros i b H. apply ex_sub1 in H. repeat (destruct H as [H|H]; [discriminate H|]). discriminate H.
  - intros p args ts _ H. discriminate H.
  - intros x y Hx Hy. apply VS in Hx as [->| ->]; apply VS in Hy as [->| ->]; intros E; try reflexivity; discriminate E.
Qed.
Lemma ex_systems : systems_of [str "left"; str "right"] ex_diff.
Proof.
  assert (N : forall l t, (forall u, In u (parts t) -> ~ sub (JDiff l) u) -> (forall l, t <> JDiff l) -> ~ sub (JDiff l) t).
  { intros l t H1 H2 H. inversion H as [|? c Hc H3]; subst; [eapply H2; reflexivity|]. exact (H1 c Hc H3). }
  assert (V : forall l v, ~ sub (JDiff l) (JVar v)) by (intros; apply N; [intros u []|discriminate]).
  assert (F : forall l v, ~ sub (JDiff l) (JFun v)) by (intros; apply N; [intros u []|discriminate]).
  assert (Q : forall l, ~ sub (JDiff l) eqxy).
  { intros l. apply N; [|discriminate]. intros u [<-|[<-|[<-|[]]]]; auto. }
  assert (P : forall l, ~ sub (JDiff l) (plus (JVar vy1) (JVar vy1))).
  { intros l. apply N; [|discriminate]. intros u [<-|[<-|[<-|[]]]]; auto. }
  assert (A : forall l, ~ sub (JDiff l) left_t).
  { intros l. apply N; [|discriminate]. intros u [<-|[<-|[<-|[<-|[]]]]]; auto. }
  assert (B : forall l, ~ sub (JDiff l) right_t).
  { intros l. apply N; [|discriminate]. intros u [<-|[<-|[]]]; auto. }
  intros l H. inversion H as [|? c Hc H1]; subst. destruct Hc as [<-|[<-|[<-|[]]]]; [destruct (F _ _ H1)| |destruct (V _ _ H1)].
  inversion H1 as [|? c Hc H2]; subst; [apply perm_swap|]. destruct Hc as [<-|[<-|[]]]; [destruct (B _ H2)|destruct (A _ H2)].
Qed.
Example C88_example : StronglySorted lex [str "left"; str "right"] /\ systems_of [str "left"; str "right"] ex_diff /\
  no_diff_tuple binary binary ex_diff /\ side (str "left") ex_diff = plus left_t (JVar vy1) /\
  agree wide0 sort1 binary binary no_macro (induced wide0 sort1 binary binary bit_target (fun _ => [])) bit_target /\
  proper_term wide0 binary binary no_macro (side (str "left") ex_diff) /\
  (exists x a, convert wide0 sort1 binary binary no_macro (Any tt) ex_diff = OOk x /\ aget x 0 = Some a /\
    avalue bit_target (fun _ => 1) a = 2 /\ avalue bit_target (fun _ => 5) a = 15).
Proof.
  split. { constructor; [repeat constructor|]. constructor; [apply lex_head; cbn; lia|constructor]. }
  split; [exact ex_systems|]. split; [split; intros p l args _ (g & ts & E & F); injection E as <-; discriminate F|].
  split; [reflexivity|]. split; [exact bit_agree|]. split; [exact ex_proper|]. eexists _, _. repeat split.
Qed.

(** ** What is not preserved *)

(** A function taking a tuple and applied to something else, a variable here, is converted to a function of one argument. *)
Definition enc1 : path := mkPath [] (str "enc").
Definition on_pairs (p : path) : option jfun :=
  if text_eqb (path_text p) (str "enc") then Some (mkJFun false [TTuple [TPlain 0; TPlain 0]] (TPlain 0) false) else None.
Definition length_target : target nat := mkTarget nat
  (fun f ds => if text_eqb f (str "pair") then match ds with [_; n] => S n | _ => 0 end else List.length ds)
  (fun _ ds => List.length ds) (fun _ _ _ => 3) (fun _ ds => List.length ds) (fun _ _ _ _ => 0) (fun _ _ => 0) (fun _ _ => 0).
Theorem C88_refuted : exists (S : source nat) T t a e,
  agree wide0 sort1 (fun _ => None) on_pairs no_macro S T /\ t = JApp (JFun enc1) [JVar vx1] /\
  convert wide0 sort1 (fun _ => None) on_pairs no_macro (Any tt) t = OOk (Any a) /\
  avalue T (fun _ => e) a <> jvalue (global_inputs no_macro) S (fun _ => e) t.
Proof.
  exists (induced wide0 sort1 (fun _ => None) on_pairs length_target (repeat 0)), length_target. eexists _, _, 2.
  split; [|split; [reflexivity|split; [reflexivity|]]].
  - apply induced_agree.
    + intros p ds (g & ts & E & F). unfold on_pairs in E. destruct (text_eqb (path_text p) (str "enc")) eqn:Ep; [|discriminate E].
      apply teqb_spec in Ep. rewrite Ep. change (symb length_target (sanitize wide0 KFunction (str "enc")) ds) with (List.length ds).
      transitivity (List.length (repeat 0 (tuple_of length_target ds))); [reflexivity|]. rewrite repeat_length.
      induction ds as [|d ds IH] using rev_ind; [reflexivity|]. unfold tuple_of in *. rewrite fold_left_app, app_length. cbn [fold_left List.length].
      rewrite Nat.add_1_r, <- IH. reflexivity.
    + intros p ds (g & ts & E & F). discriminate E.
    + intros p g E F. unfold on_pairs in E. destruct (text_eqb _ _); [injection E as <-; discriminate F|discriminate E].
    + intros ss p q s t d E E'. auto.
  - vm_compute. discriminate.
Qed.
Print Assumptions C88_refuted.
