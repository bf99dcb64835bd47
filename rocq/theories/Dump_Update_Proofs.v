(** Proofs about the updates of converted actions (C107). *)
From Coq Require Import List Arith Bool String Ascii Lia Permutation Sorted.
From Verif Require Import Syntax_Model Traversal_Spec Semantics_Spec Semantics_Proofs Sort_Model Order_Model Macro_Model Parser_Model Parser_Infix_Model Parser_Spec Parser_Proofs Source_Model Source_Spec Source_Problem_Spec Source_Proofs
  Smt_Model Squirrel_Model Squirrel_Spec Squirrel_Proofs Utils_Model Utils_Spec Convert_Model Convert_Spec Convert_Proofs Meaning_Spec Meaning_Proofs Meaning_Props
  Dump_Model Dump_Spec Dump_Source_Model Dump_Source_Proofs Dump_Meaning_Spec Dump_Meaning_Proofs Dump_Step_Proofs Dump_Update_Spec.
Import ListNotations.
Local Open Scope list_scope.

(** ** Where the steps and cells of a converted file come from *)
Lemma only_in {A} (R : A -> list ditem -> Prop) (Q : ditem -> Prop) l m : section R l m -> (forall x ys, R x ys -> Forall Q ys) -> Forall Q m.
Proof.
  induction 1 as [|x ys l m H S IH]; intros HR; [constructor|]. apply Forall_app. split; [eapply HR; exact H|apply IH; exact HR].
Qed.
Definition no_step (i : ditem) : Prop := match i with DStep _ _ _ _ _ => False | _ => True end.
Definition no_cell (i : ditem) : Prop := match i with DCell _ _ _ => False | _ => True end.
Ltac simple_items := repeat (apply Forall_cons; [split; exact I|]); apply Forall_nil.
Lemma type_plain wide e ys : type_item wide e ys -> Forall (fun i => no_step i /\ no_cell i) ys.
Proof. intros [(_ & ->)|(_ & ->)]; simple_items. Qed.
Lemma cell_plain wide table d e ys : cell_item wide table d e ys -> Forall no_step ys.
Proof. unfold cell_item. destruct (snd e); intros H; try (subst ys; apply Forall_nil). destruct H as (? & ? & _ & _ & ->). repeat constructor. Qed.
Lemma name_plain wide table d e ys : name_item wide table d e ys -> Forall (fun i => no_step i /\ no_cell i) ys.
Proof. unfold name_item. destruct (f_poly (snd e)); [intros ->; simple_items|]. intros (? & ? & _ & _ & ->). simple_items. Qed.
Lemma operator_plain wide table d e ys : operator_item wide table d e ys -> Forall (fun i => no_step i /\ no_cell i) ys.
Proof.
  unfold operator_item. destruct (op_def (snd e)); [|intros ->; simple_items]. intros [(_ & ->)|[(_ & ->)|(_ & _ & ? & ? & ? & _ & _ & _ & ->)]]; simple_items.
Qed.
Lemma global_plain wide table d term e ys : global_item wide table d term e ys -> Forall (fun i => no_step i /\ no_cell i) ys.
Proof. unfold global_item. destruct (snd e); intros H; try (subst ys; simple_items). destruct H as (? & ? & _ & _ & ->). simple_items. Qed.
Lemma defined_plain wide table d term e ys : defined_item wide table d term e ys -> Forall (fun i => no_step i /\ no_cell i) ys.
Proof. unfold defined_item. destruct (op_def (snd e)); intros H; try (subst ys; simple_items). destruct H as (? & ? & _ & _ & ->). simple_items. Qed.
Lemma step_plain wide table d term e ys : step_item wide table d term e ys -> Forall no_cell ys.
Proof. unfold step_item. cbv zeta. intros (_ & ? & ? & ? & ? & _ & _ & _ & _ & ->). repeat constructor. Qed.
Lemma crypto_plain wide e ys : crypto_item wide e ys -> Forall (fun i => no_step i /\ no_cell i) ys.
Proof.
  unfold crypto_item. cbv zeta. destruct (op_def (snd e)) as [[] ?|]; intros H; try (subst ys; simple_items).
  - destruct H as (? & ? & _ & ->). simple_items.
  - destruct H as (? & ? & _ & ->). simple_items.
Qed.
Lemma order_plain {A} (f : A -> outcome (option Squirrel_Model.order)) (c : A) ys :
  (f c = OOk None /\ ys = []) \/ (exists o, f c = OOk (Some o) /\ ys = [DOrder o]) -> Forall (fun i => no_step i /\ no_cell i) ys.
Proof. intros [(_ & ->)|(o & _ & ->)]; simple_items. Qed.

Lemma update_environment_exists wide {M : structure} (env : penv) (code : text -> name) x vs params fresh (rho : Semantics_Spec.env M) : NoDup (map j_name (a_indices (x_action x) ++ vs)) ->
  exists e, update_environment wide env code x vs params fresh rho e.
Proof.
  intros N. rewrite map_app in N. destruct (nodup_parts _ _ N) as (N1 & N2 & N3).
  exists (fun y => match find_name y (a_indices (x_action x)) with
    | Some k => match nth_error params k with Some w => stands (vsort w) (rho (vid w)) | None => constant env code (sanitize wide KVariable y) end
    | None => match find_name y vs with
      | Some k => match nth_error fresh k with Some w => stands (vsort w) (rho (vid w)) | None => constant env code (sanitize wide KVariable y) end
      | None => constant env code (sanitize wide KVariable y) end end).
  split.
  - intros k v w Hv Hw. rewrite (find_at _ N1 k v Hv), Hw. reflexivity.
  - intros k v w Hv Hw. rewrite (proj2 (find_none (j_name v) (a_indices (x_action x)))); [rewrite (find_at _ N2 k v Hv), Hw; reflexivity|].
    intros I. apply (N3 _ I). apply in_map. eapply nth_error_In; exact Hv.
  - intros y Ny. rewrite map_app, in_app_iff in Ny. rewrite (proj2 (find_none y (a_indices (x_action x)))) by tauto. rewrite (proj2 (find_none y vs)) by tauto. reflexivity.
Qed.

Section Updates.
  Context (wide : text -> bool) (table : nat -> jsort) (d : dump) (csort : nat -> option text) (names operators : path -> option jfun) (macros : path -> option jmacro).
  Context (i : nat) (systems : list text) (s : text).
  Hypothesis Hsorted : StronglySorted lex systems.
  Hypothesis Hi : nth_error systems i = Some s.
  Notation san := (sanitize wide KVariable).
  Context {M : structure} (env : penv) (qsem : qkind -> list sort -> (list (D M) -> list (D M)) -> D M)
    (mval : callee -> realm -> list (D M) -> list (D M) -> D M) (code : text -> name).
  Hypothesis Inj : forall a b, code a = code b -> a = b.
  Hypothesis Ext : extensional M qsem.
  Notation T := (reading env qsem mval code).
  Context (S : source (D M * D M)).
  Hypothesis AG : agree wide csort names operators macros S T.
  Notation jv := (jvalue (global_inputs macros) S).
  Notation term_of := (term_of wide csort names operators macros i).

  Lemma update_value x vs fl params fresh j st t b (used : text -> Prop) rho e :
    systems_of systems t -> no_diff_tuple names operators t -> proper_term wide names operators macros (side s t) -> term_of t b ->
    (forall y, In y (map j_name (a_indices (x_action x) ++ vs)) -> used y) -> (forall y, variable_of macros (side s t) y -> used y) ->
    (forall y z, used y -> used z -> san y = san z -> y = z) ->
    map fst (st_args st) = map (fun v => code (san (j_name v))) (a_indices (x_action x)) -> map vsort params = map snd (st_args st) ->
    map fst fl = map (fun v => code (san (j_name v))) vs -> map vsort fresh = map snd fl ->
    (forall y, code (san y) <> 5) -> NoDup (map fst (st_args st ++ [(5, SMessage)] ++ fl)) ->
    update_environment wide env code x vs params fresh rho e ->
    Parser_Spec.value env qsem mval (to_term code b) RSymbolic (in_step j st fl (map (fun v => rho (vid v)) params) (map (fun v => rho (vid v)) fresh)) = fst (jv e (side s t)).
  Proof.
    intros H1 H2 H3 Hb HU1 HU2 Apart Hn Hs Hfn Hfs N5 Nd [En1 En2 En3].
    destruct (term_value wide csort names operators macros i systems s Hsorted Hi env qsem mval code S AG t b H1 H2 H3 Hb) as (Mb & Vb).
    set (sc := in_step j st fl (map (fun v => rho (vid v)) params) (map (fun v => rho (vid v)) fresh)).
    set (e0 := fun y => by_realm (fun r => Parser_Spec.value env qsem mval (TVar (code y)) r sc)).
    assert (At : forall (l : list jvar) (m : list (name * sort)) (ws : list var) k v, map fst m = map (fun v => code (san (j_name v))) l -> map vsort ws = map snd m -> nth_error l k = Some v ->
              exists w, nth_error ws k = Some w /\ nth_error m k = Some (code (san (j_name v)), vsort w)).
    { intros l m ws k v Em Ew Hk. pose proof (map_nth_error (fun v => code (san (j_name v))) k _ Hk) as A1. rewrite <- Em in A1.
      destruct (nth_error m k) as [[a1 a2]|] eqn:Es.
      - rewrite (map_nth_error fst k _ Es) in A1. cbn in A1. injection A1 as ->. pose proof (map_nth_error snd k _ Es) as A2. rewrite <- Ew in A2. destruct (nth_error ws k) as [w|] eqn:Ek.
        + rewrite (map_nth_error vsort k _ Ek) in A2. cbn in A2. injection A2 as <-. eauto.
        + apply nth_error_None in Ek. assert (k < List.length (map vsort ws)) by (apply nth_error_Some; congruence). rewrite map_length in *. lia.
      - apply nth_error_None in Es. assert (k < List.length (map fst m)) by (apply nth_error_Some; congruence). rewrite map_length in *. lia. }
    assert (Lp : List.length params = List.length (st_args st)) by (rewrite <- (map_length vsort params), Hs, map_length; reflexivity).
    assert (Seen : forall y v, sc (code (san y)) = Some v -> e0 (san y) = stands (fst v) (snd v)).
    { intros y [so v] E. unfold e0, stands. apply by_ext. intros r. cbn [Parser_Spec.value]. rewrite E. reflexivity. }
    rewrite <- (Vb e e0).
    { rewrite (read_value env qsem mval code Inj Ext _ Mb e0 sc); [reflexivity|]. intros y. reflexivity. }
    intros y Vy. pose proof (HU2 y Vy) as Uy. destruct (in_dec text_eq_dec y (map j_name (a_indices (x_action x) ++ vs))) as [I|Ny].
    - apply in_map_iff in I as (v & <- & Iv). apply in_app_iff in Iv as [Iv|Iv]; apply In_nth_error in Iv as (k & Hk).
      + destruct (At _ _ _ k v Hn Hs Hk) as (w & Hw & Ha). rewrite (En1 k v w Hk Hw). apply (Seen _ (vsort w, rho (vid w))).
        unfold sc, in_step. apply (bind_at _ _ _ k); [exact Nd| |].
        * rewrite nth_error_app1; [exact Ha|apply nth_error_Some; congruence].
        * rewrite nth_error_app1; [exact (map_nth_error (fun v => rho (vid v)) k _ Hw)|rewrite map_length; apply nth_error_Some; congruence].
      + destruct (At _ _ _ k v Hfn Hfs Hk) as (w & Hw & Ha). rewrite (En2 k v w Hk Hw). apply (Seen _ (vsort w, rho (vid w))).
        unfold sc, in_step. apply (bind_at _ _ _ (List.length (st_args st) + Datatypes.S k)); [exact Nd| |].
        * rewrite nth_error_app2 by lia. replace (List.length (st_args st) + Datatypes.S k - List.length (st_args st)) with (Datatypes.S k) by lia. exact Ha.
        * rewrite nth_error_app2 by (rewrite map_length; lia). rewrite map_length, Lp. replace (List.length (st_args st) + Datatypes.S k - List.length (st_args st)) with (Datatypes.S k) by lia.
          exact (map_nth_error (fun v => rho (vid v)) k _ Hw).
    - rewrite (En3 y Ny). unfold e0, constant. apply by_ext. intros r. cbn [Parser_Spec.value].
      assert (Sc : sc (code (san y)) = None).
      { unfold sc, in_step. rewrite bind_out; [reflexivity|]. rewrite map_app, Hn, in_app_iff. cbn [List.app map fst In]. rewrite Hfn. intros [I|[E|I]]; [|exact (N5 y (eq_sym E))|];
          apply in_map_iff in I as (v & E & Iv); apply Inj in E; apply Ny; rewrite <- (Apart (j_name v) y); auto; try (apply HU1); apply in_map; apply in_app_iff; auto. }
      rewrite Sc. reflexivity.
  Qed.
End Updates.

(** ** The assignments of the file *)
Lemma steps_app a b : steps_of (a ++ b) = steps_of a ++ steps_of b.
Proof. unfold steps_of. apply flat_map_app. Qed.
Lemma no_steps code l : Forall no_step l -> steps_of (map (to_item code) l) = [].
Proof. induction 1 as [|i l H F IH]; [reflexivity|]. cbn. fold (steps_of (map (to_item code) l)). rewrite IH. destruct i; cbn in *; [reflexivity..|contradiction|reflexivity|reflexivity|reflexivity]. Qed.
Lemma both_left (l : list ditem) : Forall (fun i => no_step i /\ no_cell i) l -> Forall no_step l.
Proof. apply Forall_impl. tauto. Qed.
Lemma both_right (l : list ditem) : Forall (fun i => no_step i /\ no_cell i) l -> Forall no_cell l.
Proof. apply Forall_impl. tauto. Qed.

Lemma writes_completed l c : writes (completed l) c = writes l c.
Proof.
  unfold completed. destruct (in_dec Nat.eq_dec 6 (names_of l)); [reflexivity|]. unfold writes. rewrite steps_app, flat_map_app. cbn. apply app_nil_r.
Qed.

Lemma nodup_map {A B} (f : A -> B) l : (forall a b, In a l -> In b l -> f a = f b -> a = b) -> NoDup l -> NoDup (map f l).
Proof.
  intros H N. induction N as [|x l Nx N IH]; cbn; [constructor|]. constructor; [|apply IH; intros a b Ia Ib; apply H; right; assumption].
  intros I. apply in_map_iff in I as (y & E & Iy). apply Nx. rewrite (H x y (or_introl eq_refl) (or_intror Iy) (eq_sym E)). exact Iy.
Qed.
Lemma F2_app {A B} (R : A -> B -> Prop) a b c e : Forall2 R a b -> Forall2 R c e -> Forall2 R (a ++ c) (b ++ e).
Proof. induction 1; cbn; auto. Qed.
Lemma F2_swap {A B} (R : A -> B -> Prop) a b : Forall2 R a b -> Forall2 (fun y x => R x y) b a.
Proof. induction 1; constructor; auto. Qed.
Lemma F2_join {A B C} (R : A -> B -> Prop) (Q : B -> C -> Prop) a b c : Forall2 R a b -> Forall2 Q b c -> Forall2 (fun x z => exists y, R x y /\ Q y z) a c.
Proof. intros H. revert c. induction H; intros c K; inversion K; subst; constructor; eauto. Qed.

(** The updates and the assignments of the steps they become. *)
Definition written wide table d (code : text -> name) (term : jterm -> aterm -> Prop) (w : jaction * jupdate) (g : step_ast * assign_ast) : Prop :=
  exists args cond message updates b, Forall2 (Dump_Spec.binds wide table d) (a_indices (x_action (fst w))) args /\
    fst g = mkStepAst (code (sanitize wide KStep (path_text (a_name (x_action (fst w)))))) (map (code_pair code) args) cond message updates /\
    In (snd g) updates /\ assigns wide table d term (a_indices (x_action (fst w))) (snd w) b /\ snd g = to_asg code b.
Lemma writes_section wide table d (code : text -> name) (Inj : forall a b, code a = code b -> a = b) term xs SS p :
  section (step_item wide table d term) xs SS ->
  Forall2 (written wide table d code term) (updates_of wide p xs) (writes (map (to_item code) SS) (code (sanitize wide KMacro (path_text p)))).
Proof.
  induction 1 as [|x ys l m R Sx IH]; [constructor|]. unfold step_item in R; cbv zeta in R. destruct R as (_ & args & cond & message & updates & Fa & _ & _ & Fu & ->).
  unfold updates_of. cbn [flat_map]. unfold writes. cbn [map List.app steps_of flat_map to_item]. apply F2_app; [|exact IH]. clear IH.
  set (sa := mkStepAst _ _ _ _ _). assert (K : forall us gs, Forall2 (assigns wide table d term (a_indices (x_action (snd x)))) us gs -> incl (map (to_asg code) gs) (sa_asgs sa) ->
    Forall2 (written wide table d code term)
      (map (pair (snd x)) (filter (fun u => if list_eq_dec ascii_dec (sanitize wide KMacro (path_text (u_symb u))) (sanitize wide KMacro (path_text p)) then true else false) us))
      (flat_map (fun g => if Nat.eq_dec (aa_cell g) (code (sanitize wide KMacro (path_text p))) then [(sa, g)] else []) (map (to_asg code) gs))).
  { induction 1 as [|u g us gs Ag F IH]; intros Inc; [constructor|]. cbn [filter map flat_map]. assert (Inc' : incl (map (to_asg code) gs) (sa_asgs sa)) by (intros z Iz; apply Inc; right; exact Iz).
    specialize (IH Inc'). pose proof Ag as (Ec & _). cbn [to_asg aa_cell] in *.
    destruct (list_eq_dec ascii_dec (sanitize wide KMacro (path_text (u_symb u))) (sanitize wide KMacro (path_text p))) as [E|N], (Nat.eq_dec (code (g_cell g)) (code (sanitize wide KMacro (path_text p)))) as [E'|N'].
    - cbn. constructor; [|exact IH]. exists args, (to_term code cond), (to_term code message), (map (to_asg code) updates), g. split; [exact Fa|]. split; [reflexivity|].
      split; [apply Inc; left; reflexivity|]. split; [exact Ag|reflexivity].
    - exfalso. apply N'. rewrite Ec, E. reflexivity.
    - exfalso. apply N. rewrite <- Ec. apply Inj, E'.
    - exact IH. }
  apply K; [exact Fu|]. cbn [sa sa_asgs]. apply incl_refl.
Qed.

Lemma cells_app a b : cells_of (a ++ b) = cells_of a ++ cells_of b.
Proof. unfold cells_of. apply flat_map_app. Qed.
Lemma no_cells code l : Forall no_cell l -> cells_of (map (to_item code) l) = [].
Proof. induction 1 as [|i l H F IH]; [reflexivity|]. cbn. fold (cells_of (map (to_item code) l)). rewrite IH. destruct i; cbn in *; try reflexivity. contradiction. Qed.

(** An assignment of a file, read in its step, has the meaning of the update. *)
Lemma assigned_means wide table d csort names operators macros i systems s (code : text -> name) (Inj : forall a b, code a = code b -> a = b) env qs ps sorts w g y p j st :
  (forall n t, csort n = Some t <-> sort_name wide d (table n) t) -> StronglySorted lex systems -> nth_error systems i = Some s ->
  (forall v, code (sanitize wide KVariable v) <> 5) -> e_shadowing env = false ->
  (counted env (aa_term (snd g)) /\ forall t, In t (aa_args (snd g)) -> counted env t) ->
  written wide table d code (term_of wide csort names operators macros i) w g -> In p ps -> step_of env (fst g) j st -> step_read env qs j st p -> asg_read env qs j st p sorts (snd g) y ->
  is_update wide table d names operators macros csort env qs code ps sorts systems s w y.
Proof.
  intros Hsort Hsys Hi N5 Sh (Ct & Ca) (args & cond & message & updates & b & Fa & Eg & _ & Ag & Eb) Ip ((fc & Ef & Es & Est) & En & Eso & _ & _) [R1 R2 R3 _ _] [A1 A2 A3 A4 A5 (A6 & A7) A8].
  rewrite Eg in Ef, En, Eso. cbn [sa_name sa_params] in Ef, En, Eso. rewrite Eb in A2, A3, A5, A6, A7, A8, Ct, Ca. cbn [to_asg aa_fresh aa_cell aa_args aa_term] in A2, A3, A5, A6, A7, A8, Ct, Ca.
  assert (Names : map fst (st_args st) = map (fun v => code (sanitize wide KVariable (j_name v))) (a_indices (x_action (fst w)))).
  { rewrite En, map_map. cbn [code_pair fst]. clear - Fa. induction Fa as [|v c vs args (Hn & _) F IH]; cbn; [reflexivity|]. rewrite Hn, IH. reflexivity. }
  destruct Ag as (_ & Ta & Tb & vs & fresh & Hvs & Ff & Fn & Fs).
  assert (Efresh : match option_map (map (code_pair code)) (g_fresh b) with Some vs => vs | None => [] end = map (code_pair code) fresh).
  { destruct (g_fresh b) as [l|]; cbn; [rewrite (Fs l eq_refl); reflexivity|]. specialize (Fn eq_refl). subst vs. inversion Ff. reflexivity. }
  rewrite Efresh in A2, A3, A5, A7, A8. split; [rewrite A1; exact Ip|]. rewrite A1. split; [exists fc; split; [exact Ef|congruence]|]. split.
  { apply F2_from.
    - rewrite <- (map_length vsort (ps_vars p)), R2, map_length, <- (map_length fst (st_args st)), Names, map_length. reflexivity.
    - intros k v z Hv Hz. pose proof (map_nth_error vsort k _ Hz) as X. rewrite R2 in X. destruct (F2_nth' _ _ _ Fa k v Hv) as (c & Hc & (_ & Hs)).
      exists (snd c). split; [exact Hs|]. pose proof (map_nth_error (e_sorts env) k _ (map_nth_error snd k _ (map_nth_error (code_pair code) k _ Hc))) as Y.
      rewrite Eso in Y. pose proof (map_nth_error Some k _ X) as Z. rewrite Z in Y. exact (eq_sym (f_equal (fun o => match o with Some a => a | None => None end) Y)). }
  split; [rewrite A6, map_length, <- (F2_len _ _ _ Ta); reflexivity|].
  intros M qsem mval S Unf Ext Resp AG [P1 P2 P3].
  assert (NdA : NoDup (map fst (st_args st) ++ [5])).
  { rewrite Names. apply NoDup_app_iff. split; [|split; [repeat constructor; intros []|]].
    - clear - P2 P3 Inj. rewrite <- (map_map j_name (fun y => code (sanitize wide KVariable y))). apply nodup_map; [|exact P2].
      intros a b Ia Ib E. apply Inj in E. apply P3; auto.
    - intros z I [<-|[]]. apply in_map_iff in I as (v & E & _). exact (N5 _ E). }
  pose proof (A5 NdA) as Nd.
  assert (Fnames : map fst (map (code_pair code) fresh) = map (fun v => code (sanitize wide KVariable (j_name v))) vs).
  { rewrite map_map. cbn [code_pair fst]. clear - Ff. induction Ff as [|v c vs args (Hn & _) F IH]; cbn; [reflexivity|]. rewrite Hn, IH. reflexivity. }
  assert (Nv : NoDup (map j_name (a_indices (x_action (fst w)) ++ vs))).
  { rewrite Names, Fnames in Nd. rewrite map_app. apply (NoDup_map_inv (fun y => code (sanitize wide KVariable y))). rewrite map_app, !map_map.
    apply NoDup_app_iff in Nd as (Na & Nb & Nc). apply NoDup_app_iff in Nb as (_ & Nb & _). apply NoDup_app_iff. split; [exact Na|]. split; [exact Nb|].
    intros z Iz Jz. apply (Nc z Iz). right. exact Jz. }
  exists vs. split; [exact Hvs|]. split; [rewrite map_app in Nv; apply NoDup_app_iff in Nv; tauto|]. split.
  { apply F2_from.
    - rewrite <- (map_length vsort (as_fresh y)), A2, !map_length. exact (F2_len _ _ _ Ff).
    - intros k v z Hv Hz. destruct (F2_nth' _ _ _ Ff k v Hv) as (c & Hc & (_ & Hs)). exists (snd c). split; [exact Hs|].
      pose proof (map_nth_error vsort k _ Hz) as X. rewrite A2 in X. rewrite (map_nth_error _ k _ (map_nth_error (code_pair code) k _ Hc)) in X. cbn [code_pair snd] in X. injection X as <-.
      destruct (A3 _ (in_map (code_pair code) _ _ (nth_error_In _ _ Hc))) as (X & _). cbn [code_pair snd] in X. unfold sort_named. destruct (e_sorts env (code (snd c))); [reflexivity|contradiction]. }
  rewrite A1. split; [exact A4|]. intros rho. split; [apply update_environment_exists; exact Nv|]. intros e He.
  set (used y := In y (map j_name (a_indices (x_action (fst w)))) \/ (exists v, universal (fst w) (snd w) v /\ y = j_name v) \/
                             exists t, In t (u_body (snd w) :: u_args (snd w)) /\ variable_of macros (side s t) y) in P3.
  assert (V : forall t bt, In t (u_body (snd w) :: u_args (snd w)) -> term_of wide csort names operators macros i t bt ->
    Parser_Spec.value env qsem mval (to_term code bt) RSymbolic
      (in_step j st (Parser_Spec.binders env (map (code_pair code) fresh)) (map (fun v => rho (vid v)) (ps_vars p)) (map (fun v => rho (vid v)) (as_fresh y))) =
    fst (jvalue (global_inputs macros) S e (side s t))).
  { intros t bt It Tt. destruct (P1 t It) as (Q1 & Q2 & Q3).
    assert (Bf : map fst (Parser_Spec.binders env (map (code_pair code) fresh)) = map fst (map (code_pair code) fresh)) by (unfold Parser_Spec.binders; rewrite !map_map; reflexivity).
    apply (update_value wide csort names operators macros i systems s Hsys Hi env qsem mval code Inj Ext S AG (fst w) vs _ (ps_vars p) (as_fresh y) j st t bt used rho e Q1 Q2 Q3 Tt); auto.
    - intros z Iz. rewrite map_app in Iz. apply in_app_iff in Iz as [Iz|Iz]; [left; exact Iz|]. apply in_map_iff in Iz as (v & <- & Iv). right. left. exists v. split; [apply Hvs; exact Iv|reflexivity].
    - intros z Iz. right. right. eauto.
    - rewrite Bf. exact Fnames.
    - rewrite A2. unfold Parser_Spec.binders. rewrite !map_map. reflexivity.
    - rewrite map_app. cbn [List.app map fst]. rewrite Bf. exact Nd. }
  split.
  - intros k t f Ht Hf. destruct (F2_nth' _ _ _ Ta k t Ht) as (bt & Hbt & Tt). pose proof (map_nth_error (to_term code) k _ Hbt) as Hk.
    rewrite (ri_means _ _ _ _ _ _ _ _ _ (A7 k _ f Hk Hf) Sh (Ca _ (nth_error_In _ _ Hk)) NdA M qsem mval Unf Ext Resp rho). apply V; [right; eapply nth_error_In; exact Ht|exact Tt].
  - rewrite (ri_means _ _ _ _ _ _ _ _ _ A8 Sh Ct NdA M qsem mval Unf Ext Resp rho). apply V; [left; reflexivity|exact Tb].
Qed.
