From Coq Require Import List Arith Bool Lia.
From Verif Require Import Syntax_Model Syntax_Proofs Traversal_Model Traversal_Spec Semantics_Spec Semantics_Proofs Subst_Model Subst_Proofs Sort_Model Order_Model Macro_Model
  Unify_Model Unify_Proofs Binding_Proofs Graph_Model Expander_Model Expander_Spec Expander_Proofs Expander_Props Exists_Model Exists_Proofs Search_Model Search_Spec Search_Proofs Crypto_Model Crypto_Spec
  Crypto_Proofs Define_Model Define_Proofs Evaluate_Model Propagate_Model File_Model File_Spec File_Proofs Assumption_Model Assumption_Spec Assumption_Proofs Sentence_Spec Sentence_Proofs Arity_Spec.
From Verif Require Parser_Model.
Import ListNotations.

Lemma mapM_len {A B} (f : A -> option B) l : forall m, mapM f l = Some m -> length m = length l.
Proof.
  induction l as [|a l IH]; intros m H; cbn in H; [injection H as <-; reflexivity|]. destruct (f a); [|discriminate]. destruct (mapM f l) as [m'|] eqn:E; [|discriminate]. injection H as <-. cbn. f_equal. apply IH. reflexivity.
Qed.
Lemma find_in {A} (p : A -> bool) l x : find p l = Some x -> In x l.
Proof. intros H. apply find_some in H. tauto. Qed.
Lemma frozen_get_in ids : forall fs v t, frozen_get ids fs v = Some t -> t = FVar v \/ In t fs.
Proof.
  induction ids as [|i ids IH]; intros [|f fs] v t H; cbn in H; try discriminate; [injection H as <-; auto|]. destruct (Nat.eqb i (vid v)); [injection H as <-; cbn; auto|]. destruct (IH _ _ _ H); cbn; auto.
Qed.
Lemma stv_length ss : forall n, length (sorts_to_variables n ss) = length ss.
Proof. induction ss as [|s ss IH]; intros n; cbn; [reflexivity|]. f_equal. apply IH. Qed.

Section Counts.
  Context (sig : fsym -> option (list sort * sort)) (funs : list fsym).
  Notation takes := (takes sig funs).
  Notation counts := (counts sig funs).
  Notation counts_axiom := (counts_axiom sig funs).
  Notation declares_number := (declares_number sig funs).

  Lemma counts_var v : counts (FVar v).
  Proof. intros p s args H. inversion H. Qed.
  Lemma counts_fun s args : counts (FFun s args) <-> takes s (length args) /\ forall a, In a args -> counts a.
  Proof.
    split.
    - intros H. split; [apply (H []); constructor|]. intros a Ha p t l Hp. apply In_nth_error in Ha as (i & Hi). apply (H (i :: p)). econstructor; eassumption.
    - intros [H1 H2] p t l Hp. inversion Hp; subst; [exact H1|]. eapply H2; [eapply nth_error_In; eassumption|eassumption].
  Qed.
  Lemma counts_quant q vs b : counts (FQ q vs b) <-> counts b.
  Proof.
    split; [intros H p s l Hp; apply (H (0 :: p)); constructor; exact Hp|]. intros H p s l Hp. inversion Hp; subst. eapply H; eassumption.
  Qed.
  Lemma counts_forall vs b : counts (mk_forall vs b) <-> counts b.
  Proof. unfold mk_forall. destruct vs; [reflexivity|apply counts_quant]. Qed.
  Lemma counts_exists vs b : counts (mk_exists vs b) <-> counts b.
  Proof. unfold mk_exists. destruct vs; [reflexivity|apply counts_quant]. Qed.
  Lemma counts_args s args : takes s (length args) -> Forall counts args -> counts (FFun s args).
  Proof. intros H1 H2. apply counts_fun. split; [exact H1|apply Forall_forall; exact H2]. Qed.
  Lemma counts_vars vs : Forall counts (map FVar vs).
  Proof. apply Forall_forall. intros a Ha. apply in_map_iff in Ha as (v & <- & _). apply counts_var. Qed.
  Lemma counts_ors fs : (forall f, In f fs -> counts f) -> counts (ors fs).
  Proof. intros H. apply counts_fun. split; [exact I|exact H]. Qed.
  Lemma counts_ands fs : (forall f, In f fs -> counts f) -> counts (ands fs).
  Proof. intros H. apply counts_fun. split; [exact I|exact H]. Qed.
  Lemma counts_at f p g : counts f -> at_path f p g -> counts g.
  Proof. intros H Hp q s l Hq. apply (H (p ++ q)). eapply at_path_app; eassumption. Qed.
  Lemma counts_arg s args a : counts (FFun s args) -> In a args -> counts a.
  Proof. intros H Ha. apply (proj1 (counts_fun _ _) H). exact Ha. Qed.

  Ltac fits := first [exact eq_refl | exact I | assumption | idtac].
  Ltac count :=
    repeat match goal with
    | |- Arity_Spec.counts _ _ (mk_forall _ _) => apply (proj2 (counts_forall _ _))
    | |- Arity_Spec.counts _ _ (mk_exists _ _) => apply (proj2 (counts_exists _ _))
    | |- Arity_Spec.counts _ _ (FQ _ _ _) => apply (proj2 (counts_quant _ _ _))
    | |- Arity_Spec.counts _ _ (ands (_ :: _)) => apply counts_args; fits
    | |- Arity_Spec.counts _ _ (ors (_ :: _)) => apply counts_args; fits
    | |- Arity_Spec.counts _ _ (meq _ _) => apply counts_args; fits
    | |- Arity_Spec.counts _ _ (fimp _ _) => apply counts_args; fits
    | |- Arity_Spec.counts _ _ (fnot _) => apply counts_args; fits
    | |- Arity_Spec.counts _ _ (fand _ _) => apply counts_args; fits
    | |- Arity_Spec.counts _ _ (for_ _ _) => apply counts_args; fits
    | |- Arity_Spec.counts _ _ (ev_msg _) => apply counts_args; fits
    | |- Arity_Spec.counts _ _ (ev_cond _) => apply counts_args; fits
    | |- Arity_Spec.counts _ _ (cast_name _) => apply counts_args; fits
    | |- Arity_Spec.counts _ _ (happens _) => apply counts_args; fits
    | |- Arity_Spec.counts _ _ (leq _ _) => apply counts_args; fits
    | |- Arity_Spec.counts _ _ (lt _ _) => apply counts_args; fits
    | |- Arity_Spec.counts _ _ (gt _ _) => apply counts_args; fits
    | |- Arity_Spec.counts _ _ (pred _) => apply counts_args; fits
    | |- Arity_Spec.counts _ _ (mac _ _) => apply counts_args; fits
    | |- Arity_Spec.counts _ _ (FFun _ _) => apply counts_args; fits
    | |- Arity_Spec.counts _ _ (FVar _) => apply counts_var
    | |- Forall _ (_ :: _) => apply Forall_cons
    | |- Forall _ [] => apply Forall_nil
    end; try assumption.

  (** ** Substitution *)
  Lemma sapply_counts s f : forall g, sapply s f = Some g -> counts f -> (forall v t, s v = Some t -> counts t) -> counts g.
  Proof.
    induction f as [v|h args IH|q vs b IH] using formula_ind'; intros g H Hf Hs.
    - cbn in H. eapply Hs. exact H.
    - rewrite sapply_fun in H. destruct (mapM _ args) as [l|] eqn:E; [|discriminate]. injection H as <-. apply counts_fun. apply counts_fun in Hf as [Ht Ha]. split.
      + rewrite (mapM_len _ _ _ E). exact Ht.
      + intros a Hin. destruct (mapM_from _ _ _ _ E Hin) as (c & Hc & Ec). rewrite Forall_forall in IH. eapply (IH c Hc); [exact Ec|exact (Ha c Hc)|exact Hs].
    - cbn in H. destruct (sapply s b) as [b'|] eqn:E; [|discriminate]. injection H as <-. apply counts_quant. eapply IH; [reflexivity|apply (proj1 (counts_quant _ _ _) Hf)|exact Hs].
  Qed.
  Lemma translate_counts n f g : translate_vars n f = Some g -> counts f -> counts g.
  Proof. intros H Hf. eapply sapply_counts; [exact H|exact Hf|]. intros v t [= <-]. apply counts_var. Qed.
  Lemma one_var_counts uid m f g : sapply (one_var uid m) f = Some g -> counts f -> counts m -> counts g.
  Proof. intros H Hf Hm. eapply sapply_counts; [exact H|exact Hf|]. intros v t E. unfold one_var in E. destruct (Nat.eqb _ _); injection E as <-; [exact Hm|apply counts_var]. Qed.
  Lemma frozen_var_counts col f g : sapply (frozen_var col) f = Some g -> counts f -> counts g.
  Proof.
    intros H Hf. eapply sapply_counts; [exact H|exact Hf|]. intros v t E. unfold frozen_var in E. destruct (find _ col); injection E as <-; apply counts_var.
  Qed.
  Lemma frozen_ov_counts l f g : sapply (frozen_ov l) f = Some g -> counts f -> (forall t, In t (map snd l) -> counts t) -> counts g.
  Proof.
    intros H Hf Hl. eapply sapply_counts; [exact H|exact Hf|]. intros v t E. unfold frozen_ov in E. destruct (find _ l) as [[i t']|] eqn:Ef; [|injection E as <-; apply counts_var].
    cbn [fst snd] in E. unfold one_var in E. destruct (Nat.eqb _ _); injection E as <-; [|apply counts_var]. apply find_in in Ef. apply Hl. apply in_map_iff. exists (i, t'). auto.
  Qed.
  Lemma frozen_new_counts ids args s f g : frozen_new ids args = Some s -> sapply s f = Some g -> counts f -> (forall a, In a args -> counts a) -> counts g.
  Proof.
    unfold frozen_new. destruct (Nat.eqb _ _); [|discriminate]. intros [= <-] H Hf Ha. eapply sapply_counts; [exact H|exact Hf|]. intros v t E.
    apply frozen_get_in in E as [->|E]; [apply counts_var|auto].
  Qed.

  (** ** Evaluation *)
  Section Ev.
    Context (os : fsym -> option sort) (evs : list sort).
    Lemma counts_ev os' f g : ev os' evs f = Some g -> counts f -> counts g.
    Proof. unfold ev. destruct (term_sort os' f) as [s|]; [|discriminate]. destruct (existsb _ evs); intros [= <-] H; [|exact H]. count. Qed.
    Lemma counts_ev_var v : counts (ev_var evs v).
    Proof. unfold ev_var. destruct (existsb _ evs); count. Qed.
    Lemma counts_ev_vars vs : Forall counts (map (ev_var evs) vs).
    Proof. apply Forall_forall. intros a Ha. apply in_map_iff in Ha as (v & <- & _). apply counts_ev_var. Qed.
    Lemma identity_counts s : counts_axiom (identity_axiom s).
    Proof. unfold identity_axiom. cbv zeta. cbn [Arity_Spec.counts_axiom]. count. Qed.
    Lemma function_counts i args a : takes (Fuser i) (length args) -> function_axiom os evs i args = Some a -> counts_axiom a.
    Proof.
      intros Hd. unfold function_axiom. destruct (ev os evs _) as [pre|] eqn:E; [|discriminate]. intros [= <-]. split.
      - eapply counts_ev; [exact E|]. apply counts_args; [|apply counts_vars]. rewrite map_length, stv_length. exact Hd.
      - apply counts_args; [|apply counts_ev_vars]. rewrite map_length, stv_length. exact (proj1 Hd).
    Qed.
    Lemma legacy_counts i args a : takes (Fuser i) (length args) -> legacy_axiom os evs i args = Some a -> counts_axiom a.
    Proof.
      intros Hd. unfold legacy_axiom. destruct (ev os evs _) as [x|] eqn:E1; [|discriminate]. destruct (ev os evs (FFun _ (map FVar (map _ _)))) as [y|] eqn:E2; [|discriminate]. intros [= <-].
      cbn [Arity_Spec.counts_axiom]. count.
      - apply counts_ands. intros f Hf. apply in_map_iff in Hf as ([a b] & <- & _). cbn [fst]. count; apply counts_ev_var.
      - eapply counts_ev; [exact E1|]. apply counts_args; [|apply counts_vars]. rewrite map_length, stv_length. exact Hd.
      - eapply counts_ev; [exact E2|]. apply counts_args; [|apply counts_vars]. rewrite !map_length, stv_length. exact Hd.
    Qed.
    Lemma ite_counts a : ite_axiom os evs = Some a -> counts_axiom a.
    Proof.
      unfold ite_axiom. destruct (ev os evs _) as [x|] eqn:E; [|discriminate]. intros [= <-]. cbn [Arity_Spec.counts_axiom map]. count; try apply counts_ev_var. eapply counts_ev; [exact E|]. count.
    Qed.
    Lemma eq_counts a : eq_axiom os evs = Some a -> counts_axiom a.
    Proof.
      unfold eq_axiom. destruct (ev os evs _) as [x|] eqn:E; [|discriminate]. intros [= <-]. cbn [Arity_Spec.counts_axiom map]. count; try apply counts_ev_var. eapply counts_ev; [exact E|]. count.
    Qed.
    Lemma conn_counts c a : conn_axiom os evs c = Some a -> counts_axiom a.
    Proof.
      unfold conn_axiom. destruct c; (destruct (ev os evs _) as [x|] eqn:E; [|discriminate]); intros [= <-]; cbn [Arity_Spec.counts_axiom conn_args sorts_to_variables map conn_evaluated sym_conn] in *; count;
        try apply counts_ev_var; (eapply counts_ev; [exact E|]; count).
    Qed.
    Definition quant_counted (k : nat) (q : quantifier) : Prop := declares_number (Fquant k) (length (qt_free q)) /\ forall f, In f (quantifier_formulas q) -> counts f.
    Lemma quant_counts n k q l n' : quant_counted k q -> quant_axioms os evs n k q = Some (l, n') -> Forall counts_axiom l.
    Proof.
      intros [Hd Hq] H. unfold quant_axioms in H. destruct (ev os evs (FFun _ _)) as [e|] eqn:Ee; [|discriminate].
      assert (He : counts e) by (eapply counts_ev; [exact Ee|]; apply counts_args; [rewrite map_length; exact Hd|apply counts_vars]).
      assert (Hsk : forall f g, counts f -> sapply (frozen_ov (combine (map vid (qt_bound q)) (map (fun h => FFun h (map FVar (qt_free q))) (map Fskolem (seq n (length (qt_bound q))))))) f = Some g -> counts g).
      { intros f g Hf E. eapply frozen_ov_counts; [exact E|exact Hf|]. intros t Ht. apply in_map_iff in Ht as ([i t'] & <- & Ht). apply in_combine_r in Ht. cbn. apply in_map_iff in Ht as (h & <- & Hh).
        apply in_map_iff in Hh as (j & <- & _). apply counts_args; [exact I|apply counts_vars]. }
      unfold quantifier_formulas in Hq. destruct (qt_inner q) as [c|c|c s t] eqn:Ei.
      - destruct (ev os evs c) as [c'|] eqn:Ec; [|discriminate]. injection H as <- <-. constructor; [|constructor]. cbn [Arity_Spec.counts_axiom]. count. eapply counts_ev; [exact Ec|]. apply Hq. left. reflexivity.
      - destruct (ev os evs c) as [c'|] eqn:Ec; [|discriminate]. injection H as <- <-. constructor; [|constructor]. cbn [Arity_Spec.counts_axiom]. count. eapply counts_ev; [exact Ec|]. apply Hq. left. reflexivity.
      - destruct (sapply _ c) as [cs|] eqn:E1; [|discriminate]. destruct (sapply _ s) as [ls|] eqn:E2; [|discriminate]. destruct (sapply _ t) as [rs|] eqn:E3; [|discriminate].
        destruct (ev os evs c) as [c'|] eqn:F0; [|discriminate]. destruct (ev _ evs cs) as [cs'|] eqn:F1; [|discriminate]. destruct (ev _ evs ls) as [ls'|] eqn:F2; [|discriminate].
        destruct (ev _ evs rs) as [rs'|] eqn:F3; [|discriminate]. injection H as <- <-.
        assert (Hc : counts c) by (apply Hq; cbn; tauto). assert (Hs : counts s) by (apply Hq; cbn; tauto). assert (Ht : counts t) by (apply Hq; cbn; tauto).
        apply (Hsk c) in E1; [|exact Hc]. apply (Hsk s) in E2; [|exact Hs]. apply (Hsk t) in E3; [|exact Ht].
        apply counts_ev in F0, F1, F2, F3; try assumption. constructor; [|constructor; [|constructor]]; cbn [Arity_Spec.counts_axiom]; count.
    Qed.
    Lemma loop_counts fs : (forall k q, In (PQuant k q) fs -> quant_counted k q) -> forall n l, loop os evs n fs = Some l -> Forall counts_axiom l.
    Proof.
      induction fs as [|f fs IH]; intros Hq n l H; cbn [loop] in H; [injection H as <-; constructor|].
      match type of H with match ?o with Some _ => _ | None => None end = _ => destruct o as [[l1 n1]|] eqn:E1; [|discriminate] end.
      destruct (loop os evs n1 fs) as [l2|] eqn:E2; [|discriminate]. injection H as <-. apply Forall_app. split; [|eapply IH; [|exact E2]; intros k q Hi; eapply Hq; right; exact Hi].
      destruct f as [i args o| | |c|k q|].
      - injection E1 as <- _. constructor.
      - destruct (ite_axiom os evs) as [a|] eqn:E; [|discriminate]. injection E1 as <- _. constructor; [eapply ite_counts; exact E|constructor].
      - destruct (eq_axiom os evs) as [a|] eqn:E; [|discriminate]. injection E1 as <- _. constructor; [eapply eq_counts; exact E|constructor].
      - destruct (conn_axiom os evs c) as [a|] eqn:E; [|discriminate]. injection E1 as <- _. constructor; [eapply conn_counts; exact E|constructor].
      - eapply quant_counts; [|exact E1]. eapply Hq. left. reflexivity.
      - injection E1 as <- _. constructor.
    Qed.
    Lemma relevant_in fs : forall us i args, relevant fs = Some us -> In (i, args) us -> exists out, In (PUser i args out) fs.
    Proof.
      induction fs as [|f fs IH]; intros us i args H Hi; cbn in H; [injection H as <-; destruct Hi|].
      assert (Hk : relevant fs = Some us -> exists out, In (PUser i args out) (f :: fs)) by (intros E; destruct (IH _ _ _ E Hi) as (out & Ho); exists out; right; exact Ho).
      destruct f as [j ar o| | |c|k q|]; auto. destruct (is_evaluatable o); [|discriminate]. destruct (relevant fs) as [l|]; [|discriminate]. injection H as <-. destruct Hi as [Hi|Hi].
      - injection Hi as <- <-. exists o. left. reflexivity.
      - destruct (IH _ _ _ eq_refl Hi) as (out & Ho). exists out. right. exact Ho.
    Qed.
    Lemma generate_counts r nb lg n fs l : (forall k q, In (PQuant k q) fs -> quant_counted k q) -> (forall i args out, In (PUser i args out) fs -> takes (Fuser i) (length args)) ->
      generate os evs r nb lg n fs = Some l -> Forall counts_axiom l.
    Proof.
      intros Hq Hu H. unfold generate in H. destruct (relevant fs) as [us|] eqn:Er; [|discriminate].
      match type of H with match ?o with Some _ => _ | None => None end = _ => destruct o as [l1|] eqn:E1; [|discriminate] end.
      destruct (loop os evs n fs) as [l2|] eqn:E2; [|discriminate]. injection H as <-. apply Forall_app. split; [|eapply loop_counts; eassumption].
      assert (Hus : forall u, In u us -> takes (Fuser (fst u)) (length (snd u))) by (intros [i args] Hin; destruct (relevant_in _ _ _ _ Er Hin) as (out & Ho); eapply Hu; exact Ho).
      destruct r.
      - destruct (if nb then _ else _) as [a|] eqn:Ea; [|discriminate]. destruct (if lg then _ else _) as [b|] eqn:Eb; [|discriminate]. injection E1 as <-.
        apply Forall_app. split; apply Forall_forall; intros x Hx.
        + destruct nb; [injection Ea as <-; destruct Hx|]. destruct (mapM_from _ _ _ _ Ea Hx) as (u & Hin & E). eapply function_counts; [apply Hus; exact Hin|exact E].
        + destruct lg; [|injection Eb as <-; destruct Hx]. destruct (mapM_from _ _ _ _ Eb Hx) as (u & Hin & E). eapply legacy_counts; [apply Hus; exact Hin|exact E].
      - injection E1 as <-. apply Forall_forall. intros x Hx. apply in_map_iff in Hx as (s & <- & _). apply identity_counts.
    Qed.

    (** ** Assertions *)
    Context (table : nat -> option quantifier).
    Hypothesis HQ : forall k q, table k = Some q -> quant_counted k q.
    Lemma evaluated_takes h g n : maybe_evaluated h = Some g -> takes h n -> takes g n.
    Proof. destruct h as [| | | | | |c| | | | | | | | | | | | |]; try discriminate; [destruct c; try discriminate|]; intros [= <-] H; first [exact H|exact (proj1 H)]. Qed.
    Lemma after_counts n : forall f g, after_eval os evs table n f = Some g -> counts f -> counts g.
    Proof.
      induction n as [|n IH]; intros f g H Hf; [discriminate|]. cbn [after_eval] in H. destruct f as [v|h args|q vs b]; [| |discriminate].
      - destruct (maybe_evaluated_sort (vsort v)) as [s|]; [injection H as <-; count|]. eapply counts_ev; [exact H|count].
      - destruct (maybe_evaluated h) as [g'|] eqn:Eh.
        + destruct (mapM (after_eval os evs table n) args) as [l'|] eqn:E; [|discriminate]. injection H as <-. apply counts_fun in Hf as [Ht Ha]. apply counts_fun. split.
          * rewrite (mapM_len _ _ _ E). eapply evaluated_takes; eassumption.
          * intros a Hin. destruct (mapM_from _ _ _ _ E Hin) as (b & Hb & Eb). eapply IH; [exact Eb|]. apply Ha. exact Hb.
        + destruct (match h with Fquant k => table k | _ => None end) as [q|] eqn:Eq; [|eapply counts_ev; eassumption].
          assert (Hq : forall c, In c (quantifier_formulas q) -> counts c) by (destruct h; try discriminate; apply (HQ _ _ Eq)).
          assert (Hcase : forall c qq, In c (quantifier_formulas q) ->
            match frozen_new (map vid (qt_bound q)) args with None => None | Some s => match sapply s c with None => None | Some c' => option_map (FQ qq (qt_free q)) (after_eval os evs table n c') end end = Some g -> counts g).
          { intros c qq Hc E. destruct (frozen_new _ args) as [s|] eqn:En; [|discriminate]. destruct (sapply s c) as [c'|] eqn:Ec; [|discriminate].
            destruct (after_eval os evs table n c') as [g'|] eqn:Ea; [|discriminate]. injection E as <-. apply counts_quant. eapply IH; [exact Ea|].
            eapply frozen_new_counts; [exact En|exact Ec|apply Hq; exact Hc|]. intros a Ha. eapply counts_arg; eassumption. }
          destruct (qt_inner q) as [c|c|c x y] eqn:Ei; [| |eapply counts_ev; eassumption].
          * eapply (Hcase c); [unfold quantifier_formulas; rewrite Ei; left; reflexivity|exact H].
          * eapply (Hcase c); [unfold quantifier_formulas; rewrite Ei; left; reflexivity|exact H].
    Qed.
    Lemma before_counts n f : forall b g, before_eval os evs table n f = Some (b, g) -> counts f -> counts g.
    Proof.
      induction f as [v|h args IH|q vs c IH] using formula_ind'; intros b g H Hf.
      - injection H as <- <-. exact Hf.
      - assert (Hany : (exists s, h = Feval s) \/ option_map (fun l0 : list (bool * formula) => (existsb fst l0, FFun h args)) (go_before os evs table n args) = Some (b, g)).
        { destruct h; try (right; exact H). left. eexists. reflexivity. }
        destruct Hany as [(s & ->)|E].
        + cbn [before_eval] in H. destruct args as [|a args]; [discriminate|]. destruct (after_eval os evs table n a) as [g'|] eqn:E; [|discriminate]. injection H as <- <-.
          eapply after_counts; [exact E|]. eapply counts_arg; [exact Hf|left; reflexivity].
        + destruct (go_before os evs table n args); [|discriminate]. injection E as <- <-. exact Hf.
      - cbn [before_eval] in H. destruct (before_eval os evs table n c) as [[b' g']|] eqn:E; [|discriminate]. cbn [option_map fst snd] in H. destruct b'; injection H as <- <-; [|exact Hf].
        apply counts_quant. eapply IH; [reflexivity|apply (proj1 (counts_quant _ _ _) Hf)].
    Qed.
    Lemma propagate_counts n f g : propagate_evaluate os evs table n f = Some g -> counts f -> counts g.
    Proof. unfold propagate_evaluate. destruct (before_eval os evs table n f) as [[b g']|] eqn:E; [|discriminate]. intros [= <-]. eapply before_counts. exact E. Qed.
  End Ev.

  (** ** Steps, cells and macros *)
  Definition step_counted (s : pstep) : Prop := declares_number (Fstep (ps_fun s)) (length (ps_vars s)) /\ counts (ps_cond s) /\ counts (ps_msg s).
  Lemma counts_step s vs : step_counted s -> length vs = length (ps_vars s) -> counts (step_term s vs).
  Proof. intros (H & _) Hl. apply counts_args; [|apply counts_vars]. rewrite map_length, Hl. exact H. Qed.
  Lemma order_theory_counts init : counts init -> Forall counts (order_theory init).
  Proof. intros H. apply Forall_forall. intros f Hf. cbn [order_theory In] in Hf. unfold st in Hf. repeat (destruct Hf as [<-|Hf]; [count|]). destruct Hf. Qed.
  Lemma gt_counts : counts gt_axiom.
  Proof. unfold gt_axiom, st. count. Qed.
  Lemma distinct_counts steps s : (forall x, In x steps -> step_counted x) -> step_counted s -> counts (distinct_axiom steps s).
  Proof.
    intros Hall Hs. unfold distinct_axiom. cbv zeta. count; [apply counts_step; [exact Hs|reflexivity]|]. apply counts_ands. intros f Hf. apply in_map_iff in Hf as (s2 & <- & H2).
    destruct (Nat.eqb_spec (ps_fun s) (ps_fun s2)) as [E|E].
    - count.
      + apply counts_step; [exact Hs|reflexivity].
      + apply counts_args; [|apply counts_vars]. rewrite !map_length. destruct Hs as (Hd & _). rewrite <- E. exact Hd.
      + apply counts_ands. intros g Hg. apply in_map_iff in Hg as ([a b] & <- & _). count.
    - count; apply counts_step; auto. rewrite map_length. reflexivity.
  Qed.
  Lemma exhaustive_counts steps : (forall x, In x steps -> step_counted x) -> counts (exhaustive_axiom steps).
  Proof.
    intros Hall. unfold exhaustive_axiom. cbv zeta. count. apply counts_ors. intros f Hf. apply in_map_iff in Hf as (s & <- & Hs). count. apply counts_step; auto.
  Qed.
  Lemma ordering_counts o : (forall f, In f (order_formulas o) -> counts f) -> counts (Parser_Model.order_axiom o).
  Proof. intros H. unfold Parser_Model.order_axiom, order_formulas in *. cbv zeta. destruct (Parser_Model.or_kind o); count; apply H; cbn; tauto. Qed.
  Lemma msg_cond_counts s : step_counted s -> counts (msg_cond_axiom s).
  Proof. intros Hs. assert (Ht := counts_step s (ps_vars s) Hs eq_refl). destruct Hs as (_ & Hc & Hm). unfold msg_cond_axiom, into_formula. cbv zeta. count. Qed.
  Lemma exec_counts direct recursive init others : step_counted init -> (forall s, In s others -> step_counted s) -> Forall counts (exec_axioms direct recursive init others).
  Proof.
    intros Hi Ho. apply Forall_forall. intros f Hf. unfold exec_axioms in Hf. apply in_app_or in Hf as [[<-|[]]|Hf]; [unfold into_formula; count; apply counts_step; auto|]. apply in_app_or in Hf as [Hf|Hf].
    - destruct (use_recursive direct recursive); [|destruct Hf]. apply in_map_iff in Hf as (s & <- & Hs). assert (Ht := counts_step s (ps_vars s) (Ho s Hs) eq_refl). unfold exec_recursive, into_formula. cbv zeta. count.
    - destruct (use_direct direct recursive); [|destruct Hf]. destruct Hf as [<-|[]]. unfold exec_direct, st. count.
  Qed.
  Definition asg_counted (a : assignment) : Prop := step_counted (as_step a) /\ counts (as_content a) /\ forall t, In t (as_args a) -> counts t.
  Lemma cells_counts mv c l : declares_number (Fcell (ce_fun c)) (S (length (ce_args c))) -> (forall a, In a (ce_asgs c) -> asg_counted a) -> cell_axioms mv c = Some l -> Forall counts l.
  Proof.
    intros Hd Hc H. unfold cell_axioms in H. cbv zeta in H. destruct (mapM _ (ce_asgs c)) as [eqs|] eqn:Ee; [|discriminate]. injection H as <-.
    set (step_var := mkVar mv SStep) in *. set (vars := sorts_to_variables (mv + 1) (ce_args c)) in *.
    assert (Hl : length vars = length (ce_args c)) by apply stv_length.
    assert (He : forall a e, In (a, e) (combine (ce_asgs c) eqs) -> In a (ce_asgs c) /\ counts e).
    { intros a e Hin. split; [eapply in_combine_l; exact Hin|]. apply in_combine_r in Hin. destruct (mapM_from _ _ _ _ Ee Hin) as (b & Hb & Eb). destruct (Hc b Hb) as (Hs & _ & Ht).
      unfold asg_eqs in Eb. destruct (zip_eq vars (as_args b)) as [ps|] eqn:Ez; [|discriminate]. injection Eb as <-. apply counts_ands. intros f Hf. apply in_map_iff in Hf as ([v t] & <- & Hf). apply in_app_or in Hf as [Hf|[Hf|[]]].
      - count. destruct (zip_eq_in _ _ _ _ _ Ez Hf) as [_ H2]. apply Ht. exact H2.
      - injection Hf as <- <-. count. apply counts_step; auto. }
    assert (Hcall : counts (fv (Fcell (ce_fun c)) (vars ++ [step_var]))).
    { apply counts_args; [|apply counts_vars]. rewrite map_length, app_length, Hl. cbn. rewrite Nat.add_1_r. exact Hd. }
    constructor.
    - count.
      + apply counts_ands. intros f Hf. apply in_map_iff in Hf as ([a e] & <- & Hae). count. eapply He. exact Hae.
      + rewrite app_length, map_length, Hl. cbn. rewrite Nat.add_1_r. exact Hd.
      + apply Forall_app. split; [apply counts_vars|]. count.
    - apply Forall_forall. intros f Hf. apply in_map_iff in Hf as (g & <- & Hg). apply in_map_iff in Hg as ([a e] & <- & Hae). destruct (He a e Hae) as [Ha Hb]. destruct (Hc a Ha) as (_ & H1 & _). count.
  Qed.

  (** ** Searches *)
  Notation ents s := (Forall (fun p : nat * formula => counts (snd p)) (fst s ++ snd s)).
  Lemma aux_counts n : forall l r s b s', aux n l r s = Some (b, s') -> counts l -> counts r -> ents s -> ents s'.
  Proof.
    induction n as [|n IH]; intros l r s b s' H Hl Hr Hs; [discriminate|]. destruct s as [lp rp]. cbn [fst snd] in Hs. pose proof Hs as Hs0. apply Forall_app in Hs0 as [HL HR].
    assert (HG : forall (l0 : list (nat * formula)) i t, maybe_get l0 i = Some t -> Forall (fun p : nat * formula => counts (snd p)) l0 -> counts t).
    { intros l0 i t Hg Hf. apply maybe_get_In in Hg. rewrite Forall_forall in Hf. exact (Hf _ Hg). }
    assert (Hargs : forall la ra s0 b0 s0', all_args (aux n) la ra s0 = Some (b0, s0') -> (forall a, In a la -> counts a) -> (forall a, In a ra -> counts a) -> ents s0 -> ents s0').
    { induction la as [|a la IHa]; intros ra s0 b0 s0' E Fa Fr Fs; [cbn in E; destruct ra; injection E as <- <-; exact Fs|].
      destruct ra as [|x ra]; [cbn in E; injection E as <- <-; exact Fs|]. cbn in E.
      destruct (aux n a x s0) as [[[] s1]|] eqn:E1; [| |discriminate].
      - eapply IHa; [exact E|intros; apply Fa; right; assumption|intros; apply Fr; right; assumption|]. eapply IH; [exact E1|apply Fa; left; reflexivity|apply Fr; left; reflexivity|exact Fs].
      - injection E as <- <-. eapply IH; [exact E1|apply Fa; left; reflexivity|apply Fr; left; reflexivity|exact Fs]. }
    cbn [aux] in H. destruct l as [v|fl al|q vs bd].
    - destruct (match r with FVar vr => var_eqb v vr | _ => false end); [injection H as <- <-; exact Hs|].
      destruct (maybe_get lp (vid v)) as [t|] eqn:Et.
      + destruct t as [v2|ft at_|qt vt bt].
        * destruct r as [v3| |]; [|injection H as <- <-; exact Hs|injection H as <- <-; exact Hs].
          destruct (var_eqb v2 v3); [injection H as <- <-; exact Hs|]. destruct (maybe_get rp (vid v3)); injection H as <- <-; [exact Hs|].
          unfold mv_add. cbn [fst snd]. rewrite app_assoc. apply Forall_app. split; [exact Hs|]. constructor; [|constructor]. eapply HG; eassumption.
        * eapply IH; [exact H| |exact Hr|exact Hs]. eapply HG; eassumption.
        * eapply IH; [exact H| |exact Hr|exact Hs]. eapply HG; eassumption.
      + injection H as <- <-. unfold mv_add. cbn [fst snd]. apply Forall_app. split; [|exact HR]. apply Forall_app. split; [exact HL|]. constructor; [exact Hr|constructor].
    - destruct r as [v|fr ar|q vs bd].
      + destruct (maybe_get rp (vid v)) as [t|] eqn:Et.
        * destruct t; [injection H as <- <-; exact Hs| |]; (eapply IH; [exact H| |exact Hr|exact Hs]; eapply HG; eassumption).
        * injection H as <- <-. unfold mv_add. cbn [fst snd]. rewrite app_assoc. apply Forall_app. split; [exact Hs|]. constructor; [exact Hl|constructor].
      + destruct (fsym_eqb fl fr && _); [|injection H as <- <-; exact Hs]. eapply Hargs; [exact H| | |exact Hs]; intros a Ha; [exact (counts_arg _ _ _ Hl Ha)|exact (counts_arg _ _ _ Hr Ha)].
      + injection H as <- <-. exact Hs.
    - destruct r as [v|fr ar|q' vs' bd'].
      + destruct (maybe_get rp (vid v)) as [t|] eqn:Et.
        * destruct t; [injection H as <- <-; exact Hs| |]; (eapply IH; [exact H| |exact Hr|exact Hs]; eapply HG; eassumption).
        * injection H as <- <-. unfold mv_add. cbn [fst snd]. rewrite app_assoc. apply Forall_app. split; [exact Hs|]. constructor; [exact Hl|constructor].
      + injection H as <- <-. exact Hs.
      + injection H as <- <-. exact Hs.
  Qed.
  Lemma mgu_counts n l r u : mgu n l r = Some (Some u) -> counts l -> counts r -> ents u.
  Proof. unfold mgu. destruct (aux n l r ([], [])) as [[[] s]|] eqn:E; intros H Hl Hr; try discriminate. injection H as <-. eapply aux_counts; [exact E|exact Hl|exact Hr|constructor]. Qed.
  Lemma equalities_counts gs u l : as_equalities gs u = Some l -> ents u -> forall f, In f l -> counts f.
  Proof.
    unfold as_equalities. destruct u as [a b]. cbn [fst snd]. destruct (existsb _ _); [discriminate|]. intros H Hu x Hx.
    destruct (mapM_from _ _ _ _ H Hx) as (p & Hp & E). destruct (gs (snd p)); [|discriminate]. injection E as <-. rewrite Forall_forall in Hu. count. exact (Hu _ Hp).
  Qed.
  Lemma subterm_counts gs aux_sort mfuel x m u : is_subterm gs aux_sort mfuel x m = Some (Some u) -> counts x -> counts m -> ents u.
  Proof.
    unfold is_subterm. destruct (unified gs aux_sort m); [|discriminate]. intros H Hx Hm. destruct x as [v|s l|q vs b]; [|eapply mgu_counts; eassumption|eapply mgu_counts; eassumption].
    injection H as <-. cbn. constructor; [exact Hm|constructor].
  Qed.
  Lemma f_a_counts gs sound k x m a : f_a gs sound k x m = Some a -> counts x -> counts m -> counts a.
  Proof.
    unfold f_a. intros H Hx Hm. destruct sound; cbn [negb] in H; [|injection H as <-; unfold TRUE; count]. destruct k as [i|fs]; [injection H as <-; count|].
    destruct (gs m) as [s|]; [|discriminate]. destruct (find _ fs) as [p|]; [|discriminate]. injection H as <-. count.
  Qed.
  Definition guard_counts (st : sstate) : Prop := forall g, ss_guard st = Some g -> counts g.
  Lemma result_counts gs sound k x f keep st u g : result_guard gs sound k x f keep st u = Some g -> counts x -> counts f -> guard_counts st -> ents u -> counts g.
  Proof.
    unfold result_guard. intros H Hx Hf Hst Hu.
    match type of H with match ?o with _ => _ end = _ => destruct o as [l|] eqn:E; [|discriminate] end. injection H as <-. apply counts_ands. intros a Ha. apply in_app_or in Ha as [Ha|Ha].
    - destruct (is_unifying_to_variable u) as [[i t]|]; [|eapply equalities_counts; eassumption]. destruct (rich_eqb t x); [|eapply equalities_counts; eassumption].
      destruct (f_a gs sound k x f) as [b|] eqn:Ea; [|discriminate]. injection E as <-. destruct Ha as [<-|[]]. eapply f_a_counts; eassumption.
    - destruct keep; [|destruct Ha]. destruct (ss_guard st) as [c|] eqn:Ec; [|destruct Ha]. destruct Ha as [<-|[]]. apply Hst. exact Ec.
  Qed.

  Definition visited (e : formula * sstate) : Prop := counts (fst e) /\ guard_counts (snd e).
  Lemma condition_counts st vs c st' : add_condition st vs c = Some st' -> guard_counts st -> counts c -> guard_counts st'.
  Proof.
    unfold add_condition, add_variables. destruct (all_unique _); [|discriminate]. intros [= <-] Hg Hc g E. cbn in E. destruct (ss_guard st) as [f|] eqn:E'; injection E as <-; [|exact Hc]. count. apply Hg. exact E'.
  Qed.
  Section Searches.
    Context (steps : list pstep) (cells : list mcell) (anc : mref -> option ancestors) (tq : nat -> ta_quant).
    Context (Hsteps : forall s, In s steps -> step_counted s) (Hcells : forall c a, In c cells -> In a (ce_asgs c) -> asg_counted a)
      (Hquants : forall k f, In f (tq_contents (tq k)) -> counts f) (Hanc : answers_cells anc cells).
    Lemma step_macro_counts st is_cond args us u : unfold_step_macro steps st is_cond args = Some us -> In u us -> (forall a, In a args -> counts a) -> guard_counts st -> visited u.
    Proof.
      unfold unfold_step_macro. destruct args as [|arg [|]]; try discriminate. intros H Hu Ha Hg. destruct (mapM_from _ _ _ _ H Hu) as (s & Hs & E). cbv zeta in E.
      destruct (add_condition _ _ _) as [st'|] eqn:Ec; [|discriminate]. injection E as <-. split; cbn [fst snd].
      - destruct (Hsteps s Hs) as (_ & H1 & H2). destruct is_cond; assumption.
      - eapply condition_counts; [exact Ec|exact Hg|]. count; [apply Ha; left; reflexivity|]. apply counts_step; [auto|apply map_length].
    Qed.
    Lemma assignment_counts st is_input origin a u : unfold_assignment st is_input origin a = Some u -> asg_counted a -> counts origin -> guard_counts st -> visited u.
    Proof.
      unfold unfold_assignment. cbv zeta. intros H (Hs & Hc & _) Ho Hg. destruct (add_condition _ _ _) as [st'|] eqn:Ec; [|discriminate]. destruct (sapply _ _) as [g|] eqn:Es; [|discriminate]. injection H as <-.
      split; cbn [fst snd]; [eapply frozen_var_counts; eassumption|]. eapply condition_counts; [exact Ec|exact Hg|].
      assert (Ht : counts (step_term (as_step a) (map (get_var (collision_subst (ps_vars (as_step a) ++ as_fresh a) (ss_bound st))) (ps_vars (as_step a))))) by (apply counts_step; [exact Hs|apply map_length]).
      destruct is_input; unfold before, strict_before; count.
    Qed.
    Lemma unfold_step_counts st origin s f u : unfold_step st origin s f = Some u -> step_counted s -> counts f -> counts origin -> guard_counts st -> visited u.
    Proof.
      unfold unfold_step. cbv zeta. intros H Hs Hf Ho Hg. destruct (add_condition _ _ _) as [st'|] eqn:Ec; [|discriminate]. destruct (sapply _ _) as [g|] eqn:Es; [|discriminate]. injection H as <-.
      split; cbn [fst snd]; [eapply frozen_var_counts; eassumption|]. eapply condition_counts; [exact Ec|exact Hg|]. unfold strict_before. count. apply counts_step; [exact Hs|apply map_length].
    Qed.
    Lemma cell_or_input_counts r st args us u : unfold_cell_or_input steps anc r st args = Some us -> In u us -> (forall a, In a args -> counts a) -> guard_counts st -> visited u.
    Proof.
      unfold unfold_cell_or_input. destruct (anc r) as [[input cs]|] eqn:Er; [|discriminate]. destruct (rev args) as [|origin rest] eqn:Ea; [discriminate|]. intros H Hu Ha Hg.
      assert (Ho : counts origin) by (apply Ha; apply in_rev; rewrite Ea; left; reflexivity).
      destruct (mapM _ (flat_map ce_asgs cs)) as [l1|] eqn:E1; [|discriminate]. destruct (if input then _ else _) as [l2|] eqn:E2; [|discriminate]. injection H as <-. apply in_app_or in Hu as [Hu|Hu].
      - destruct (mapM_from _ _ _ _ E1 Hu) as (a & Hin & E). apply in_flat_map in Hin as (c & Hc & Hin). eapply assignment_counts; [exact E| |exact Ho|exact Hg]. eapply Hcells; [|exact Hin].
        eapply Hanc; eassumption.
      - destruct input; [|injection E2 as <-; destruct Hu]. destruct (mapM_from _ _ _ _ E2 Hu) as ([s f] & Hin & E). apply in_flat_map in Hin as (s' & Hs & Hin).
        assert (s = s' /\ counts f) as [-> Hf] by (destruct (Hsteps s' Hs) as (_ & H1 & H2); destruct Hin as [Hin|[Hin|[]]]; injection Hin as <- <-; auto).
        eapply unfold_step_counts; [exact E|auto|exact Hf|exact Ho|exact Hg].
    Qed.
    Lemma quantifier_counts st k args us u : unfold_quantifier st (tq k) args = Some us -> In u us -> (forall a, In a args -> counts a) -> guard_counts st -> visited u.
    Proof.
      unfold unfold_quantifier. destruct (frozen_new _ args) as [sub|] eqn:En; [|discriminate]. cbv zeta. destruct (add_variables _ _) as [st'|] eqn:Ev; [|discriminate]. intros H Hu Ha Hg.
      destruct (mapM_from _ _ _ _ H Hu) as (f & Hf & E). destruct (sapply _ f) as [g|] eqn:Eg; [|discriminate]. destruct (sapply sub g) as [h|] eqn:Eh; [|discriminate]. injection E as <-. split; cbn [fst snd].
      - eapply frozen_new_counts; [exact En|exact Eh| |exact Ha]. eapply frozen_var_counts; [exact Eg|]. eapply Hquants. exact Hf.
      - unfold add_variables in Ev. destruct (all_unique _); [|discriminate]. injection Ev as <-. exact Hg.
    Qed.
    Lemma unfold_counts e us u : unfold steps anc tq e = Some us -> In u us -> visited e -> visited u.
    Proof.
      destruct e as [f st]. intros H Hu [Hf Hg]. cbn [fst snd] in *. destruct f as [v|s args|q vs b].
      - injection H as <-. destruct Hu.
      - assert (Ha : forall a, In a args -> counts a) by (intros a Hin; eapply counts_arg; eassumption). assert (Hnil : Some [] = Some us -> visited u) by (intros [= <-]; destruct Hu).
        assert (Hci : forall r fl, unfold_cell_or_input steps anc r (mkSt fl (ss_bound st) (ss_guard st)) args = Some us -> visited u)
          by (intros r fl E; eapply cell_or_input_counts; [exact E|exact Hu|exact Ha|exact Hg]).
        assert (Hmac : forall is_cond, unfold_step_macro steps st is_cond args = Some us -> visited u) by (intros is_cond E; eapply step_macro_counts; eassumption).
        destruct s; cbn in H; try (apply Hnil; exact H).
        + destruct (uf_cells (ss_flags st)); [eapply Hci; exact H|auto].
        + destruct m; [destruct (uf_macros (ss_flags st))|destruct (uf_macros (ss_flags st))|destruct (uf_input (ss_flags st))|destruct (uf_exec (ss_flags st))];
            try (apply Hnil; exact H); try (eapply Hmac; exact H); eapply Hci; exact H.
        + destruct (uf_quant (ss_flags st)); [|auto]. eapply quantifier_counts; eassumption.
      - injection H as <-. destruct Hu as [<-|[]]. split; [apply (proj1 (counts_quant _ _ _) Hf)|exact Hg].
    Qed.
    Lemma visit_counts nexts e e' : subterms_next nexts -> visits steps anc tq nexts e e' -> visited e -> visited e'.
    Proof.
      intros Hn. induction 1 as [e|f st a e Ha Hv IH|f st us u e Eu Hu Hv IH]; intros Hok; auto.
      - apply IH. destruct Hok as [Hf Hg]. cbn [fst snd] in *. destruct (Hn f a Ha) as (p & Hpath). split; cbn [fst snd]; [eapply counts_at; eassumption|exact Hg].
      - apply IH. eapply unfold_counts; eauto.
    Qed.
    Lemma results_counts gs aux_sort sound kind mfuel nexts fuel x ms keep fl out : subterms_next nexts ->
      preprocess_terms gs aux_sort sound kind steps anc tq mfuel nexts fuel x ms keep fl = Some out ->
      (forall m bvs, In (m, bvs) ms -> counts m) -> counts x -> forall d, In d out -> counts (snd d).
    Proof.
      intros Hn H Hms Hx d Hd. apply terms_spec in H as [_ H]. destruct (H d Hd) as (m & bvs & f & st & u & g & Hin & Hv & Hs & Hg & ->). cbn [fst snd].
      destruct (visit_counts _ _ _ Hn Hv) as [Hf Hgd]; [split; cbn; [eapply Hms; exact Hin|intros y [=]]|]. cbn [fst snd] in *.
      eapply result_counts; [exact Hg|exact Hx|exact Hf|exact Hgd|]. eapply subterm_counts; eassumption.
    Qed.
    Lemma terms_bvars_counts m bvs : In (m, bvs) (terms_and_bvars steps cells) -> counts m.
    Proof.
      unfold terms_and_bvars. intros H. apply in_app_or in H as [H|H].
      - apply in_flat_map in H as (s & Hs & H). destruct (Hsteps s Hs) as (_ & H1 & H2). destruct H as [H|[H|[]]]; injection H as <- _; assumption.
      - apply in_flat_map in H as (c & Hc & H). apply in_map_iff in H as (a & H & Ha). injection H as <- _. destruct (Hcells c a Hc Ha) as (_ & H1 & _). exact H1.
    Qed.
  End Searches.

  Lemma merge_counts scmp ds : (forall d, In d ds -> counts (snd d)) -> counts (into_exist_formula scmp ds).
  Proof.
    intros H. assert (Hc : forall d, In d (unique ds) -> counts (snd d)) by (intros d Hd; apply H; apply (proj1 (unique_in _ _)); exact Hd).
    unfold into_exist_formula. cbv zeta. set (content := unique ds) in *. destruct (max_set [] _) as [|[v0 pm] mx].
    - apply counts_ors. intros f Hf. apply in_map_iff in Hf as (d & <- & Hd). auto.
    - apply counts_ors. intros f [<-|Hf].
      + count. apply counts_ors. intros f Hf. apply in_flat_map in Hf as (i & _ & Hf). destruct (nth_error content i) as [[inner g]|] eqn:Ei; [|destruct Hf]. destruct Hf as [<-|[]].
        count. apply (Hc (inner, g)). eapply nth_error_In. exact Ei.
      + apply in_flat_map in Hf as ([i d] & Hid & Hf). cbn [fst snd] in Hf. destruct (existsb _ pm); [destruct Hf|]. destruct Hf as [<-|[]]. count. apply Hc. eapply in_combine_r. exact Hid.
  Qed.

  (** ** The definitions of subterm relations *)
  Section Definitions.
    Context (gs : formula -> option sort) (r : realm) (fns : list (fsym * list sort)) (sorts : list sort) (steps : list pstep) (cells : list mcell) (anc : mref -> option ancestors)
      (tq : nat -> ta_quant) (scmp : sort -> sort -> comparison) (mfuel fuel : nat).
    Context (Hsteps : forall s, In s steps -> step_counted s) (Hcells : forall c a, In c cells -> In a (ce_asgs c) -> asg_counted a)
      (Hquants : forall k f, In f (tq_contents (tq k)) -> counts f) (Hanc : answers_cells anc cells).
    Context (Hfns : forall f ins, In (f, ins) fns -> takes f (length ins)).

    Lemma applied_counts fn n ins : takes fn (length ins) -> counts (FFun fn (map FVar (sorts_to_variables n ins))).
    Proof. intros H. apply counts_args; [|apply counts_vars]. rewrite map_length, stv_length. exact H. Qed.
    Lemma special_counts aux_sort sound kind nexts mv fl keep fn ss a : subterms_next nexts -> takes fn (length ss) ->
      special_assertion gs aux_sort sound kind steps anc tq mfuel nexts scmp fuel mv fl keep fn ss = Some a -> counts a.
    Proof.
      intros Hn Ht H. unfold special_assertion in H. cbv zeta in H. pose proof (applied_counts fn (mv + 1 + 1) ss Ht) as Hf.
      unfold preprocess_term_to_formula, preprocess_term in H. destruct (preprocess_terms _ _ _ _ _ _ _ _ _ _ _ _ _ _) as [ds|] eqn:Ed; [|discriminate]. cbn [option_map] in H.
      destruct (f_a gs sound kind _ _) as [b|] eqn:Eb; [|discriminate]. injection H as <-. count.
      - eapply f_a_counts; [exact Eb|apply counts_var|exact Hf].
      - apply merge_counts. eapply results_counts; [exact Hsteps|exact Hcells|exact Hquants|exact Hanc|exact Hn|exact Ed| |apply counts_var]. intros m bvs [E|[]]. injection E as <- <-. exact Hf.
    Qed.
    Lemma function_assertion_counts se fn ins a : takes fn (length ins) -> function_assertion gs r se fn ins = Some a -> counts a.
    Proof.
      intros Ht. unfold function_assertion, atom. cbv zeta. pose proof (applied_counts fn 1 ins Ht) as Hf. intros H.
      destruct (mapM _ _) as [l|] eqn:El; [|discriminate]. destruct (f_a gs _ _ _ _) as [b|] eqn:Eb; [|discriminate]. injection H as <-.
      assert (Ho : counts (ors l)).
      { apply counts_ors. intros f Hin. destruct (mapM_from _ _ _ _ El Hin) as (v & _ & E). eapply f_a_counts; [exact E| |]; apply counts_var. }
      count; [eapply f_a_counts; [exact Eb|apply counts_var|exact Hf]|].
      match goal with |- Arity_Spec.counts _ _ (if ?b then _ else _) => destruct b end; [|exact Ho]. apply counts_args; [exact I|]. repeat constructor; [exact Ho|]. apply counts_args; [exact eq_refl|]. repeat constructor; [apply counts_var|exact Hf].
    Qed.
    Lemma not_of_sort_counts se ss l : not_of_sort gs r se ss = Some l -> Forall counts l.
    Proof.
      unfold not_of_sort, atom. intros H. apply Forall_forall. intros f Hf. destruct (mapM_from _ _ _ _ H Hf) as (s & _ & E). cbv zeta in E.
      destruct (f_a _ _ _ _ _) as [a|] eqn:Ea; [|discriminate]. injection E as <-. count. eapply f_a_counts; [exact Ea| |]; apply counts_var.
    Qed.
    Lemma functions_counts se l : function_assertions gs r fns se = Some l -> Forall counts l.
    Proof.
      unfold function_assertions. intros H. apply Forall_forall. intros f Hf. destruct (mapM_from _ _ _ _ H Hf) as ([x ins] & Hin & E). eapply function_assertion_counts; [|exact E].
      apply Hfns. unfold default_functions in Hin. apply filter_In in Hin as [Hin _]. exact Hin.
    Qed.
    Lemma specials_counts se keep l : subterms_next (se_nexts se) -> special_assertions gs r fns steps cells anc tq scmp mfuel fuel se keep = Some l -> Forall counts l.
    Proof.
      unfold special_assertions. destruct (protocol_max_var fuel steps cells) as [mv|]; [|discriminate]. intros Hn H. apply Forall_forall. intros f Hf.
      destruct (mapM_from _ _ _ _ H Hf) as ([x ins] & Hin & E). eapply special_counts; [exact Hn| |exact E]. apply Hfns. unfold special_functions in Hin. apply filter_In in Hin as [Hin _]. exact Hin.
    Qed.
    Lemma append_counts a b l : append a b = Some l -> (forall x, a = Some x -> Forall counts x) -> (forall x, b = Some x -> Forall counts x) -> Forall counts l.
    Proof. unfold append. destruct a as [x|]; [|discriminate]. destruct b as [y|]; [|discriminate]. intros [= <-] Ha Hb. apply Forall_app. auto. Qed.
    Lemma define_subterm_counts se keep l : subterms_next (se_nexts se) -> define_subterm gs r fns sorts steps cells anc tq scmp mfuel fuel se keep = Some l -> Forall counts l.
    Proof.
      intros Hn H. eapply append_counts; [exact H| |].
      - intros x Hx. destruct (vampire (se_kind se)); [injection Hx as <-; constructor|]. eapply append_counts; [exact Hx|apply functions_counts|]. intros y. apply not_of_sort_counts.
      - intros x Hx. eapply specials_counts; eassumption.
    Qed.
    Lemma define_subterms_counts key main l : subterms_next (se_nexts key) -> subterms_next (se_nexts main) ->
      define_subterms gs r fns sorts steps cells anc tq scmp mfuel fuel key main = Some l -> Forall counts l.
    Proof.
      intros Hk Hm H. unfold define_subterms in H. destruct (evaluated_realm r); [injection H as <-; constructor|].
      eapply append_counts; [exact H| |]; intros x Hx; (eapply define_subterm_counts; [|exact Hx]); assumption.
    Qed.
    Lemma ctxt_define_counts main key rand l : subterms_next (se_nexts main) -> subterms_next (se_nexts key) -> subterms_next (se_nexts rand) ->
      ctxt_define_subterms gs r fns sorts steps cells anc tq scmp mfuel fuel main key rand = Some l -> Forall counts l.
    Proof.
      intros Hm Hk Hr H. unfold ctxt_define_subterms in H. destruct (evaluated_realm r); [injection H as <-; constructor|].
      eapply append_counts; [exact H| |]; [intros x Hx; eapply define_subterm_counts; [|exact Hx]; assumption|]. intros y Hy.
      eapply append_counts; [exact Hy| |]; intros x Hx; (eapply define_subterm_counts; [|exact Hx]); assumption.
    Qed.
    Lemma split_counts key split mv a : subterms_next (se_nexts key) -> takes (Fuser split) 1 -> split_axiom gs r steps cells anc tq scmp mfuel fuel key split mv = Some a -> counts a.
    Proof.
      unfold split_axiom. cbv zeta. intros Hn Hd H. destruct (preprocess_terms _ _ _ _ _ _ _ _ _ _ _ _ _ _) as [ds|] eqn:Ed; [|discriminate]. injection H as <-. count.
      apply merge_counts. eapply results_counts; [exact Hsteps|exact Hcells|exact Hquants|exact Hanc|exact Hn|exact Ed| |apply counts_var]. intros m bvs Hin. eapply terms_bvars_counts; [exact Hsteps|exact Hcells|exact Hin].
    Qed.
    Lemma nonce_counts k l : nonce_axioms gs r fns sorts steps cells anc tq scmp mfuel fuel k = Some l -> Forall counts l.
    Proof.
      unfold nonce_axioms. cbv zeta. intros H. eapply append_counts; [exact H| |].
      - intros x Hx. destruct (vampire k); [injection Hx as <-; constructor|]. eapply append_counts; [exact Hx|apply functions_counts|]. intros y. apply not_of_sort_counts.
      - intros x Hx. eapply append_counts; [exact Hx| |].
        + intros y. apply specials_counts. apply children_sub.
        + intros y Hy. destruct (nonce_same gs r (nonce k)) as [a|] eqn:Ea; [|discriminate]. destruct (nonce_fresh gs r (nonce k)) as [b|] eqn:Eb; [|discriminate]. injection Hy as <-.
          unfold nonce_same, nonce_fresh, atom in *. cbv zeta in *.
          destruct (f_a gs _ _ (FVar (mkVar 0 SName)) (FVar (mkVar 1 SName))) as [a'|] eqn:Fa; [|discriminate]. injection Ea as <-.
          destruct (f_a gs _ _ (FVar (mkVar 0 SName)) (FVar (mkVar 1 SMessage))) as [b'|] eqn:Fb'; [|discriminate]. injection Eb as <-.
          constructor; [|constructor; [|constructor; [|constructor]]]; unfold nonce_injective; count; (eapply f_a_counts; [eassumption| |]); count.
    Qed.
    Lemma general_counts kmain kkey sm sk split (signed : formula -> formula -> formula) (verified : formula -> formula -> formula -> formula) a : takes (Fuser split) 1 ->
      (forall a b, counts a -> counts b -> counts (signed a b)) -> (forall a b c, counts a -> counts b -> counts c -> counts (verified a b c)) ->
      general gs kmain kkey sm sk split signed verified = Some a -> counts a.
    Proof.
      intros Hd Hs Hv. unfold general. cbv zeta. intros H.
      do 4 match type of H with match ?o with Some _ => _ | None => None end = _ => let E := fresh "E" in destruct o eqn:E; [|discriminate] end. injection H as <-.
      count; try (apply Hv; count); (eapply f_a_counts; [eassumption| |]); count; apply Hs; count.
    Qed.
    Lemma uf_base_counts mac verify : takes (Fuser mac) 2 -> takes (Fuser verify) 3 -> counts (uf_base mac verify).
    Proof. intros H1 H2. unfold uf_base. cbv zeta. count. Qed.
    Lemma ctxt_base_counts enc dec : takes (Fuser enc) 3 -> takes (Fuser dec) 2 -> counts (ctxt_base enc dec).
    Proof. intros H1 H2. unfold ctxt_base. cbv zeta. count. Qed.
    Lemma ctxt_general_counts kmain kkey krand sm sk sr enc dec fail a : takes (Fuser enc) 3 -> takes (Fuser dec) 2 -> takes (Fuser fail) 0 ->
      ctxt_general gs kmain kkey krand sm sk sr enc dec fail = Some a -> counts a.
    Proof.
      intros H1 H2 H3. unfold ctxt_general. cbv zeta. intros H.
      do 4 match type of H with match ?o with Some _ => _ | None => None end = _ => let E := fresh "E" in destruct o eqn:E; [|discriminate] end. injection H as <-.
      count; (eapply f_a_counts; [eassumption| |]); count.
    Qed.

    (** ** Instances *)
    Definition cand_counts (c : candidate) : Prop := counts (ca_message c) /\ counts (ca_signature c) /\ counts (ca_key c).
    Lemma instance_counts symbolic sm sk kmain kkey mn kn (signed : formula -> formula -> formula) (premise : formula -> formula -> formula -> formula) mv c a :
      subterms_next mn -> (forall a b, counts a -> counts b -> counts (signed a b)) -> (forall a b c, counts a -> counts b -> counts c -> counts (premise a b c)) -> cand_counts c ->
      instance gs steps cells anc tq mfuel scmp symbolic sm sk kmain kkey mn kn signed premise fuel mv c = Some (Some a) -> counts a.
    Proof.
      intros Hn Hsg Hpr (Pm & Ps & Pk) H. destruct c as [message signature key]. cbn [ca_message ca_signature ca_key] in *. unfold instance in H.
      destruct (formulas_max_var_or_max _ _ _ _) as [uid|]; [|discriminate]. destruct (free_of fuel _) as [free|] eqn:Ef; [|discriminate]. cbv zeta in H.
      destruct (finds_nothing _ _ _ _ _ _ _ _ _ _ _ _ _ _) as [[]|]; try discriminate.
      destruct (preprocess_terms _ _ _ _ _ _ _ _ _ _ _ _ _ _) as [ds|] eqn:Ed; [|discriminate].
      assert (Ck : counts (cast_name key)) by count.
      assert (HM : counts (into_exist_formula scmp ds)).
      { apply merge_counts. eapply results_counts; [exact Hsteps|exact Hcells|exact Hquants|exact Hanc|exact Hn|exact Ed| |].
        - intros m bvs [E|[E|[]]]; injection E as <- <-; assumption.
        - apply Hsg; [apply counts_var|exact Ck]. }
      assert (Hprem : counts (premise signature message (cast_name key))) by (apply Hpr; assumption).
      destruct symbolic.
      - injection H as <-. count.
      - destruct (sapply _ _) as [b|] eqn:Eb; [|discriminate]. injection H as <-. count. eapply one_var_counts; eassumption.
    Qed.
    Definition enc_counts (e : enc_candidate) : Prop := counts (en_rand e) /\ counts (en_message e) /\ counts (en_key e).
    Lemma unify_eqs_counts a b l : unify_eqs gs mfuel a b = Some (Some l) -> counts a -> counts b -> forall f, In f l -> counts f.
    Proof.
      unfold unify_eqs. destruct (mgu mfuel a b) as [[u|]|] eqn:E; try discriminate. intros H Ha Hb f Hf. injection H as <-.
      destruct (as_equalities gs u) as [l|] eqn:El; [|destruct Hf as [<-|[]]; unfold TRUE; count]. eapply equalities_counts; [exact El| |exact Hf]. eapply mgu_counts; eassumption.
    Qed.
    Lemma pair_counts mv k_f e1 e2 f : enc_counts e1 -> enc_counts e2 -> counts k_f -> pair_condition gs mfuel fuel mv k_f (e1, e2) = Some (Some f) -> counts f.
    Proof.
      intros (Pr1 & Pm1 & Pk1) (Pr2 & Pm2 & Pk2) Hk H. unfold pair_condition in H.
      destruct (translate_vars mv (en_rand e2)) as [r2|] eqn:Er; [|discriminate]. destruct (translate_vars mv (en_key e2)) as [k2|] eqn:Ek; [|discriminate].
      destruct (translate_vars mv (en_message e2)) as [m2|] eqn:Em; [|discriminate]. unfold and_then in H.
      destruct (unify_eqs gs mfuel k_f (en_key e1)) as [[uk|]|] eqn:U1; try discriminate. destruct (unify_eqs gs mfuel (en_rand e1) r2) as [[ur|]|] eqn:U2; try discriminate.
      destruct (unify_eqs gs mfuel (en_key e1) k2) as [[uk12|]|] eqn:U3; try discriminate. destruct (unify_eqs gs mfuel (en_message e1) m2) as [[um|]|] eqn:U4; try discriminate.
      destruct (free_of fuel _) as [free|] eqn:Ef; [|discriminate]. injection H as <-.
      apply translate_counts in Er, Ek, Em; try assumption. count; apply counts_ands; intros g Hg; apply in_app_or in Hg as [Hg|Hg].
      - eapply unify_eqs_counts; [exact U2|exact Pr1|exact Er|exact Hg].
      - eapply unify_eqs_counts; [exact U1|exact Hk|exact Pk1|exact Hg].
      - eapply unify_eqs_counts; [exact U3|exact Pk1|exact Ek|exact Hg].
      - eapply unify_eqs_counts; [exact U4|exact Pm1|exact Em|exact Hg].
    Qed.
    Lemma other_counts mv k_f es f : Forall enc_counts es -> counts k_f -> other_sc gs mfuel fuel mv k_f es = Some f -> counts f.
    Proof.
      intros Hp Hk H. unfold other_sc in H. destruct (mapM _ _) as [l|] eqn:E; [|discriminate]. injection H as <-. apply counts_ands. intros g Hg. apply in_flat_map in Hg as ([h|] & Hh & Hg); [|destruct Hg].
      destruct Hg as [<-|[]]. destruct (mapM_from _ _ _ _ E Hh) as ([e1 e2] & Hin & Ep). apply pairs_in in Hin as (i & j & _ & Hi & Hj). apply nth_error_In in Hi, Hj.
      rewrite Forall_forall in Hp. eapply pair_counts; [| |exact Hk|exact Ep]; auto.
    Qed.
    Lemma ctxt_instance_counts sm sk kmain kkey enc dec fail mv es sc c a : takes (Fuser enc) 3 -> takes (Fuser dec) 2 -> takes (Fuser fail) 0 ->
      Forall enc_counts es -> counts (fst c) -> counts (snd c) ->
      ctxt_instance gs tq mfuel sm sk kmain kkey steps cells anc scmp enc dec fail fuel mv es sc c = Some (Some a) -> counts a.
    Proof.
      intros D1 D2 D3 Hp Pc Pk H. destruct c as [cipher key]. cbn [fst snd] in *. unfold ctxt_instance in H.
      destruct (formulas_max_var_or_max _ _ _ _) as [uid|]; [|discriminate]. destruct (free_of fuel _) as [free|] eqn:Ef; [|discriminate]. cbv zeta in H.
      destruct (negb sc); [discriminate|]. destruct (finds_nothing _ _ _ _ _ _ _ _ _ _ _ _ _ _) as [[]|]; try discriminate.
      destruct (preprocess_terms _ _ _ _ _ _ _ _ _ _ _ _ _ _) as [ds|] eqn:Ed; [|discriminate]. destruct (other_sc _ _ _ _ _ _) as [other|] eqn:Eo; [|discriminate]. injection H as <-.
      assert (Ck : counts (cast_name key)) by count. assert (Co : counts other) by (eapply other_counts; [exact Hp|exact Ck|exact Eo]).
      assert (HM : counts (into_exist_formula scmp ds)).
      { apply merge_counts. eapply results_counts; [exact Hsteps|exact Hcells|exact Hquants|exact Hanc|apply children_sub|exact Ed| |].
        - intros m bvs [E|[]]. injection E as <- <-. exact Pc.
        - count. }
      count.
    Qed.
  End Definitions.
End Counts.

(** ** The whole file *)
Section Whole.
  Context (sig : fsym -> option (list sort * sort)) (table : nat -> option quantifier) (r : realm) (vampire_flag defined preprocess : bool)
    (anc : mref -> option ancestors) (scmp : sort -> sort -> comparison) (mfuel fuel : nat) (w : whole_problem).
  Context (HS : counts_whole sig table w) (Hans : answers_cells anc (wp_cells w)).
  Notation funs := (gp_funs (wp_gen w)).
  Notation counts := (counts sig funs).
  Notation takes := (takes sig funs).
  Notation written o := (Forall counts (o_axioms o)).

  Lemma steps_counted s : In s (gp_steps (wp_gen w)) -> step_counted sig funs s.
  Proof. intros H. split; [apply (nw_steps _ _ _ HS); exact H|]. split; apply (nw_terms _ _ _ HS); [apply pt_cond|apply pt_msg]; exact H. Qed.
  Lemma asgs_counted c a : In c (wp_cells w) -> In a (ce_asgs c) -> asg_counted sig funs a.
  Proof.
    intros Hc Ha. split; [apply steps_counted; eapply (nw_writers _ _ _ HS); eassumption|]. split; [apply (nw_terms _ _ _ HS); eapply pt_cell; eassumption|]. intros t Ht. eapply (nw_args _ _ _ HS); eassumption.
  Qed.
  Lemma quants_counted k f : In f (tq_contents (tq_of table k)) -> counts f.
  Proof.
    unfold tq_of. destruct (table k) as [q|] eqn:E; [|intros []]. cbn [tq_contents]. intros H. destruct (nw_quants _ _ _ HS k q E) as [_ Hq]. apply Hq. exact H.
  Qed.
  Lemma funs_counted f ins : In (f, ins) (funs_of sig w) -> takes f (length ins).
  Proof.
    unfold funs_of. intros H. apply in_flat_map in H as (g & Hg & H). destruct (sig g) as [[args out]|] eqn:E; [|destruct H]. destruct H as [H|[]]. injection H as <- <-. eapply (nw_sigs _ _ _ HS); eassumption.
  Qed.
  Lemma top_term g : In g (top_level_terms w) -> problem_term w g.
  Proof.
    intros Hg. unfold top_level_terms, protocol_terms in Hg. rewrite !in_app_iff in Hg. destruct Hg as [H|[[<-|[]]|[H|[[H|H]|H]]]].
    - apply pt_assert. exact H.
    - apply pt_query.
    - apply pt_lemma. exact H.
    - apply in_flat_map in H as (s & Hs & [<-|[<-|[]]]); [apply pt_cond|apply pt_msg]; exact Hs.
    - apply in_flat_map in H as (c & Hc & H). apply in_map_iff in H as (a & <- & Ha). eapply pt_cell; eassumption.
    - apply pt_extra. exact H.
  Qed.
  Lemma top_at t p f : In t (top_level_terms w) -> at_path t p f -> counts f.
  Proof. intros Ht Hp. eapply counts_at; [|exact Hp]. apply (nw_terms _ _ _ HS). apply top_term. exact Ht. Qed.
  Notation arg H := (counts_arg _ _ _ _ _ H).
  Lemma uf_checks_counts mac verify hmac f m s k : counts f -> uf_checks mac verify hmac f m s k -> counts m /\ counts s /\ counts k.
  Proof.
    intros Hf H.
    assert (M : counts (FFun (Fuser mac) [m; FFun (Fcast SMessage) [k]]) -> counts m /\ counts k).
    { intros P. split; [apply (arg P); cbn; tauto|]. apply (counts_arg sig funs (Fcast SMessage) [k]); [|left; reflexivity]. apply (arg P). cbn. tauto. }
    assert (E : forall a, counts (FFun (Feval SMessage) [a]) -> counts a) by (intros a P; apply (arg P); left; reflexivity).
    destruct H as [m s k|m s k _|m s k _|m s k _|m s k _|m s k _|m s k _].
    - split; [apply (arg Hf); cbn; tauto|]. split; [apply (arg Hf); cbn; tauto|]. apply (counts_arg sig funs (Fcast SMessage) [k]); [|left; reflexivity]. apply (arg Hf). cbn. tauto.
    - destruct M as [Hm Hk]; [apply (arg Hf); cbn; tauto|]. split; [exact Hm|]. split; [apply (arg Hf); cbn; tauto|exact Hk].
    - destruct M as [Hm Hk]; [apply (arg Hf); cbn; tauto|]. split; [exact Hm|]. split; [apply (arg Hf); cbn; tauto|exact Hk].
    - destruct M as [Hm Hk]; [apply E; apply (arg Hf); cbn; tauto|]. split; [exact Hm|]. split; [apply E; apply (arg Hf); cbn; tauto|exact Hk].
    - destruct M as [Hm Hk]; [apply E; apply (arg Hf); cbn; tauto|]. split; [exact Hm|]. split; [apply E; apply (arg Hf); cbn; tauto|exact Hk].
    - destruct M as [Hm Hk]; [apply (arg Hf); cbn; tauto|]. split; [exact Hm|]. split; [apply (arg Hf); cbn; tauto|exact Hk].
    - destruct M as [Hm Hk]; [apply (arg Hf); cbn; tauto|]. split; [exact Hm|]. split; [apply (arg Hf); cbn; tauto|exact Hk].
  Qed.
  Lemma euf_checks_counts verify pk f m s k : counts f -> euf_checks verify pk f m s k -> counts m /\ counts s /\ counts k.
  Proof.
    intros P H. destruct H as [m s k]. split; [apply (arg P); cbn; tauto|]. split; [apply (arg P); cbn; tauto|].
    apply (counts_arg sig funs (Fcast SMessage) [k]); [|left; reflexivity]. apply (counts_arg sig funs (Fuser pk) [FFun (Fcast SMessage) [k]]); [|left; reflexivity]. apply (arg P). cbn. tauto.
  Qed.
  Lemma candidates_counts found mv cs c : (forall f c, counts f -> In c (found f) -> cand_counts sig funs c) ->
    candidates found fuel mv (top_level_terms w) = Some cs -> In c cs -> cand_counts sig funs c.
  Proof.
    intros Hf H Hc. apply candidates_spec in H as [_ H]. destruct (H c Hc) as (t & q & f & c0 & Ht & Hq & Hc0 & Hp). unfold prepare in Hp.
    destruct (translate_vars mv (ca_message c0)) as [m|] eqn:Em; [|discriminate]. destruct (translate_vars mv (ca_signature c0)) as [s|] eqn:Es; [|discriminate].
    destruct (translate_vars mv (ca_key c0)) as [k|] eqn:Ek; [|discriminate]. injection Hp as <-.
    destruct (Hf f c0 (top_at t q f Ht Hq) Hc0) as (P1 & P2 & P3). split; [|split]; cbn [ca_message ca_signature ca_key]; eapply translate_counts; eassumption.
  Qed.
  Lemma dec_counts dec mv cs c : dec_candidates dec fuel mv (top_level_terms w) = Some cs -> In c cs -> counts (fst c) /\ counts (snd c).
  Proof.
    unfold dec_candidates. destruct (mapM (all_terms fuel) _) as [ts|] eqn:Et; [|discriminate]. destruct (mapM (prepare2 mv) _) as [l|] eqn:El; [|discriminate]. intros [= <-] Hc.
    apply uniq_in in Hc. destruct (mapM_from _ _ _ _ El Hc) as ([a b] & Hab & Ep). apply in_flat_map in Hab as (f & Hf & Hab). apply dec_found_in in Hab as ->.
    apply in_concat in Hf as (fs & Hfs & Hf). destruct (mapM_from _ _ _ _ Et Hfs) as (t & Ht & Eft). apply (all_terms_complete _ _ _ Eft) in Hf as (q & Hq).
    pose proof (top_at t q _ Ht Hq) as P. unfold prepare2 in Ep. cbn [fst snd] in Ep. destruct (translate_vars mv a) as [a'|] eqn:Ea; [|discriminate].
    destruct (translate_vars mv b) as [b'|] eqn:Eb; [|discriminate]. injection Ep as <-. cbn [fst snd]. split; (eapply translate_counts; [eassumption|]).
    - apply (arg P). cbn. tauto.
    - apply (counts_arg sig funs (Fcast SMessage) [b]); [|left; reflexivity]. apply (arg P). cbn. tauto.
  Qed.
  Lemma enc_counted enc es sc : enc_candidates enc (top_level_terms w) = (es, sc) -> Forall (enc_counts sig funs) es.
  Proof.
    intros H. apply enc_candidates_spec in H as (_ & _ & H). apply Forall_forall; intros e He; destruct (H e He) as (t & l & Ht & E). unfold Crypto_Spec.is_enc in E. subst t.
    pose proof (top_at _ [] _ Ht (at_here _)) as P. split; [|split; apply (arg P); cbn; tauto].
    apply (counts_arg sig funs (Fcast SMessage) (en_rand e :: l)); [|left; reflexivity]. apply (arg P). cbn. tauto.
  Qed.

  Lemma instances_counts {A} (b : bool) (cands : nat -> option (list A)) one l : when b (instances fuel w cands one) = Some l ->
    (forall mv cs c x, cands mv = Some cs -> In c cs -> one mv c = Some (Some x) -> counts x) -> Forall counts l.
  Proof.
    intros H Hq. destruct b; cbn in H; [|injection H as <-; constructor]. apply Forall_forall. intros x Hx. destruct (instances_from _ _ _ _ _ H x Hx) as (mv & cs & c & E1 & E2 & E3). eauto.
  Qed.
  Lemma definitions_counts key main g split ds axs split' : subterms_next (se_nexts key) -> subterms_next (se_nexts main) -> takes (Fuser split) 1 -> (forall a, g = Some a -> counts a) ->
    definitions sig table r defined anc scmp mfuel fuel w key main g split = Some (ds, axs, split') -> Forall counts axs.
  Proof.
    intros Hk Hm Hd Hg H. unfold definitions in H. destruct defined; cbn [negb] in H; [|injection H as <- <- <-; constructor].
    match type of H with match ?o with Some _ => _ | None => None end = _ => destruct o as [defs|] eqn:Ed; [|discriminate] end.
    assert (HD : Forall counts defs) by (eapply define_subterms_counts; [exact steps_counted|exact asgs_counted|exact quants_counted|exact Hans|exact funs_counted|exact Hk|exact Hm|exact Ed]).
    match type of H with (if ?b then _ else _) = _ => destruct b end; [|injection H as <- <- <-; exact HD].
    destruct (problem_max_var fuel (top_level_terms w)) as [mv|]; [|discriminate].
    match type of H with match ?o with Some _ => _ | None => None end = _ => destruct o as [sa|] eqn:Es; [|discriminate] end.
    destruct g as [g|]; [|discriminate]. injection H as <- <- <-. apply Forall_app. split; [exact HD|]. constructor; [|constructor; [|constructor]].
    - eapply split_counts; [exact steps_counted|exact asgs_counted|exact quants_counted|exact Hans|exact Hk|exact Hd|exact Es].
    - apply Hg. reflexivity.
  Qed.
  Lemma two s a b : takes s 2 -> counts a -> counts b -> counts (FFun s [a; b]).
  Proof. intros H Ha Hb. apply counts_args; [exact H|]. repeat constructor; assumption. Qed.
  Lemma three s a b c : takes s 3 -> counts a -> counts b -> counts c -> counts (FFun s [a; b; c]).
  Proof. intros H Ha Hb Hc. apply counts_args; [exact H|]. repeat constructor; assumption. Qed.
  Lemma one s a : takes s 1 -> counts a -> counts (FFun s [a]).
  Proof. intros H Ha. apply counts_args; [exact H|]. repeat constructor; assumption. Qed.

  Lemma generate_counts_assumption a n split o : In a (wp_assumptions w) -> (forall i, split <= i -> ~ In (Fuser i) funs) ->
    generate_assumption sig table r vampire_flag defined preprocess anc scmp mfuel fuel w a n split = Some o -> written o.
  Proof.
    intros Hin Hfr H. pose proof (nw_assumptions _ _ _ HS a Hin) as HN. assert (Hsp : takes (Fuser split) 1) by (split; [intros Hi; destruct (Hfr split (le_n _) Hi)|reflexivity]).
    destruct a as [mac verify hmac|sign verify pk|enc dec fail| | |direct recursive]; cbn [generate_assumption] in H; cbn [names_right] in HN.
    - destruct HN as [N1 N2]. unfold generate_uf in H. destruct (new_kind _ _ _ n) as [kmain n1]. destruct (new_kind _ _ _ n1) as [kkey n2].
      match type of H with match ?o with Some _ => _ | None => None end = _ => destruct o as [ins|] eqn:Ei; [|discriminate] end.
      match type of H with match ?o with Some _ => _ | None => None end = _ => destruct o as [[[ds axs] split']|] eqn:Ed; [|discriminate] end. injection H as <-. cbn [o_axioms].
      constructor; [apply uf_base_counts; assumption|]. apply Forall_app. split.
      + eapply instances_counts; [exact Ei|]. intros mv cs c x Hcs Hc Hx. unfold uf_instance in Hx.
        eapply instance_counts; [exact steps_counted|exact asgs_counted|exact quants_counted|exact Hans|apply uf_main_sub| | | |exact Hx].
        * intros a b. apply two. exact N1.
        * intros a b d Ha Hb Hd. unfold uf_premise. destruct hmac; [apply two; [exact eq_refl|..]; apply one; [exact eq_refl| |exact eq_refl|]; [exact Ha|apply two; assumption]|apply one; [exact eq_refl|apply three; assumption]].
        * eapply candidates_counts; [|exact Hcs|exact Hc]. intros f [m s k] Hf Hfo. apply uf_found_in in Hfo. eapply uf_checks_counts; eassumption.
      + refine (definitions_counts _ _ _ _ _ _ _ _ _ Hsp _ Ed); [apply uf_key_sub|apply uf_main_sub|]. intros a Ha. eapply general_counts; [exact Hsp| | |exact Ha]; intros; cbv beta; [apply two|apply three]; assumption.
    - destruct HN as (N1 & N2 & N3). unfold generate_euf in H. destruct (new_kind _ _ _ n) as [kmain n1]. destruct (new_kind _ _ _ n1) as [kkey n2].
      match type of H with match ?o with Some _ => _ | None => None end = _ => destruct o as [ins|] eqn:Ei; [|discriminate] end.
      match type of H with match ?o with Some _ => _ | None => None end = _ => destruct o as [[[ds axs] split']|] eqn:Ed; [|discriminate] end. injection H as <-. cbn [o_axioms].
      apply Forall_app. split.
      + eapply instances_counts; [exact Ei|]. intros mv cs c x Hcs Hc Hx. unfold euf_instance in Hx.
        eapply instance_counts; [exact steps_counted|exact asgs_counted|exact quants_counted|exact Hans|apply children_sub| | | |exact Hx].
        * intros a b. apply two. exact N1.
        * intros a b d Ha Hb Hd. unfold euf_premise. apply one; [exact eq_refl|]. apply three; try assumption. apply one; assumption.
        * eapply candidates_counts; [|exact Hcs|exact Hc]. intros f [m s k] Hf Hfo. apply euf_found_in in Hfo. eapply euf_checks_counts; eassumption.
      + refine (definitions_counts _ _ _ _ _ _ _ _ _ Hsp _ Ed); [apply euf_key_sub|apply children_sub|]. intros a Ha. eapply general_counts; [exact Hsp| | |exact Ha]; intros; cbv beta; [apply two; assumption|apply three; try assumption; apply one; assumption].
    - destruct HN as (N1 & N2 & N3). unfold generate_ctxt in H. destruct (new_kind _ _ _ n) as [kmain n1]. destruct (new_kind _ _ _ n1) as [kkey n2]. destruct (new_kind _ _ _ n2) as [krand n3]. cbv zeta in H.
      destruct (enc_candidates enc (top_level_terms w)) as [es sc] eqn:Ee. pose proof (enc_counted _ _ _ Ee) as Hp.
      match type of H with match ?o with Some _ => _ | None => None end = _ => destruct o as [ins|] eqn:Ei; [|discriminate] end.
      match type of H with match ?o with Some _ => _ | None => None end = _ => destruct o as [defs|] eqn:Ed; [|discriminate] end.
      match type of H with match ?o with Some _ => _ | None => None end = _ => destruct o as [g|] eqn:Eg; [|discriminate] end. injection H as <-. cbn [o_axioms].
      apply Forall_app. split; [|apply Forall_app; split; [|apply Forall_app; split; [|constructor; [apply ctxt_base_counts; assumption|constructor]]]].
      + eapply instances_counts; [exact Ei|]. intros mv cs c x Hcs Hin' Hx. destruct (dec_counts _ _ _ _ Hcs Hin') as (P1 & P2).
        eapply ctxt_instance_counts; [exact steps_counted|exact asgs_counted|exact quants_counted|exact Hans|exact N1|exact N2|exact N3|exact Hp|exact P1|exact P2|exact Hx].
      + destruct defined; cbn [when] in Ed; [|injection Ed as <-; constructor].
        eapply ctxt_define_counts; [exact steps_counted|exact asgs_counted|exact quants_counted|exact Hans|exact funs_counted| | | |exact Ed]; [apply children_sub|apply ctxt_key_sub|apply ctxt_rand_sub].
      + match type of Eg with when ?b _ = _ => destruct b end; cbn [when] in Eg; [|injection Eg as <-; constructor]. destruct (ctxt_general _ _ _ _ _ _ _ _ _ _) as [ga|] eqn:Ega; [|discriminate].
        injection Eg as <-. constructor; [eapply ctxt_general_counts; [exact N1|exact N2|exact N3|exact Ega]|constructor].
    - unfold generate_nonce in H. destruct (new_kind _ _ _ n) as [k n1]. destruct (nonce_axioms _ _ _ _ _ _ _ _ _ _ _ _) as [axs|] eqn:E; [|discriminate]. injection H as <-. cbn [o_axioms].
      eapply nonce_counts; [exact steps_counted|exact asgs_counted|exact quants_counted|exact Hans|exact funs_counted|exact E].
    - unfold generate_cells in H. destruct (protocol_max_var _ _ _) as [mv|]; [|discriminate]. destruct (mapM _ _) as [l|] eqn:E; [|discriminate]. injection H as <-. cbn [o_axioms].
      apply Forall_forall. intros x Hx. apply in_concat in Hx as (y & Hy & Hx). destruct (mapM_from _ _ _ _ E Hy) as (c & Hc & Ec).
      pose proof (cells_counts _ _ _ _ _ (nw_cells _ _ _ HS c Hc) (fun a Ha => asgs_counted c a Hc Ha) Ec) as F. rewrite Forall_forall in F. auto.
    - pose proof steps_counted as HSt. unfold generate_unfolding in H. destruct (gp_steps (wp_gen w)) as [|init others] eqn:Es; [discriminate|]. injection H as <-. cbn [o_axioms]. change (Forall counts (map msg_cond_axiom (init :: others) ++ exec_axioms direct recursive init others)). apply Forall_app. split.
      + apply Forall_forall. intros x Hx. apply in_map_iff in Hx as (s & <- & Hs). apply msg_cond_counts. apply HSt. exact Hs.
      + apply exec_counts; [apply HSt; left; reflexivity|intros s Hs; apply HSt; right; exact Hs].
  Qed.
  Lemma split_grows a n split o : generate_assumption sig table r vampire_flag defined preprocess anc scmp mfuel fuel w a n split = Some o -> split <= o_split o.
  Proof.
    assert (HD : forall key main g sp ds axs sp', definitions sig table r defined anc scmp mfuel fuel w key main g sp = Some (ds, axs, sp') -> sp <= sp').
    { intros key main g sp ds axs sp' E. unfold definitions in E. repeat match type of E with match ?o with _ => _ end = _ => destruct o; try discriminate | (if ?o then _ else _) = _ => destruct o; try discriminate end; injection E as <- <- <-; lia. }
    destruct a as [mac verify hmac|sign verify pk|enc dec fail| | |direct recursive]; cbn [generate_assumption].
    - unfold generate_uf. destruct (new_kind _ _ _ n) as [kmain n1]. destruct (new_kind _ _ _ n1) as [kkey n2]. destruct (when _ _); [|discriminate]. destruct (definitions _ _ _ _ _ _ _ _ _ _ _ _ _) as [[[ds axs] sp']|] eqn:E; [|discriminate].
      intros [= <-]. cbn. eapply HD. exact E.
    - unfold generate_euf. destruct (new_kind _ _ _ n) as [kmain n1]. destruct (new_kind _ _ _ n1) as [kkey n2]. destruct (when _ _); [|discriminate]. destruct (definitions _ _ _ _ _ _ _ _ _ _ _ _ _) as [[[ds axs] sp']|] eqn:E; [|discriminate].
      intros [= <-]. cbn. eapply HD. exact E.
    - unfold generate_ctxt. destruct (new_kind _ _ _ n) as [kmain n1]. destruct (new_kind _ _ _ n1) as [kkey n2]. destruct (new_kind _ _ _ n2) as [krand n3]. cbv zeta. destruct (enc_candidates _ _) as [es sc].
      destruct (when _ _); [|discriminate]. destruct (when _ _); [|discriminate]. destruct (when _ _); [|discriminate]. intros [= <-]. cbn. lia.
    - unfold generate_nonce. destruct (new_kind _ _ _ n) as [k n1]. destruct (nonce_axioms _ _ _ _ _ _ _ _ _ _ _ _); [|discriminate]. intros [= <-]. cbn. lia.
    - unfold generate_cells. destruct (protocol_max_var _ _ _); [|discriminate]. destruct (mapM _ _); [|discriminate]. intros [= <-]. cbn. lia.
    - unfold generate_unfolding. destruct (gp_steps _); [discriminate|]. intros [= <-]. cbn. lia.
  Qed.
  Lemma generate_counts_assumptions l : (forall a, In a l -> In a (wp_assumptions w)) -> forall n split o, (forall i, split <= i -> ~ In (Fuser i) funs) ->
    generate_assumptions sig table r vampire_flag defined preprocess anc scmp mfuel fuel w l n split = Some o -> written o.
  Proof.
    induction l as [|a l IH]; intros Hl n split o Hfr H; cbn [generate_assumptions] in H; [injection H as <-; constructor|].
    destruct (generate_assumption _ _ _ _ _ _ _ _ _ _ _ a n split) as [o1|] eqn:E1; [|discriminate]. destruct (generate_assumptions _ _ _ _ _ _ _ _ _ _ _ l _ _) as [o2|] eqn:E2; [|discriminate].
    injection H as <-. cbn [o_axioms]. apply Forall_app. split; [eapply generate_counts_assumption; [apply Hl; left; reflexivity|exact Hfr|exact E1]|].
    eapply IH; [intros b Hb; apply Hl; right; exact Hb| |exact E2]. intros i Hi. apply Hfr. apply split_grows in E1. lia.
  Qed.
  Lemma base_counts l : Forall counts l -> Forall (counts_axiom sig funs) (map ABase l).
  Proof. intros H. apply Forall_forall. intros x Hx. apply in_map_iff in Hx as (f & <- & Hf). rewrite Forall_forall in H. exact (H f Hf). Qed.
  Lemma whole_counts no_bitstring legacy skolem n split le ds axs : (forall i, split <= i -> ~ In (Fuser i) funs) ->
    whole_file sig table r vampire_flag defined preprocess anc scmp mfuel fuel w no_bitstring legacy skolem n split le = Some (ds, axs) -> Forall (counts_axiom sig funs) axs.
  Proof.
    intros Hfr H. unfold whole_file in H. destruct (problem_decls sig r (wp_gen w)); [|discriminate]. destruct (evaluate_decls _ _ _ _ _ _); [|discriminate].
    destruct (order_axioms (wp_gen w)) as [a1|] eqn:E1; [|discriminate]. destruct (Evaluate_Model.generate _ _ _ _ _ _ _) as [a2|] eqn:E2; [|discriminate].
    destruct (generate_assumptions _ _ _ _ _ _ _ _ _ _ _ _ _ _) as [o|] eqn:Eo; [|discriminate]. destruct (mapM _ _) as [a3|] eqn:E3; [|discriminate]. destruct (rewrites_found _ _ _ _ _); [|discriminate].
    injection H as <- <-. pose proof steps_counted as HSt. apply Forall_app. split; [|apply Forall_app; split; [|apply Forall_app; split]].
    - unfold order_axioms in E1. destruct (gp_steps (wp_gen w)) as [|init others] eqn:Es; [discriminate|]. injection E1 as <-. apply (base_counts (order_theory (into_formula init) ++ [gt_axiom] ++ step_axioms (init :: others) ++ map Parser_Model.order_axiom (gp_orders (wp_gen w)))).
      apply Forall_app. split; [|apply Forall_app; split; [|apply Forall_app; split]].
      + apply order_theory_counts. apply counts_step; [apply HSt; left; reflexivity|reflexivity].
      + constructor; [apply gt_counts|constructor].
      + unfold step_axioms. apply Forall_app. split; [|constructor; [apply exhaustive_counts; exact HSt|constructor]]. apply Forall_forall. intros x Hx. apply in_map_iff in Hx as (s & <- & Hs). apply distinct_counts; [exact HSt|apply HSt; exact Hs].
      + apply Forall_forall. intros x Hx. apply in_map_iff in Hx as (s & <- & Hs). apply ordering_counts. intros f Hf. eapply (nw_orders _ _ _ HS); eassumption.
    - eapply generate_counts; [| |exact E2].
      + intros k q Hi. apply in_map_iff in Hi as (f & Ef & _). destruct f; cbn in Ef; repeat match type of Ef with match ?o with _ => _ end = _ => destruct o eqn:?; try discriminate end; try discriminate.
        injection Ef as <- <-. eapply (nw_quants _ _ _ HS). eassumption.
      + intros i args out Hi. apply in_map_iff in Hi as (f & Ef & Hf). destruct f; cbn in Ef; repeat match type of Ef with match ?o with _ => _ end = _ => destruct o eqn:?; try discriminate end; try discriminate.
        injection Ef as <- <- <-. split; [intros _ ins out' E; congruence|]. intros Hno. destruct Hno. assumption.
    - apply base_counts. eapply generate_counts_assumptions; [|exact Hfr|exact Eo]. auto.
    - apply base_counts. apply Forall_forall. intros x Hx. destruct (mapM_from _ _ _ _ E3 Hx) as (g & Hg & Eg). eapply propagate_counts; [|exact Eg|].
      + intros k q E. apply (nw_quants _ _ _ HS). exact E.
      + apply (nw_terms _ _ _ HS). apply in_app_or in Hg as [Hg|[<-|[]]]; [apply pt_assert; exact Hg|apply pt_query].
  Qed.
End Whole.
