From Coq Require Import List Arith Bool Lia String Ascii Permutation.
From Verif Require Import Syntax_Model Sort_Model Parser_Model Source_Model Source_Spec Smt_Model Squirrel_Model
  Utils_Model Utils_Spec Convert_Model Convert_Spec Squirrel_Spec Squirrel_Proofs Squirrel_Props Dump_Model Dump_Spec Dump_Proofs Dump_Props Dump_Source_Model Dump_Source_Spec.
Import ListNotations.
Local Open Scope list_scope.

(** ** Names *)
Inductive tag : Type := TgName | TgFn | TgStep | TgVer.
Definition tag_kind (t : tag) : skd := match t with TgName => KName | TgFn | TgVer => KFunction | TgStep => KStep end.
Definition nm (wide : text -> bool) (k : tag * path) : text :=
  (match fst k with TgVer => str "verify_" | _ => [] end) ++ sanitize wide (tag_kind (fst k)) (path_text (snd k)).
Definition kept : list text := map str ["pair"; "fst"; "snd"; "fail"]%string.
Definition good (k : tag * path) : Prop :=
  legal_path (snd k) /\
  match fst k with
  | TgName | TgVer => ~ In (path_text (snd k)) special
  | TgFn => ~ In (path_text (snd k)) special \/ In (path_text (snd k)) kept
  | TgStep => ~ In (path_text (snd k)) special \/ path_text (snd k) = str "init"
  end.
Definition five : list text := str "init" :: kept.
Lemma five_same wide k s : In s five -> sanitize wide k s = s.
Proof. intros H. unfold five, kept in H. cbn [map In] in H. repeat (destruct H as [<-|H]; [reflexivity|]). destruct H. Qed.
Lemma five_special s : In s five -> In s special.
Proof. intros H. unfold five, kept in H. cbn [map In] in H. repeat (destruct H as [<-|H]; [vm_compute; tauto|]). destruct H. Qed.
Lemma five_plain s : In s five -> ~ In "_"%char s.
Proof. intros H. unfold five, kept in H. cbn [map In] in H. repeat (destruct H as [<-|H]; [vm_compute; intuition discriminate|]). destruct H. Qed.

(** A good name: a kept one, or one with its prefix. *)
Lemma nm_shape wide k : good k ->
  (~ In (path_text (snd k)) special /\ exists r, sanitize wide (tag_kind (fst k)) (path_text (snd k)) = kind_text (tag_kind (fst k)) ++ r) \/
  (In (path_text (snd k)) five /\ nm wide k = path_text (snd k) /\ ((fst k = TgFn /\ In (path_text (snd k)) kept) \/ (fst k = TgStep /\ path_text (snd k) = str "init"))).
Proof.
  destruct k as [t p]. unfold good. cbn [fst snd]. intros [L H].
  assert (A : ~ In (path_text p) special \/ In (path_text p) five /\ ((t = TgFn /\ In (path_text p) kept) \/ (t = TgStep /\ path_text p = str "init"))).
  { destruct t; try (left; exact H); (destruct H as [H|H]; [left; exact H|right]).
    - split; [right; exact H|left; auto].
    - split; [left; congruence|right; auto]. }
  destruct A as [A|[A B]].
  - left. split; [exact A|]. rewrite not_special by exact A. eexists. reflexivity.
  - right. split; [exact A|]. split; [|exact B]. unfold nm. cbn [fst snd]. destruct B as [[-> _]|[-> _]]; cbn [app tag_kind]; apply five_same; exact A.
Qed.
Lemma nm_inj wide a b : good a -> good b -> nm wide a = nm wide b -> a = b.
Proof.
  intros Ga Gb E. destruct (nm_shape wide a Ga) as [(Na & ra & Ea)|(Fa & Ea & Ta)], (nm_shape wide b Gb) as [(Nb & rb & Eb)|(Fb & Eb & Tb)];
    destruct a as [ta pa], b as [tb pb]; cbn [fst snd] in *.
  - assert (V : ta = tb).
    { unfold nm in E. cbn [fst snd] in E. rewrite Ea, Eb in E. destruct ta, tb; try reflexivity; cbn in E; discriminate E. }
    subst tb. unfold nm in E. cbn [fst snd] in E. apply app_inv_head in E. apply sanitize_inj in E; [|assumption|assumption]. destruct E as [_ E].
    apply path_text_inj in E; [congruence|exact (proj1 Ga)|exact (proj1 Gb)].
  - exfalso. rewrite Eb in E. unfold nm in E. cbn [fst snd] in E. rewrite Ea in E. apply (five_plain _ Fb). rewrite <- E.
    apply in_or_app. right. apply kind_underscore.
  - exfalso. rewrite Ea in E. unfold nm in E. cbn [fst snd] in E. rewrite Eb in E. apply (five_plain _ Fa). rewrite E.
    apply in_or_app. right. apply kind_underscore.
  - rewrite Ea, Eb in E. assert (pa = pb) by (apply path_text_inj; [exact (proj1 Ga)|exact (proj1 Gb)|exact E]). subst pb.
    destruct Ta as [[-> I]|[-> I]], Tb as [[-> J]|[-> J]]; try reflexivity; exfalso.
    + rewrite J in I. vm_compute in I. intuition discriminate.
    + rewrite I in J. vm_compute in J. intuition discriminate.
Qed.
Lemma nm_fresh wide k : good k -> In "_"%char (nm wide k) \/ In (nm wide k) five.
Proof.
  intros G. destruct (nm_shape wide k G) as [(N & r & E)|(F & E & _)].
  - left. unfold nm. rewrite E. apply in_or_app. right. apply kind_underscore.
  - right. rewrite E. exact F.
Qed.
Lemma nm_init wide k : good k -> nm wide k = str "init" -> fst k = TgStep /\ path_text (snd k) = str "init".
Proof.
  intros G E. destruct (nm_shape wide k G) as [(N & r & E')|(F & E' & T)].
  - exfalso. unfold nm in E. rewrite E' in E. assert (I : In "_"%char (str "init")) by (rewrite <- E; apply in_or_app; right; apply kind_underscore).
    vm_compute in I. intuition discriminate.
  - destruct T as [[_ I]|T]; [|exact T]. exfalso. rewrite E' in E. rewrite E in I. vm_compute in I. intuition discriminate.
Qed.

(** ** Sections *)
Lemma section_in {A B} (R : A -> list B -> Prop) l m y : section R l m -> In y m -> exists x ys, In x l /\ R x ys /\ In y ys.
Proof.
  induction 1 as [|x ys l m H S IH]; [intros []|]. intros I. apply in_app_iff in I. destruct I as [I|I]; [exists x, ys; cbn; auto|].
  destruct (IH I) as (x' & ys' & ? & ? & ?). exists x', ys'. cbn. auto.
Qed.
Lemma section_has {A B} (R : A -> list B -> Prop) l m x : section R l m -> In x l -> exists ys, R x ys /\ incl ys m.
Proof.
  induction 1 as [|x' ys l m H S IH]; [intros []|]. intros [->|I]; [exists ys; split; [exact H|apply incl_appl, incl_refl]|].
  destruct (IH I) as (ys' & ? & ?). exists ys'. split; [assumption|apply incl_appr; assumption].
Qed.
Lemma section_nothing {A B C} (f : list B -> list C) (R : A -> list B -> Prop) l m :
  f [] = [] -> (forall a b, f (a ++ b) = f a ++ f b) -> (forall x ys, R x ys -> f ys = []) -> section R l m -> f m = [].
Proof. intros H0 Ha H S. induction S as [|x ys l m Hx S IH]; [exact H0|]. rewrite Ha, IH, (H _ _ Hx). reflexivity. Qed.
Lemma section_keys {A B C} (f : list B -> list C) (h : path -> C) (P : path * A -> Prop) (R : path * A -> list B -> Prop) l m :
  f [] = [] -> (forall a b, f (a ++ b) = f a ++ f b) -> (forall x ys, In x l -> R x ys -> f ys = [] \/ f ys = [h (fst x)] /\ P x) ->
  NoDup (map fst l) -> section R l m ->
  exists ps, f m = map h ps /\ NoDup ps /\ forall p, In p ps -> exists a, In (p, a) l /\ P (p, a).
Proof.
  intros H0 Ha H N S. induction S as [|x ys l m Hx S IH]; [exists []; split; [exact H0|split; [constructor|intros p []]]|].
  cbn [map] in N. apply NoDup_cons_iff in N. destruct N as [Nx N].
  destruct (IH ltac:(intros; apply H; [right; assumption|assumption]) N) as (ps & E & Np & Hp).
  destruct (H x ys (or_introl eq_refl) Hx) as [Ey|[Ey Px]].
  - exists ps. rewrite Ha, Ey, E. split; [reflexivity|]. split; [exact Np|]. intros p I. destruct (Hp p I) as (a & I' & Pa). exists a. split; [right; exact I'|exact Pa].
  - exists (fst x :: ps). rewrite Ha, Ey, E. split; [reflexivity|]. split.
    + constructor; [|exact Np]. intros I. apply Nx. destruct (Hp _ I) as (a & I' & _). apply in_map_iff. exists (fst x, a). auto.
    + intros p [<-|I].
      * exists (snd x). rewrite <- surjective_pairing. split; [left; reflexivity|exact Px].
      * destruct (Hp p I) as (a & I' & Pa). exists a. split; [right; exact I'|exact Pa].
Qed.

(** ** The converted file *)
Section File.
  Context (code : text -> name).
  Definition fnames (l : list ditem) : list name := names_of (map (to_item code) l).
  Definition ftypes (l : list ditem) : list name := types_of (map (to_item code) l).
  Definition flets (l : list ditem) : list name := macros_of (map (to_item code) l).
  Definition fqueries (l : list ditem) : list term := queries_of (map (to_item code) l).
  Lemma fnames_app a b : fnames (a ++ b) = fnames a ++ fnames b. Proof. unfold fnames, names_of. rewrite map_app, flat_map_app. reflexivity. Qed.
  Lemma ftypes_app a b : ftypes (a ++ b) = ftypes a ++ ftypes b. Proof. unfold ftypes, types_of. rewrite map_app, flat_map_app. reflexivity. Qed.
  Lemma flets_app a b : flets (a ++ b) = flets a ++ flets b. Proof. unfold flets, macros_of. rewrite map_app, flat_map_app. reflexivity. Qed.
  Lemma fqueries_app a b : fqueries (a ++ b) = fqueries a ++ fqueries b. Proof. unfold fqueries, queries_of. rewrite map_app, flat_map_app. reflexivity. Qed.
End File.

Ltac item_cases :=
  unfold type_item, cell_item, name_item, operator_item, global_item, defined_item, let_item, step_item, crypto_item;
  intros;
  repeat match goal with
  | H : exists _, _ |- _ => destruct H
  | H : _ /\ _ |- _ => destruct H
  | H : _ \/ _ |- _ => destruct H
  | H : match ?x with _ => _ end |- _ => destruct x
  | H : if ?x then _ else _ |- _ => destruct x
  end; subst; try reflexivity.

Section Parts.
  Context (wide : text -> bool) (table : nat -> jsort) (d : dump) (code : text -> name) (term : jterm -> aterm -> Prop).
  Notation fnames := (fnames code). Notation ftypes := (ftypes code). Notation flets := (flets code). Notation fqueries := (fqueries code).

  Lemma no_queries_T e ys : type_item wide e ys -> fqueries ys = [] /\ fnames ys = [] /\ flets ys = [].
  Proof. item_cases; repeat split. Qed.
  Lemma no_queries_C e ys : cell_item wide table d e ys -> fqueries ys = [] /\ ftypes ys = [] /\ flets ys = [].
  Proof. item_cases; repeat split. Qed.
  Lemma no_queries_N e ys : name_item wide table d e ys -> fqueries ys = [] /\ ftypes ys = [] /\ flets ys = [].
  Proof. item_cases; repeat split. Qed.
  Lemma no_queries_F e ys : operator_item wide table d e ys -> fqueries ys = [] /\ ftypes ys = [] /\ flets ys = [].
  Proof. item_cases; repeat split. Qed.
  Lemma no_queries_G e ys : global_item wide table d term e ys -> fqueries ys = [] /\ ftypes ys = [] /\ fnames ys = [].
  Proof. item_cases; repeat split. Qed.
  Lemma no_queries_K e ys : defined_item wide table d term e ys -> fqueries ys = [] /\ ftypes ys = [] /\ fnames ys = [].
  Proof. item_cases; repeat split. Qed.
  Lemma no_queries_S e ys : step_item wide table d term e ys -> fqueries ys = [] /\ ftypes ys = [] /\ flets ys = [].
  Proof. item_cases; repeat split. Qed.
  Lemma no_queries_P e ys : crypto_item wide e ys -> fqueries ys = [] /\ ftypes ys = [] /\ flets ys = [].
  Proof. item_cases; repeat split. Qed.
End Parts.

Lemma nodup_map {A B} (f : A -> B) l : (forall a b, In a l -> In b l -> f a = f b -> a = b) -> NoDup l -> NoDup (map f l).
Proof.
  intros H N. induction N as [|a l Na N IH]; cbn; constructor.
  - rewrite in_map_iff. intros (b & E & I). apply Na. rewrite (H a b); [exact I|left; reflexivity|right; exact I|congruence].
  - apply IH. intros; apply H; [right; assumption|right; assumption|assumption].
Qed.
Lemma nodup_app {A} (l m : list A) : NoDup l -> NoDup m -> (forall a, In a l -> ~ In a m) -> NoDup (l ++ m).
Proof.
  intros N M H. induction N as [|a l Na N IH]; cbn; [exact M|]. constructor.
  - rewrite in_app_iff. intros [I|I]; [exact (Na I)|exact (H a (or_introl eq_refl) I)].
  - apply IH. intros b I. apply H. right. exact I.
Qed.

Ltac nothing fapp lem sec :=
  eapply section_nothing; [reflexivity|exact fapp| |exact sec]; intros e ys R;
  let Q := fresh in pose proof R as Q; eapply lem in Q; destruct Q as (Q1 & Q2 & Q3); first [exact Q1|exact Q2|exact Q3].
Lemma F2_right {A B} (R : A -> B -> Prop) l m : Forall2 R l m -> forall b, In b m -> exists a, In a l /\ R a b.
Proof. induction 1 as [|a b l m Hab _ IH]; intros c [].
  - subst c. exists a. split; [left; reflexivity|exact Hab].
  - destruct (IH c H) as (a' & I & Ra). exists a'. split; [right; exact I|exact Ra].
Qed.

(** Neither [init], [pair], [fst], [snd] or [fail] nor with an underscore. *)
Definition clear (s : text) : bool :=
  negb (existsb (fun c => Ascii.eqb c "_") s) && negb (existsb (fun t => if list_eq_dec ascii_dec s t then true else false) five).
Lemma clear_not s t : clear s = true -> In t five \/ In "_"%char t -> t <> s.
Proof.
  unfold clear. intros H I ->. apply andb_true_iff in H. destruct H as [A B]. apply negb_true_iff in A, B. destruct I as [I|I].
  - assert (X : existsb (fun t => if list_eq_dec ascii_dec s t then true else false) five = true); [|congruence].
    apply existsb_exists. exists s. split; [exact I|]. destruct (list_eq_dec ascii_dec s s); [reflexivity|contradiction].
  - assert (X : existsb (fun c => Ascii.eqb c "_") s = true); [|congruence]. apply existsb_exists. exists "_"%char. split; [exact I|reflexivity].
Qed.
Lemma clear_all (l : list string) : forallb (fun s => clear (str s)) l = true -> forall s, In s l -> clear (str s) = true.
Proof. intros H s I. rewrite forallb_forall in H. apply H. exact I. Qed.

Lemma converted_declared : forall wide table shuffle fuel d x i l code bs bf kw, (forall A (l : list A), Permutation (shuffle A l) l) ->
  convert_dump wide table shuffle fuel d = OOk x -> aget x i = Some l -> declarable table d -> coded code bs bf kw ->
  well_declared bs bf kw (map (to_item code) l).
Proof.
  intros wide table shuffle fuel d x i l code bs bf kw sh E H [Dty Dkn Dna Dce Dfu Dha Dgl Dle Dac] [Inj Ini Cs [_ Cf] Ck].
  destruct (C103_contents _ _ _ _ _ _ _ _ sh E H) as (csort & names & operators & macros & Hsort & _ & _ & _ & types & ms & ns & os & xs & cs & T & C & N & F & G & K & S & O & P & q &
    LT & ST & LM & SC & SG & LN & SN & LO & SF & SK & SP & LX & SS & _ & SO & _ & El).
  set (term := fun t b => exists y, convert wide csort names operators macros (Any tt) t = OOk y /\ aget y i = Some b) in *.
  set (asserts := map (fun c => DAssert _) _) in El. set (fixed := [DCrypto (str "nonce") [] []; _; _]) in El.
  (* what each section declares *)
  assert (Asserts : fqueries code asserts = [] /\ ftypes code asserts = [] /\ flets code asserts = [] /\ fnames code asserts = []) by (repeat split).
  assert (Fixed : fqueries code fixed = [] /\ ftypes code fixed = [] /\ flets code fixed = [] /\ fnames code fixed = []) by (repeat split).
  assert (Orders : fqueries code O = [] /\ ftypes code O = [] /\ flets code O = [] /\ fnames code O = []).
  { assert (A : forall X (f : list ditem -> list X), f [] = [] -> (forall a b, f (a ++ b) = f a ++ f b) -> (forall o, f [DOrder o] = []) -> f O = []).
    { intros X f F0 Fa Fo. eapply (section_nothing f); [exact F0|exact Fa| |exact SO]. intros c ys [(_ & ->)|(o & _ & ->)]; [exact F0|apply Fo]. }
    repeat split; apply A; try reflexivity; [apply fqueries_app|apply ftypes_app|apply flets_app|apply fnames_app]. }
  assert (QT : fqueries code T = []) by (nothing (fqueries_app code) no_queries_T ST).
  assert (QC : fqueries code C = []) by (nothing (fqueries_app code) no_queries_C SC).
  assert (QN : fqueries code N = []) by (nothing (fqueries_app code) no_queries_N SN).
  assert (QF : fqueries code F = []) by (nothing (fqueries_app code) no_queries_F SF).
  assert (QG : fqueries code G = []) by (nothing (fqueries_app code) no_queries_G SG).
  assert (QK : fqueries code K = []) by (nothing (fqueries_app code) no_queries_K SK).
  assert (QS : fqueries code S = []) by (nothing (fqueries_app code) no_queries_S SS).
  assert (QP : fqueries code P = []) by (nothing (fqueries_app code) no_queries_P SP).
  assert (TC : ftypes code C = []) by (nothing (ftypes_app code) no_queries_C SC).
  assert (TN : ftypes code N = []) by (nothing (ftypes_app code) no_queries_N SN).
  assert (TF : ftypes code F = []) by (nothing (ftypes_app code) no_queries_F SF).
  assert (TG : ftypes code G = []) by (nothing (ftypes_app code) no_queries_G SG).
  assert (TK : ftypes code K = []) by (nothing (ftypes_app code) no_queries_K SK).
  assert (TS : ftypes code S = []) by (nothing (ftypes_app code) no_queries_S SS).
  assert (TP : ftypes code P = []) by (nothing (ftypes_app code) no_queries_P SP).
  assert (MT : flets code T = []) by (nothing (flets_app code) no_queries_T ST).
  assert (MC : flets code C = []) by (nothing (flets_app code) no_queries_C SC).
  assert (MN : flets code N = []) by (nothing (flets_app code) no_queries_N SN).
  assert (MF : flets code F = []) by (nothing (flets_app code) no_queries_F SF).
  assert (MS : flets code S = []) by (nothing (flets_app code) no_queries_S SS).
  assert (MP : flets code P = []) by (nothing (flets_app code) no_queries_P SP).
  assert (NT : fnames code T = []) by (nothing (fnames_app code) no_queries_T ST).
  assert (NG : fnames code G = []) by (nothing (fnames_app code) no_queries_G SG).
  assert (NK : fnames code K = []) by (nothing (fnames_app code) no_queries_K SK).
  (* the keys *)
  destruct (section_keys (ftypes code) (fun p => code (sanitize wide KSort (path_text p))) (fun e => indexable (snd e)) (type_item wide) _ _ eq_refl (ftypes_app code)
    ltac:(intros e ys _ R; destruct R as [(I & ->)|(I & ->)]; [right; split; [reflexivity|exact I]|left; reflexivity]) (proj1 LT) ST) as (kT & ET & NkT & HkT).
  destruct (section_keys (fnames code) (fun p => code (nm wide (TgFn, p))) (fun e => exists s vs t, snd e = DState s vs t) (cell_item wide table d) _ _ eq_refl (fnames_app code)
    ltac:(intros [p m] ys _ R; unfold cell_item in R; cbn [fst snd] in *; destruct m as [| |s vs t|]; try (left; subst; reflexivity);
          destruct R as (out & args & _ & _ & ->); right; split; [reflexivity|eauto]) (proj1 LM) SC) as (kC & EC & NkC & HkC).
  destruct (section_keys (fnames code) (fun p => code (nm wide (TgName, p))) (fun e => f_poly (snd e) = false) (name_item wide table d) _ _ eq_refl (fnames_app code)
    ltac:(intros [p m] ys _ R; unfold name_item in R; cbn [fst snd] in *; destruct (f_poly m); [left; subst; reflexivity|];
          destruct R as (ins & args & _ & _ & ->); right; split; reflexivity) (proj1 LN) SN) as (kN & EN & NkN & HkN).
  destruct (section_keys (fnames code) (fun p => code (nm wide (TgFn, p))) (fun e => as_function (fst e) (snd e)) (operator_item wide table d) _ _ eq_refl (fnames_app code)
    ltac:(intros [p m] ys _ R; unfold operator_item in R; cbn [fst snd] in *; unfold as_function; destruct (op_def m) eqn:Em; [|left; subst; reflexivity];
          destruct R as [(_ & ->)|[(_ & ->)|(Hp & Hu & ins & args & out & _ & _ & _ & ->)]]; [left; reflexivity|left; reflexivity|];
          right; split; [reflexivity|eauto]) (proj1 LO) SF) as (kF & EF & NkF & HkF).
  destruct (section_keys (fnames code) (fun p => code (nm wide (TgStep, p))) (fun e => True) (step_item wide table d term) _ _ eq_refl (fnames_app code)
    ltac:(intros [p m] ys I (_ & args & cond & message & updates & _ & _ & _ & _ & ->); right; split; [|exact Logic.I];
          apply LX in I; destruct I as (l1 & l2 & Ei & _);
          assert (In (p, m) (map (fun a => (a_name (x_action a), a)) (d_actions d))) as I by (rewrite Ei; apply in_elt);
          apply in_map_iff in I; destruct I as (m' & Em & _); injection Em as <- <-; reflexivity) (proj1 LX) SS) as (kS & ES & NkS & HkS).
  destruct (section_keys (fnames code) (fun p => code (nm wide (TgVer, p))) (fun e => exists l, op_def (snd e) = Abstract AHash l) (crypto_item wide) _ _ eq_refl (fnames_app code)
    ltac:(intros [p m] ys _ R; unfold crypto_item in R; cbn [fst snd] in *; destruct (op_def m) as [[| | |] ass|]; try (left; subst; reflexivity);
          [right; subst; split; [reflexivity|eauto]|destruct R as (? & ? & _ & ->); left; reflexivity|destruct R as (? & ? & _ & ->); left; reflexivity])
    (proj1 LO) SP) as (kP & EP & NkP & HkP).
  destruct (section_keys (flets code) (fun p => code (nm wide (TgFn, p))) (fun e => exists a b c t, snd e = DGlobal a b c t) (global_item wide table d term) _ _ eq_refl (flets_app code)
    ltac:(intros [p m] ys _ R; unfold global_item in R; cbn [fst snd] in *; destruct m as [| | |a b c t]; try (left; subst; reflexivity);
          destruct R as (args & b' & _ & _ & ->); right; split; [reflexivity|eauto]) (proj1 LM) SG) as (kG & EG & NkG & HkG).
  destruct (section_keys (flets code) (fun p => code (nm wide (TgFn, p))) (fun e => as_let (snd e)) (defined_item wide table d term) _ _ eq_refl (flets_app code)
    ltac:(intros [p m] ys _ R; unfold defined_item in R; cbn [fst snd] in *; unfold as_let; destruct (op_def m); [left; subst; reflexivity|];
          destruct R as (args' & b' & _ & _ & ->); right; split; [reflexivity|eauto]) (proj1 LO) SK) as (kK & EK & NkK & HkK).
  set (keys := map (pair TgFn) kC ++ map (pair TgName) kN ++ map (pair TgFn) kF ++ map (pair TgStep) kS ++ map (pair TgVer) kP).
  assert (Enames : names_of (map (to_item code) l) = map (fun k => code (nm wide k)) keys).
  { change (fnames code l = map (fun k => code (nm wide k)) keys). rewrite El, !fnames_app, NT, EC, EN, EF, NG, NK, (proj2 (proj2 (proj2 Asserts))), ES, (proj2 (proj2 (proj2 Orders))), (proj2 (proj2 (proj2 Fixed))), EP.
    unfold keys. rewrite !map_app, !map_map. cbn [app]. change (fnames code [DType (str "index")]) with (@nil name). change (fnames code [DQuery q]) with (@nil name).
    cbn [app]. rewrite app_nil_r. reflexivity. }
  assert (Etypes : types_of (map (to_item code) l) = map (fun p => code (sanitize wide KSort (path_text p))) kT ++ [code (str "index")]).
  { change (ftypes code l = map (fun p => code (sanitize wide KSort (path_text p))) kT ++ [code (str "index")]).
    rewrite El, !ftypes_app, ET, TC, TN, TF, TG, TK, (proj1 (proj2 Asserts)), TS, (proj1 (proj2 Orders)), (proj1 (proj2 Fixed)), TP. reflexivity. }
  assert (Elets : macros_of (map (to_item code) l) = map (fun p => code (nm wide (TgFn, p))) (kG ++ kK)).
  { change (flets code l = map (fun p => code (nm wide (TgFn, p))) (kG ++ kK)).
    rewrite El, !flets_app, MT, MC, MN, MF, EG, EK, (proj1 (proj2 (proj2 Asserts))), MS, (proj1 (proj2 (proj2 Orders))), (proj1 (proj2 (proj2 Fixed))), MP.
    rewrite map_app. change (flets code [DType (str "index")]) with (@nil name). change (flets code [DQuery q]) with (@nil name). cbn [app]. rewrite app_nil_r. reflexivity. }
  assert (Good : forall k, In k keys -> good k).
  { intros k I. unfold keys in I. rewrite !in_app_iff, !in_map_iff in I.
    destruct I as [(p & <- & I)|[(p & <- & I)|[(p & <- & I)|[(p & <- & I)|(p & <- & I)]]]].
    - destruct (HkC p I) as (m & Im & s & vs & t & Em). cbn in Em. subst m. apply LM in Im. destruct (Dce _ _ _ _ Im) as ((L & Ns) & _). split; cbn; auto.
    - destruct (HkN p I) as (m & Im & Em). cbn in Em. apply LN in Im. destruct (Dna _ _ Im Em) as (L & Ns). split; cbn; auto.
    - destruct (HkF p I) as (m & Im & Em). cbn in Em. apply LO in Im. destruct (Dfu _ _ Im Em) as (L & Ns & _). split; cbn; auto.
    - destruct (HkS p I) as (m & Im & _). apply LX in Im. assert (p = a_name (x_action m)).
      { destruct Im as (l1 & l2 & Ei & _). assert (In (p, m) (map (fun a => (a_name (x_action a), a)) (d_actions d))) as I' by (rewrite Ei; apply in_elt).
        apply in_map_iff in I'. destruct I' as (m' & Em & _). injection Em as <- <-. reflexivity. }
      subst p. destruct (Dac m Im) as (L & [Ns|(Ns & _)]); split; cbn; auto.
    - destruct (HkP p I) as (m & Im & ll & Em). cbn in Em. apply LO in Im. destruct (Dha _ _ _ Im Em) as (L & Ns). split; cbn; auto. }
  assert (Nkeys : NoDup keys).
  { assert (Tag : forall (t : tag) (ks : list path), NoDup ks -> NoDup (map (pair t) ks)) by (intros t ks Nk; apply nodup_map; [congruence|exact Nk]).
    unfold keys. repeat (apply nodup_app; [apply Tag; assumption| |]); [apply Tag; assumption| | | |];
      (intros k; rewrite in_map_iff; intros (p & <- & I); rewrite ?in_app_iff, !in_map_iff; intros J;
       repeat match goal with J : _ \/ _ |- _ => destruct J as [J|J] end; destruct J as (p' & J & I'); try discriminate J; injection J as ->).
    destruct (HkC _ I) as (m & Im & s & vs & t & Em). cbn in Em. subst m. apply LM in Im. destruct (Dce _ _ _ _ Im) as (_ & No).
    destruct (HkF _ I') as (m & Im' & Em). apply LO in Im'. exact (No _ Im' Em). }
  assert (Stypes : forall p s, (exists k, In (p, k) types /\ indexable k) -> s = sanitize wide KSort (path_text p) -> In (code s) (types_of (map (to_item code) l))).
  { intros p s (k & I & Ix) ->. destruct (section_has _ _ _ _ ST I) as (ys & R & Inc). destruct R as [(_ & ->)|(Nx & _)]; [|contradiction].
    unfold types_of. apply in_flat_map. exists (IType (code (sanitize wide KSort (path_text p)))). split; [|left; reflexivity].
    change (IType (code (sanitize wide KSort (path_text p)))) with (to_item code (DType (sanitize wide KSort (path_text p)))). apply in_map. rewrite El.
    apply in_app_iff. left. apply Inc. left. reflexivity. }
  assert (Idx : In (code (str "index")) (types_of (map (to_item code) l))) by (rewrite Etypes; apply in_app_iff; right; left; reflexivity).
  assert (Sort : forall n s, sort_name wide d (table n) s -> In (code s) (map fst bs) \/ In (code s) (types_of (map (to_item code) l))).
  { intros n s Hs. remember (table n) as j eqn:Ej. destruct Hs as [| | | | | |p k Hk Nk|p Hk].
    1,2,3,4,6: left; rewrite Cs; cbn; tauto. 1: right; exact Idx.
    - left; rewrite Cs; cbn; tauto.
    - right. destruct (Dkn n p (eq_sym Ej)) as (k & Lk). apply (Stypes p _); [|reflexivity]. exists k. split; [apply LT; exact Lk|apply Hk; exact Lk]. }
  assert (Type_ : forall t s, type_name wide table d t s -> In (code s) (map fst bs) \/ In (code s) (types_of (map (to_item code) l))).
  { intros t s Ht. destruct Ht as [ts|n s Hs]; [left; rewrite Cs; cbn; tauto|]. eapply Sort; eauto. }
  assert (Types : forall ts ss, Forall2 (type_name wide table d) ts ss -> forall x, In x (map code ss) -> In x (map fst bs) \/ In x (types_of (map (to_item code) l))).
  { intros ts ss Ff x0 Ix. apply in_map_iff in Ix. destruct Ix as (s & <- & Is). destruct (F2_right _ _ _ Ff s Is) as (t & _ & Ht). eapply Type_; exact Ht. }
  assert (Sorts : forall vs ss, Forall2 (fun v a => sort_name wide d (table (j_sort v)) a) vs ss -> forall x, In x (map code ss) -> In x (map fst bs) \/ In x (types_of (map (to_item code) l))).
  { intros ts ss Ff x0 Ix. apply in_map_iff in Ix. destruct Ix as (s & <- & Is). destruct (F2_right _ _ _ Ff s Is) as (t & _ & Ht). eapply Sort; exact Ht. }
  assert (Binds : forall vs ss, Forall2 (binds wide table d) vs ss -> forall x, In x (map snd (map (code_pair code) ss)) -> In x (map fst bs) \/ In x (types_of (map (to_item code) l))).
  { intros vs ss Ff x0 Ix. rewrite map_map in Ix. apply in_map_iff in Ix. destruct Ix as (s & <- & Is). destruct (F2_right _ _ _ Ff s Is) as (t & _ & _ & Ht). eapply Sort; exact Ht. }
  assert (In_l : forall it, In it l -> (exists e, In e types /\ exists ys, type_item wide e ys /\ In it ys) \/ it = DType (str "index") \/
     (exists e, In e ms /\ exists ys, cell_item wide table d e ys /\ In it ys) \/ (exists e, In e ns /\ exists ys, name_item wide table d e ys /\ In it ys) \/
     (exists e, In e os /\ exists ys, operator_item wide table d e ys /\ In it ys) \/ (exists e, In e ms /\ exists ys, global_item wide table d term e ys /\ In it ys) \/
     (exists e, In e os /\ exists ys, defined_item wide table d term e ys /\ In it ys) \/ In it asserts \/
     (exists e, In e xs /\ exists ys, step_item wide table d term e ys /\ In it ys) \/ (exists o, it = DOrder o) \/ In it fixed \/
     (exists e, In e os /\ exists ys, crypto_item wide e ys /\ In it ys) \/ it = DQuery q).
  { intros it I. rewrite El in I. rewrite !in_app_iff in I. destruct I as [I|[I|[I|[I|[I|[I|[I|[I|[I|[I|[I|[I|I]]]]]]]]]]]].
    - left. destruct (section_in _ _ _ _ ST I) as (e & ys & Ie & R & Iy). eauto 6.
    - right; left. destruct I as [I|[]]. symmetry; exact I.
    - right; right; left. destruct (section_in _ _ _ _ SC I) as (e & ys & Ie & R & Iy). eauto 6.
    - do 3 right; left. destruct (section_in _ _ _ _ SN I) as (e & ys & Ie & R & Iy). eauto 6.
    - do 4 right; left. destruct (section_in _ _ _ _ SF I) as (e & ys & Ie & R & Iy). eauto 6.
    - do 5 right; left. destruct (section_in _ _ _ _ SG I) as (e & ys & Ie & R & Iy). eauto 6.
    - do 6 right; left. destruct (section_in _ _ _ _ SK I) as (e & ys & Ie & R & Iy). eauto 6.
    - do 7 right; left. exact I.
    - do 8 right; left. destruct (section_in _ _ _ _ SS I) as (e & ys & Ie & R & Iy). eauto 6.
    - do 9 right; left. destruct (section_in _ _ _ _ SO I) as (e & ys & Ie & R & Iy). destruct R as [(_ & ->)|(o & _ & ->)]; [destruct Iy|destruct Iy as [<-|[]]; eauto].
    - do 10 right; left. exact I.
    - do 11 right; left. destruct (section_in _ _ _ _ SP I) as (e & ys & Ie & R & Iy). eauto 6.
    - do 12 right. destruct I as [<-|[]]; reflexivity. }
  assert (Under : forall p, In p kT -> In "_"%char (sanitize wide KSort (path_text p)) /\ legal_path p /\ ~ In (path_text p) special).
  { intros p I. destruct (HkT p I) as (k & Ik & Ix). apply LT in Ik. destruct (Dty _ _ Ik Ix) as (L & Ns). split; [|auto].
    rewrite not_special by exact Ns. apply kind_underscore. }
  split.
  - rewrite Etypes. split.
    + apply nodup_app.
      * apply nodup_map; [|exact NkT]. intros a b Ia Ib Eab. apply Inj in Eab. destruct (Under a Ia) as (_ & La & Na), (Under b Ib) as (_ & Lb & Nb).
        apply sanitize_inj in Eab; [|assumption|assumption]. apply path_text_inj; tauto.
      * repeat constructor. intros [].
      * intros x0 Ix [<-|[]]. apply in_map_iff in Ix. destruct Ix as (p & Ep & Ip). apply Inj in Ep.
        apply (clear_not (str "index") _ eq_refl (or_intror (proj1 (Under p Ip)))). exact Ep.
    + intros x0 Ix J. rewrite Cs in J. rewrite map_map in J. apply in_map_iff in J. destruct J as (e & <- & J). cbn [fst] in Ix.
      apply in_app_iff in Ix. destruct Ix as [Ix|[Ix|[]]].
      * apply in_map_iff in Ix. destruct Ix as (p & Ep & Ip). apply Inj in Ep.
        cbn [In] in J. assert (Cl : clear (str (fst e)) = true) by (repeat (destruct J as [<-|J]; [reflexivity|]); destruct J).
        exact (clear_not _ _ Cl (or_intror (proj1 (Under p Ip))) Ep).
      * apply Inj in Ix. cbn [In] in J. repeat (destruct J as [<-|J]; [vm_compute in Ix; discriminate Ix|]). destruct J.
  - rewrite Enames. split.
    + apply nodup_map; [|exact Nkeys]. intros a b Ia Ib Eab. apply Inj in Eab. apply (nm_inj wide); auto.
    + intros x0 Ix. apply in_map_iff in Ix. destruct Ix as (k & <- & Ik). pose proof (nm_fresh wide k (Good k Ik)) as Fr.
      assert (Fr' : In (nm wide k) five \/ In "_"%char (nm wide k)) by tauto. split; intros J.
      * destruct (Cf _ J) as (s & Es & Is). apply Inj in Es. apply clear_all in Is; [|reflexivity]. exact (clear_not _ _ Is Fr' Es).
      * destruct (Ck _ J) as (s & Es & Is). apply Inj in Es. apply clear_all in Is; [|reflexivity]. exact (clear_not _ _ Is Fr' Es).
  - rewrite Elets. apply nodup_map.
    + assert (Gl : forall p, In p (kG ++ kK) -> good (TgFn, p)).
      { intros p I. apply in_app_iff in I. destruct I as [I|I].
        - destruct (HkG p I) as (m & Im & a & b & c & t & Em). cbn in Em. subst m. apply LM in Im. destruct (Dgl _ _ _ _ _ Im) as ((L & Ns) & _). split; cbn; auto.
        - destruct (HkK p I) as (m & Im & Em). apply LO in Im. destruct (Dle _ _ Im Em) as (L & Ns). split; cbn; auto. }
      intros a b Ia Ib Eab. apply Inj in Eab. apply nm_inj in Eab; [congruence|auto|auto].
    + apply nodup_app; [exact NkG|exact NkK|]. intros p I J.
      destruct (HkG p I) as (m & Im & a & b & c & t & Em). cbn in Em. subst m. apply LM in Im. destruct (Dgl _ _ _ _ _ Im) as (_ & No).
      destruct (HkK p J) as (o & Io & Eo). apply LO in Io. exact (No o Io Eo).
  - intros it x0 I J. apply in_map_iff in I. destruct I as (dt & <- & I).
    destruct (In_l dt I) as [(e & Ie & ys & R & Iy)|[->|[(e & Ie & ys & R & Iy)|[(e & Ie & ys & R & Iy)|[(e & Ie & ys & R & Iy)|[(e & Ie & ys & R & Iy)|[(e & Ie & ys & R & Iy)|
      [Ia|[(e & Ie & ys & R & Iy)|[(o & ->)|[Ia|[(e & Ie & ys & R & Iy)| ->]]]]]]]]]]]].
    + destruct R as [(_ & ->)|(_ & ->)]; [destruct Iy as [<-|[]]|destruct Iy]. destruct J.
    + destruct J.
    + unfold cell_item in R. destruct (snd e); try (subst ys; destruct Iy). destruct R as (out & args & _ & Fa & ->). destruct Iy as [<-|[]]. exact (Sorts _ _ Fa _ J).
    + unfold name_item in R. destruct (f_poly (snd e)); [subst ys; destruct Iy|]. destruct R as (ins & args & _ & Fa & ->). destruct Iy as [<-|[]].
      destruct J as [<-|J]; [left; rewrite Cs; cbn; tauto|exact (Types _ _ Fa _ J)].
    + unfold operator_item in R. destruct (op_def (snd e)); [|subst ys; destruct Iy]. destruct R as [(_ & ->)|[(_ & ->)|(_ & _ & ins & args & out & _ & Fa & Fo & ->)]]; [destruct Iy|destruct Iy|].
      destruct Iy as [<-|[]]. destruct J as [<-|J]; [exact (Type_ _ _ Fo)|exact (Types _ _ Fa _ J)].
    + unfold global_item, let_item in R. destruct (snd e); try (subst ys; destruct Iy). destruct R as (args & b & Fa & _ & ->). destruct Iy as [<-|[]]. exact (Binds _ _ Fa _ J).
    + unfold defined_item, let_item in R. destruct (op_def (snd e)); [subst ys; destruct Iy|]. destruct R as (args0 & b & Fa & _ & ->). destruct Iy as [<-|[]]. exact (Binds _ _ Fa _ J).
    + destruct Ia as [<-|[<-|[]]]; destruct J.
    + destruct R as (_ & args & cond & message & updates & Fa & _ & _ & _ & ->). destruct Iy as [<-|[]]. exact (Binds _ _ Fa _ J).
    + destruct J.
    + destruct Ia as [<-|[<-|[<-|[]]]]; destruct J.
    + unfold crypto_item in R. destruct (op_def (snd e)) as [[| | |] ass|]; try (subst ys; destruct Iy).
      * subst dt. destruct J.
      * destruct H0 as [<-|[]]. left. rewrite Cs. cbn in J |- *. tauto.
      * destruct R as (? & ? & _ & ->). destruct Iy as [<-|[]]. destruct J.
      * destruct R as (? & ? & _ & ->). destruct Iy as [<-|[]]. destruct J.
    + destruct J.
  - intros n args out I. apply in_map_iff in I. destruct I as (dt & Ed & I).
    destruct (In_l dt I) as [(e & Ie & ys & R & Iy)|[->|[(e & Ie & ys & R & Iy)|[(e & Ie & ys & R & Iy)|[(e & Ie & ys & R & Iy)|[(e & Ie & ys & R & Iy)|[(e & Ie & ys & R & Iy)|
      [Ia|[(e & Ie & ys & R & Iy)|[(o & ->)|[Ia|[(e & Ie & ys & R & Iy)| ->]]]]]]]]]]]]; try discriminate Ed.
    + destruct R as [(_ & ->)|(_ & ->)]; [destruct Iy as [<-|[]]|destruct Iy]. discriminate Ed.
    + unfold cell_item in R. destruct (snd e); try (subst ys; destruct Iy). destruct R as (o' & a' & _ & Fa & ->). destruct Iy as [<-|[]]. discriminate Ed.
    + unfold name_item in R. destruct (f_poly (snd e)); [subst ys; destruct Iy|]. destruct R as (ins & a' & _ & Fa & ->). destruct Iy as [<-|[]].
      injection Ed as <- <- <-. exists SName. split; [rewrite Cs; cbn; tauto|cbn; tauto].
    + unfold operator_item in R. destruct (op_def (snd e)) as [aa ll|] eqn:Eo; [|subst ys; destruct Iy]. destruct R as [(_ & ->)|[(_ & ->)|(Hp & Hu & ins & a' & out' & _ & Fa & Fo & ->)]]; [destruct Iy|destruct Iy|].
      destruct Iy as [<-|[]]. injection Ed as _ _ <-. destruct e as [p o]. cbn [fst snd] in *. apply LO in Ie.
      destruct (Dfu p o Ie) as (_ & _ & Ni); [unfold as_function; eauto|].
      destruct Fo as [ts|n0 s Hs]; [exists SMessage; rewrite Cs; cbn; tauto|]. unfold is_index in Ni. remember (table n0) as j eqn:Ej.
      destruct Hs as [| | | | | |p' k Hk Nk|p' Hk].
      * exists SMessage; rewrite Cs; cbn; tauto.
      * exists SMessage; rewrite Cs; cbn; tauto.
      * exists SBool; rewrite Cs; cbn; tauto.
      * exists SStep; rewrite Cs; cbn; tauto.
      * destruct Ni. exists n0. auto.
      * exists SName; rewrite Cs; cbn; tauto.
      * exists SMessage; rewrite Cs; cbn; tauto.
      * destruct (Dkn n0 p' (eq_sym Ej)) as (k & Lk). destruct Ni. exists n0. split; [reflexivity|]. right. exists p', k. rewrite <- Ej. auto.
    + unfold global_item, let_item in R. destruct (snd e); try (subst ys; destruct Iy). destruct R as (? & b & Fa & _ & ->). destruct Iy as [<-|[]]. discriminate Ed.
    + unfold defined_item, let_item in R. destruct (op_def (snd e)); [subst ys; destruct Iy|]. destruct R as (? & b & Fa & _ & ->). destruct Iy as [<-|[]]. discriminate Ed.
    + destruct Ia as [<-|[<-|[]]]; discriminate Ed.
    + destruct R as (_ & args' & cond & message & updates & Fa & _ & _ & _ & ->). destruct Iy as [<-|[]]. discriminate Ed.
    + destruct Ia as [<-|[<-|[<-|[]]]]; discriminate Ed.
    + unfold crypto_item in R. destruct (op_def (snd e)) as [[| | |] ass|]; try (subst ys; destruct Iy).
      * subst dt. discriminate Ed.
      * destruct H0 as [<-|[]]. injection Ed as _ _ <-. exists SBool. rewrite Cs. cbn. tauto.
      * destruct R as (? & ? & _ & ->). destruct Iy as [<-|[]]. discriminate Ed.
      * destruct R as (? & ? & _ & ->). destruct Iy as [<-|[]]. discriminate Ed.
  - rewrite Enames, <- Ini. intros I. apply in_map_iff in I. destruct I as (k & Ek & Ik). apply Inj in Ek. apply nm_init in Ek; [|apply Good; exact Ik].
    destruct k as [tg p]. cbn [fst snd] in Ek. destruct Ek as (-> & Ep). assert (I : In p kS).
    { unfold keys in Ik. rewrite !in_app_iff, !in_map_iff in Ik. destruct Ik as [(p' & J & _)|[(p' & J & _)|[(p' & J & _)|[(p' & J & I)|(p' & J & _)]]]]; try discriminate J.
      injection J as ->. exact I. }
    destruct (HkS p I) as (m & Im & _). destruct (section_has _ _ _ _ SS Im) as (ys & R & Inc). pose proof (proj1 (proj2 LX _ _) Im) as Lm.
    assert (p = a_name (x_action m)).
    { destruct Lm as (l1 & l2 & Ei & _). assert (In (p, m) (map (fun a => (a_name (x_action a), a)) (d_actions d))) as I' by (rewrite Ei; apply in_elt).
      apply in_map_iff in I'. destruct I' as (m' & Em & _). injection Em as <- <-. reflexivity. }
    subst p. destruct R as (_ & args & cond & message & updates & Fa & _ & _ & _ & ->). cbn [snd] in *.
    destruct (Dac m Lm) as (_ & [Ns|(_ & Hi)]); [destruct Ns; apply five_special; left; symmetry; exact Ep|]. rewrite Hi in Fa.
    assert (args = []) by (destruct args; [reflexivity|inversion Fa]). subst args.
    eexists. split; [apply in_map_iff; eexists; split; [|rewrite El; do 8 (apply in_app_iff; right); apply in_app_iff; left; apply Inc; left; reflexivity]; reflexivity|].
    cbn [sa_name sa_params map]. split; [|reflexivity]. rewrite Ep. reflexivity.
  - exists (to_term code q). change (fqueries code l = [to_term code q]). rewrite El, !fqueries_app, QT, QC, QN, QF, QG, QK, (proj1 Asserts), QS, (proj1 Orders), (proj1 Fixed), QP. reflexivity.
Qed.
