From Coq Require Import List Arith Bool Lia String.
From Verif Require Import Location_Model Location_Spec.
Import ListNotations. Local Open Scope list_scope. Local Open Scope nat_scope.

Lemma boundary_between s i : boundary s i = true <-> between s i.
Proof.
  unfold boundary, between. rewrite orb_true_iff, Nat.eqb_eq. destruct (nth_error s i) as [b|] eqn:E.
  - assert (i < List.length s) by (apply nth_error_Some; congruence). rewrite negb_true_iff. unfold continues, starts.
    destruct (Nat.leb_spec 128 b); destruct (Nat.ltb_spec b 192); cbn; split.
    + intros [->|H']; [split; [lia|intros; lia]|discriminate].
    + intros [_ H']. destruct i as [|i]; [left; reflexivity|]. destruct (H' b ltac:(lia) eq_refl); lia.
    + intros _. split; [lia|]. intros b' _ [= <-]. lia.
    + auto.
    + intros _. split; [lia|]. intros b' _ [= <-]. lia.
    + auto.
    + intros _. split; [lia|]. intros b' _ [= <-]. lia.
    + auto.
  - apply nth_error_None in E. rewrite Nat.eqb_eq. split.
    + intros [-> | ->]; (split; [lia|discriminate]).
    + intros [H _]. right. lia.
Qed.
Lemma between_0 s : between s 0.
Proof. split; [lia|intros b H; lia]. Qed.
Lemma between_all s : between s (List.length s).
Proof. split; [lia|]. intros b _ H. assert (nth_error s (List.length s) = None) by (apply nth_error_None; lia). congruence. Qed.
Lemma as_str_length sp : sp_start sp <= sp_end sp -> sp_end sp <= List.length (sp_input sp) -> List.length (as_str sp) = sp_end sp - sp_start sp.
Proof. intros H1 H2. unfold as_str. rewrite firstn_length, skipn_length. lia. Qed.

(** What is kept of a span fits only when the span starts the file. *)
Lemma kept_span sp : sp_start sp <= sp_end sp -> sp_end sp <= List.length (sp_input sp) ->
  span_new 0 (as_str sp) (sp_start sp) (sp_end sp) = if sp_start sp =? 0 then Some (mkSpan 0 (as_str sp) 0 (sp_end sp)) else None.
Proof.
  intros H1 H2. pose proof (as_str_length sp H1 H2) as L. unfold span_new, get. destruct (Nat.eqb_spec (sp_start sp) 0) as [E|E].
  - rewrite E in *. rewrite Nat.sub_0_r in L. assert (B : boundary (as_str sp) (sp_end sp) = true) by (apply boundary_between; rewrite <- L; apply between_all).
    rewrite B. reflexivity.
  - assert (B : boundary (as_str sp) (sp_end sp) = false).
    { destruct (boundary _ _) eqn:B; [|reflexivity]. apply boundary_between in B as [B _]. lia. }
    rewrite B, andb_false_r. reflexivity.
Qed.
Lemma kept_position p : position_new 0 (as_str (span_of p)) (po_pos p) = if po_pos p =? 0 then Some (mkPosition 0 [] 0) else None.
Proof.
  unfold as_str, span_of. cbn. rewrite Nat.sub_diag. cbn. unfold position_new, get_from, boundary. destruct (Nat.eqb_spec (po_pos p) 0) as [->|E]; [reflexivity|].
  destruct (po_pos p) as [|n]; [contradiction|]. reflexivity.
Qed.

(** Lines and columns. *)
Lemma filter_app_len (f : nat -> bool) a b : List.length (filter f (a ++ b)) = List.length (filter f a) + List.length (filter f b).
Proof. rewrite filter_app, app_length. reflexivity. Qed.
Lemma line_col_spec : forall l before last, ~ In 10 last -> (before = [] \/ exists b, before = b ++ [10]) ->
  exists before' last', before ++ last ++ l = before' ++ last' /\ ~ In 10 last' /\ (before' = [] \/ exists b, before' = b ++ [10]) /\
    line_col l (S (count_occ Nat.eq_dec before 10)) (S (List.length (filter (fun b => negb (continues b)) last))) =
      (S (count_occ Nat.eq_dec before' 10), S (List.length (filter (fun b => negb (continues b)) last'))).
Proof.
  assert (A : forall n l, List.length l <= n -> forall before last, ~ In 10 last -> (before = [] \/ exists b, before = b ++ [10]) ->
    exists before' last', before ++ last ++ l = before' ++ last' /\ ~ In 10 last' /\ (before' = [] \/ exists b, before' = b ++ [10]) /\
      line_col l (S (count_occ Nat.eq_dec before 10)) (S (List.length (filter (fun b => negb (continues b)) last))) =
        (S (count_occ Nat.eq_dec before' 10), S (List.length (filter (fun b => negb (continues b)) last'))));
    [|intros l; exact (A (List.length l) l (le_n _))].
  assert (N : forall last, ~ In 10 last -> count_occ Nat.eq_dec last 10 = 0) by (intros last H; apply count_occ_not_In; exact H).
  induction n as [|n IH]; intros l L before last Hl Hb.
  - destruct l; [|cbn in L; lia]. exists before, last. rewrite app_nil_r. auto.
  - destruct l as [|c l]; [exists before, last; rewrite app_nil_r; auto|]. cbn in L. cbn [line_col].
    destruct (Nat.eqb_spec c 10) as [->|Hc].
    + destruct (IH l ltac:(lia) (before ++ last ++ [10]) [] ltac:(intros []) ltac:(right; exists (before ++ last); rewrite app_assoc; reflexivity)) as (b' & l' & E1 & E2 & E3 & E4).
      exists b', l'. split; [rewrite <- E1, <- !app_assoc; reflexivity|]. split; [exact E2|]. split; [exact E3|].
      rewrite !count_occ_app, (N last Hl) in E4. cbn [count_occ] in E4. destruct (Nat.eq_dec 10 10) as [_|X]; [|contradiction]. rewrite Nat.add_1_r in E4. exact E4.
    + assert (One : forall (k : bool), negb (continues c) = k -> exists before' last', before ++ last ++ c :: l = before' ++ last' /\ ~ In 10 last' /\ (before' = [] \/ exists b, before' = b ++ [10]) /\
        line_col l (S (count_occ Nat.eq_dec before 10)) (if k then S (S (List.length (filter (fun b => negb (continues b)) last))) else S (List.length (filter (fun b => negb (continues b)) last))) =
        (S (count_occ Nat.eq_dec before' 10), S (List.length (filter (fun b => negb (continues b)) last')))).
      { intros k Hk. destruct (IH l ltac:(lia) before (last ++ [c]) ltac:(rewrite in_app_iff; cbn; intuition) Hb) as (b' & l' & E1 & E2 & E3 & E4).
        exists b', l'. split; [rewrite <- E1, <- !app_assoc; reflexivity|]. split; [exact E2|]. split; [exact E3|].
        rewrite filter_app_len in E4. cbn [filter] in E4. rewrite Hk in E4. destruct k; cbn [List.length] in E4; [rewrite Nat.add_1_r in E4|rewrite Nat.add_0_r in E4]; exact E4. }
      destruct (Nat.eqb_spec c 13) as [->|Hc'].
      * destruct l as [|d l].
        -- destruct (One true eq_refl) as (b' & l' & E1 & E2 & E3 & E4). exists b', l'. auto.
        -- destruct (Nat.eqb_spec d 10) as [->|Hd]; [|exact (One true eq_refl)]. cbn in L.
           destruct (IH l ltac:(lia) (before ++ last ++ [13; 10]) [] ltac:(intros []) ltac:(right; exists (before ++ last ++ [13]); rewrite <- !app_assoc; reflexivity)) as (b' & l' & E1 & E2 & E3 & E4).
           exists b', l'. split; [rewrite <- E1, <- !app_assoc; reflexivity|]. split; [exact E2|]. split; [exact E3|].
           rewrite !count_occ_app, (N last Hl) in E4. cbn [count_occ] in E4. destruct (Nat.eq_dec 10 10) as [_|X]; [|contradiction]. destruct (Nat.eq_dec 13 10) as [X|_]; [discriminate|]. rewrite Nat.add_1_r in E4. exact E4.
      * destruct (continues c) eqn:Ec; [exact (One false eq_refl)|exact (One true eq_refl)].
Qed.
Lemma line_col_place s i : place s i (fst (line_col (firstn i s) 1 1)) (snd (line_col (firstn i s) 1 1)).
Proof.
  destruct (line_col_spec (firstn i s) [] [] ltac:(intros []) (or_introl eq_refl)) as (b & l & E1 & E2 & E3 & E4). cbn in E1, E4. rewrite E4.
  exists b, l. repeat split; auto. cbn. f_equal. f_equal. apply filter_ext. intros x. unfold continues. rewrite negb_andb, <- Nat.ltb_antisym, <- Nat.leb_antisym. reflexivity.
Qed.
Lemma place_unique s i l c l' c' : place s i l c -> place s i l' c' -> l = l' /\ c = c'.
Proof.
  intros (b & e & E & N & B & -> & ->) (b' & e' & E' & N' & B' & -> & ->). rewrite E in E'. clear E.
  assert (W : forall b e b' e', b ++ e = b' ++ e' -> ~ In 10 e -> (b = [] \/ exists x, b = x ++ [10]) -> ~ In 10 e' -> (b' = [] \/ exists x, b' = x ++ [10]) -> List.length b <= List.length b' -> b = b' /\ e = e').
  { clear. intros b e b' e' E N B N' B' L. destruct (Nat.eq_dec (List.length b) (List.length b')) as [El|El].
    - revert b' E L El B'. clear. induction b as [|x b IH]; intros [|y b'] E L El B'; cbn in *; try lia; [auto|]. injection E as <- E.
      assert (b = b' /\ e = e') as [-> ->]; [|auto]. clear - E El. revert b' E El. induction b as [|x b IH]; intros [|y b'] E El; cbn in *; try lia; [auto|]. injection E as <- E. destruct (IH b' E ltac:(lia)) as [-> ->]. auto.
    - exfalso. destruct B' as [->|(x & ->)]; [cbn in L, El; lia|]. rewrite <- app_assoc in E. rewrite app_length in L, El. cbn in L, El.
      apply N. assert (L' : List.length b <= List.length x) by lia. clear - E L'. revert x E L'. induction b as [|y b IH]; intros x E L'; cbn in E; [rewrite E; apply in_app_iff; right; left; reflexivity|].
      destruct x as [|z x]; cbn in L'; [lia|]. injection E as _ E. apply (IH x E). lia. }
  destruct (Nat.le_ge_cases (List.length b) (List.length b')) as [L|L].
  - destruct (W b e b' e' E' N B N' B' L) as [-> ->]. auto.
  - destruct (W b' e' b e (eq_sym E') N' B' N B L) as [-> ->]. auto.
Qed.
Lemma mentions_app a err b : mentions (a ++ err ++ b) err.
Proof. exists a, b. reflexivity. Qed.

Section Fmt.
  Context (dec : nat -> bytes) (here : bytes).
  Notation fmt := (location_fmt dec here).
  Lemma place_start s : place s 0 1 1.
  Proof. exact (line_col_place s 0). Qed.
  Lemma no_span_mentions err str i j : mentions (no_span dec here err str i j) err.
  Proof.
    unfold no_span, mentions.
    exists (lit "!!! FAILED TO BUILD SPAN !!!" ++ newline ++ lit "This should not happen, please report" ++ newline ++ lit "around " ++ here ++ newline ++
      lit "start=" ++ dec i ++ newline ++ lit "end=" ++ dec j ++ newline ++ lit "----error----" ++ newline).
    exists (newline ++ lit "----" ++ newline ++ lit "----original's span's content:" ++ newline ++ str). rewrite <- !app_assoc. reflexivity.
  Qed.
  Lemma fmt_span id s sp err b : in_source (ASpan sp) id s ->
    fmt (as_location (ASpan sp)) err b =
      if sp_start sp =? 0 then Report 1 1 (err ++ match b with Some b => newline ++ lit "from:" ++ newline ++ b ++ newline | None => [] end)
      else Printed (no_span dec here err (as_str sp) (sp_start sp) (sp_end sp)).
  Proof.
    intros (_ & <- & H1 & _ & H2 & _). unfold location_fmt, as_location, pest_of_span. rewrite kept_span by assumption. destruct (sp_start sp =? 0); reflexivity.
  Qed.
  Lemma fmt_position p err b :
    fmt (as_location (APosition p)) err b =
      if po_pos p =? 0 then Report 1 1 (err ++ match b with Some b => newline ++ lit "from:" ++ newline ++ b ++ newline | None => [] end) else Panicked.
  Proof. unfold location_fmt, as_location, pest_of_position. rewrite kept_position. destruct (po_pos p =? 0); reflexivity. Qed.
  Lemma fmt_provided id s sp err b : in_source (ASpan sp) id s ->
    fmt (provide_span sp) err b = if sp_start sp =? 0 then Report 1 1 (lit "error: " ++ err ++ newline ++ backtrace_lines b) else Panicked.
  Proof. intros (_ & <- & H1 & _ & H2 & _). unfold location_fmt, provide_span. rewrite kept_span by assumption. destruct (sp_start sp =? 0); reflexivity. Qed.
End Fmt.

(** ** Order *)
Lemma bytes_eq : forall a b, bytes_cmp a b = Eq <-> a = b.
Proof.
  induction a as [|x a IH]; intros [|y b]; cbn; try (split; [discriminate|discriminate]); [tauto|]. destruct (Nat.compare_spec x y) as [->|H|H]; [rewrite IH; split; congruence|split; [discriminate|intros [= E _]; lia]..].
Qed.
Lemma bytes_sym : forall a b, bytes_cmp b a = CompOpp (bytes_cmp a b).
Proof. induction a as [|x a IH]; intros [|y b]; cbn; try reflexivity. rewrite Nat.compare_antisym. destruct (Nat.compare x y); cbn; auto. Qed.
Lemma bytes_trans : forall a b c, bytes_cmp a b = Lt -> bytes_cmp b c = Lt -> bytes_cmp a c = Lt.
Proof.
  induction a as [|x a IH]; intros [|y b] [|z c]; cbn; try discriminate; auto.
  intros H1 H2. destruct (Nat.compare x y) eqn:E1; [apply Nat.compare_eq_iff in E1 as ->| |discriminate H1].
  - destruct (Nat.compare y z); [eauto|reflexivity|discriminate H2].
  - apply Nat.compare_lt_iff in E1. destruct (Nat.compare y z) eqn:E2; [apply Nat.compare_eq_iff in E2 as ->|apply Nat.compare_lt_iff in E2|discriminate H2];
      (replace (Nat.compare x z) with Lt by (symmetry; apply Nat.compare_lt_iff; lia)); reflexivity.
Qed.
(** The key of a location: what is compared. *)
Definition key (l : ast_location) : nat * bytes * nat * nat :=
  match l with ASpan s => (0, as_str s, sp_start s, sp_end s) | APosition p => (1, [], po_pos p, 0) | ANothing => (3, [], 0, 0) end.
Definition key_cmp (a b : nat * bytes * nat * nat) : comparison :=
  then_ (then_ (then_ (Nat.compare (fst (fst (fst a))) (fst (fst (fst b)))) (bytes_cmp (snd (fst (fst a))) (snd (fst (fst b))))) (Nat.compare (snd (fst a)) (snd (fst b)))) (Nat.compare (snd a) (snd b)).
Lemma span_of_str p : as_str (span_of p) = [].
Proof. unfold as_str, span_of. cbn. rewrite Nat.sub_diag. reflexivity. Qed.
Lemma cmp_key a b : ast_cmp a b = key_cmp (key a) (key b).
Proof.
  destruct a as [s|p|]; destruct b as [t|q|]; try reflexivity. unfold ast_cmp. rewrite !span_of_str. unfold key_cmp. cbn. destruct (Nat.compare (po_pos p) (po_pos q)); reflexivity.
Qed.
Lemma key_eq a b : key_cmp a b = Eq <-> a = b.
Proof.
  destruct a as [[[k s] i] j]; destruct b as [[[k' s'] i'] j']. unfold key_cmp. cbn [fst snd].
  destruct (Nat.compare_spec k k') as [->|H|H]; cbn; [|split; [discriminate|intros [= E]; lia]..].
  destruct (bytes_cmp s s') eqn:E; cbn; [apply bytes_eq in E as ->|split; [discriminate|intros [= -> -> ->]; rewrite (proj2 (bytes_eq s' s') eq_refl) in E; discriminate]..].
  destruct (Nat.compare_spec i i') as [->|H|H]; cbn; [|split; [discriminate|intros [= E']; lia]..].
  rewrite Nat.compare_eq_iff. split; [intros ->; reflexivity|congruence].
Qed.
Lemma then_opp a b : then_ (CompOpp a) (CompOpp b) = CompOpp (then_ a b).
Proof. destruct a; reflexivity. Qed.
Lemma key_sym a b : key_cmp b a = CompOpp (key_cmp a b).
Proof. unfold key_cmp. rewrite (Nat.compare_antisym (fst (fst (fst a)))), (bytes_sym (snd (fst (fst a)))), (Nat.compare_antisym (snd (fst a))), (Nat.compare_antisym (snd a)), !then_opp. reflexivity. Qed.
Lemma then_lt a b : then_ a b = Lt <-> a = Lt \/ a = Eq /\ b = Lt.
Proof. destruct a; cbn; intuition discriminate. Qed.
Lemma then_eq a b : then_ a b = Eq <-> a = Eq /\ b = Eq.
Proof. destruct a; cbn; intuition discriminate. Qed.
Lemma key_trans a b c : key_cmp a b = Lt -> key_cmp b c = Lt -> key_cmp a c = Lt.
Proof.
  unfold key_cmp. rewrite !then_lt, !then_eq, !Nat.compare_lt_iff, !Nat.compare_eq_iff, !bytes_eq.
  destruct a as [[[k s] i] j]; destruct b as [[[k' s'] i'] j']; destruct c as [[[k2 s2] i2] j2]. cbn [fst snd].
  intros H1 H2. pose proof (bytes_trans s s' s2) as T. intuition (subst; auto; try lia).
Qed.
Lemma key_inj id s a b : in_source a id s -> in_source b id s -> key a = key b -> a = b.
Proof.
  destruct a as [x|p|]; destruct b as [y|q|]; cbn; try discriminate; auto.
  - intros (E1 & E2 & _) (E3 & E4 & _) E. destruct x, y; cbn in *. congruence.
  - intros (E1 & E2 & _) (E3 & E4 & _) E. destruct p, q; cbn in *. congruence.
Qed.
Lemma eqb_eq id s a b : in_source a id s -> in_source b id s -> (ast_eqb a b = true <-> a = b).
Proof.
  destruct a as [x|p|]; destruct b as [y|q|]; cbn; try (intros; split; [discriminate|congruence]); [| |tauto].
  - unfold span_eqb. intros (E1 & E2 & _) (E3 & E4 & _). rewrite !andb_true_iff, !Nat.eqb_eq. destruct x, y; cbn in *. split; [intros [[? ?] ?]; congruence|intros [= ? ? ? ?]; auto].
  - unfold position_eqb. intros (E1 & E2 & _) (E3 & E4 & _). rewrite !andb_true_iff, !Nat.eqb_eq. destruct p, q; cbn in *. split; [intros [? ?]; congruence|intros [= ? ? ?]; auto].
Qed.
