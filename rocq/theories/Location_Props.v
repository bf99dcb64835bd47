(** C111, C112: where errors are reported, and the order of places. *)
From Coq Require Import List Arith Bool Lia String.
From Verif Require Import Location_Model Location_Spec Location_Proofs.
Import ListNotations.
Local Open Scope list_scope.
Local Open Scope nat_scope.

(** A file: "sort a\r\nassert é = true", whose second line holds the error. *)
Definition file : bytes := lit "sort a" ++ [13; 10] ++ lit "assert " ++ [195; 169] ++ lit " = true".
(** [é], at 15..17. *)
Definition accent : span := mkSpan 7 file 15 17.
Definition first_sort : span := mkSpan 7 file 0 6.
Definition dec1 (n : nat) : bytes := [48 + n].

Lemma accent_in : in_source (ASpan accent) 7 file.
Proof. cbn. repeat split; cbn; try lia; intros b _ [= <-]; unfold starts; lia. Qed.
Lemma first_in : in_source (ASpan first_sort) 7 file.
Proof. cbn. repeat split; cbn; try lia; intros b _ [= <-]; unfold starts; lia. Qed.

(** ** C111 *)
(** Reports of pest give the line and the column of the place in the text they are given: there is one, and this is it. *)
Theorem C111_line_col : forall s i m,
  exists line col, report s i m = Report line col m /\ place s i line col /\ forall line' col', place s i line' col' -> line' = line /\ col' = col.
Proof.
  intros s i m. exists (fst (line_col (firstn i s) 1 1)), (snd (line_col (firstn i s) 1 1)). split; [reflexivity|]. pose proof (line_col_place s i) as H. split; [exact H|].
  intros l' c' H'. exact (place_unique s i l' c' _ _ H' H).
Qed.
Print Assumptions C111_line_col.
Example C111_line_col_example : report file 17 [] = Report 2 9 [] /\ place file 17 2 9.
Proof. split; [reflexivity|]. exact (line_col_place file 17). Qed.

(** Errors at a span of the source, or at no place, are always printed with their message, whatever is around.
    They are reported at their line and column only when they start the file. *)
Theorem C111_span_partial : forall dec here id s sp err backtrace, in_source (ASpan sp) id s ->
  let o := location_fmt dec here (as_location (ASpan sp)) err backtrace in
  tells o err /\ (sp_start sp = 0 -> reported_at o s 0 err).
Proof.
  intros dec here id s sp err b H o. subst o. rewrite (fmt_span dec here id s sp err b H). destruct (Nat.eqb_spec (sp_start sp) 0) as [E|E].
  - assert (M : forall x, mentions (err ++ x) err) by (intros x; exists [], x; reflexivity). split; [apply M|]. intros _. split; [apply place_start|apply M].
  - split; [apply no_span_mentions|intros X; contradiction].
Qed.
Print Assumptions C111_span_partial.
Example C111_span_example : reported_at (location_fmt dec1 [] (as_location (ASpan first_sort)) (lit "unknown sort") None) file 0 (lit "unknown sort")
  /\ tells (location_fmt dec1 [] (as_location (ASpan accent)) (lit "unknown sort") None) (lit "unknown sort").
Proof.
  split; [apply (C111_span_partial dec1 [] 7 file first_sort (lit "unknown sort") None first_in); reflexivity|].
  apply (C111_span_partial dec1 [] 7 file accent (lit "unknown sort") None accent_in).
Qed.

(** No error that starts anywhere else than at the start of the file is reported at its line and column: the fallback for what cannot happen is printed. *)
Theorem C111_span_refuted : forall dec here id s sp err backtrace, in_source (ASpan sp) id s -> 0 < sp_start sp ->
  let o := location_fmt dec here (as_location (ASpan sp)) err backtrace in
  ~ reported_at o s (sp_start sp) err /\ o = Printed (no_span dec here err (as_str sp) (sp_start sp) (sp_end sp)).
Proof.
  intros dec here id s sp err b H L o. subst o. rewrite (fmt_span dec here id s sp err b H). destruct (Nat.eqb_spec (sp_start sp) 0) as [E|E]; [lia|]. split; [intros []|reflexivity].
Qed.
Print Assumptions C111_span_refuted.
Example C111_span_refuted_example : place file 15 2 8 /\ ~ reported_at (location_fmt dec1 [] (as_location (ASpan accent)) (lit "unknown") None) file 15 (lit "unknown").
Proof. split; [exact (line_col_place file 15)|]. exact (proj1 (C111_span_refuted dec1 [] 7 file accent (lit "unknown") None accent_in ltac:(cbn; lia))). Qed.

(** The whole file is the only position that the parser makes; errors there are reported at its start. *)
Theorem C111_all : forall dec here id s err backtrace, exists p, all_file id s = Some p /\
  reported_at (location_fmt dec here (as_location (APosition p)) err backtrace) s 0 err.
Proof.
  intros dec here id s err b. exists (mkPosition id s 0). split; [reflexivity|]. rewrite fmt_position. cbn [po_pos Nat.eqb]. split; [apply place_start|]. exists []. eexists. reflexivity.
Qed.
Print Assumptions C111_all.
Example C111_all_example : reported_at (location_fmt dec1 [] (as_location (APosition (mkPosition 7 file 0))) (lit "no query") None) file 0 (lit "no query").
Proof. destruct (C111_all dec1 [] 7 file (lit "no query") None) as (p & [= <-] & H). exact H. Qed.

(** An error at any other position would make printing it panic. *)
Theorem C111_position_refuted : forall dec here p err backtrace, 0 < po_pos p -> location_fmt dec here (as_location (APosition p)) err backtrace = Panicked.
Proof. intros dec here p err b L. rewrite fmt_position. destruct (Nat.eqb_spec (po_pos p) 0); [lia|reflexivity]. Qed.
Print Assumptions C111_position_refuted.
Example C111_position_refuted_example : in_source (APosition (mkPosition 7 file 15)) 7 file /\ location_fmt dec1 [] (as_location (APosition (mkPosition 7 file 15))) (lit "unknown") None = Panicked.
Proof. split; [cbn; repeat split; cbn; try lia; intros b _ [= <-]; unfold starts; lia|]. apply C111_position_refuted. cbn. lia. Qed.

(** So does printing an error raised at a span of pest directly ([bail_at!(p.as_span(), ..)]), unless it starts the file. *)
Theorem C111_provide_refuted : forall dec here id s sp err backtrace, in_source (ASpan sp) id s ->
  let o := location_fmt dec here (provide_span sp) err backtrace in
  (0 < sp_start sp -> o = Panicked) /\ (sp_start sp = 0 -> reported_at o s 0 err).
Proof.
  intros dec here id s sp err b H o. subst o. rewrite (fmt_provided dec here id s sp err b H). destruct (Nat.eqb_spec (sp_start sp) 0) as [E|E]; (split; [intros L|intros L]); try lia; [|reflexivity].
  split; [apply place_start|]. exists (lit "error: "), (newline ++ backtrace_lines b). reflexivity.
Qed.
Print Assumptions C111_provide_refuted.
Example C111_provide_refuted_example : location_fmt dec1 [] (provide_span accent) (lit "too much") None = Panicked.
Proof. apply (C111_provide_refuted dec1 [] 7 file accent (lit "too much") None accent_in). cbn. lia. Qed.

(** What has no place, such as what comes from Squirrel, is printed with its message and the name it is about. *)
Theorem C111_nowhere : forall dec here str err backtrace,
  tells (location_fmt dec here (as_location ANothing) err backtrace) err /\
  tells (location_fmt dec here (help_provide ANothing str) err backtrace) err /\ tells (location_fmt dec here (help_provide ANothing str) err backtrace) str.
Proof.
  intros dec here str err b. unfold location_fmt, as_location, help_provide, tells, mentions. split; [|split].
  - exists (lit "error!" ++ newline), (newline ++ backtrace_lines b). rewrite <- app_assoc. reflexivity.
  - exists (lit "error!" ++ newline), (newline ++ lit "at: " ++ str ++ newline ++ backtrace_lines b). rewrite <- app_assoc. reflexivity.
  - exists (lit "error!" ++ newline ++ err ++ newline ++ lit "at: "), (newline ++ backtrace_lines b). rewrite <- !app_assoc. reflexivity.
Qed.
Print Assumptions C111_nowhere.
Example C111_nowhere_example : tells (location_fmt dec1 [] (help_provide ANothing (lit "h")) (lit "in use") (Some (lit "main"))) (lit "in use").
Proof. apply (C111_nowhere dec1 [] (lit "h") (lit "in use") (Some (lit "main"))). Qed.

(** ** C112 *)
(** The places of one source are totally ordered, and are equal in that order only if they are the same place. *)
Theorem C112_order : forall id s a b c, in_source a id s -> in_source b id s -> in_source c id s ->
  (ast_cmp a b = Eq <-> a = b) /\ (ast_eqb a b = true <-> a = b) /\ ast_cmp b a = CompOpp (ast_cmp a b) /\ (ast_cmp a b = Lt -> ast_cmp b c = Lt -> ast_cmp a c = Lt).
Proof.
  intros id s a b c Ha Hb Hc. rewrite !cmp_key. split; [rewrite key_eq; split; [exact (key_inj id s a b Ha Hb)|congruence]|]. split; [exact (eqb_eq id s a b Ha Hb)|].
  split; [apply key_sym|apply key_trans].
Qed.
Print Assumptions C112_order.
Example C112_order_example : ast_cmp (ASpan first_sort) (ASpan accent) = Lt /\ ast_cmp (ASpan accent) (APosition (mkPosition 7 file 0)) = Lt /\
  ast_cmp (ASpan first_sort) (APosition (mkPosition 7 file 0)) = Lt /\ ast_cmp (ASpan first_sort) (ASpan first_sort) = Eq.
Proof.
  assert (P : in_source (APosition (mkPosition 7 file 0)) 7 file) by (cbn; repeat split; cbn; try lia; intros b H; lia).
  destruct (C112_order 7 file (ASpan first_sort) (ASpan accent) _ first_in accent_in P) as (_ & _ & _ & T).
  split; [reflexivity|]. split; [reflexivity|]. split; [apply T; reflexivity|]. apply (C112_order 7 file (ASpan first_sort) (ASpan first_sort) _ first_in first_in P).
Qed.
(** Of two sources, places can be equal in the order and yet different: the order does not agree with equality. *)
Theorem C112_sources_refuted : exists id id' s a b, in_source a id s /\ in_source b id' s /\ ast_cmp a b = Eq /\ ast_eqb a b = false.
Proof.
  exists 7, 8, file, (ASpan accent), (ASpan (mkSpan 8 file 15 17)). split; [exact accent_in|]. split; [|split; reflexivity].
  cbn. repeat split; cbn; try lia; intros b _ [= <-]; unfold starts; lia.
Qed.
Print Assumptions C112_sources_refuted.
