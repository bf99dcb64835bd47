(** C77: symbols with characters beyond ASCII. *)
From Coq Require Import List Arith Bool Lia Ascii String.
From Verif Require Import Smt_Model Squirrel_Model Squirrel_Spec Squirrel_Proofs.
Import ListNotations.
Local Open Scope list_scope.

Lemma digit_out n : smt_char (digit n) \/ digit n = "#"%char \/ 64 <= n.
Proof.
  destruct (Nat.le_gt_cases 64 n) as [H|H]; [auto|]. destruct (Nat.eq_dec n 62) as [->|N]; [right; left; reflexivity|]. left. apply digit_smt; assumption.
Qed.
Lemma base64_out l : Forall (fun c => smt_char c \/ c = "#"%char) (base64 l).
Proof.
  assert (D : forall n, n < 64 -> smt_char (digit n) \/ digit n = "#"%char) by (intros n H; destruct (digit_out n) as [?|[?|?]]; [auto|auto|lia]).
  assert (B : forall c, byte c < 256) by (intros c; apply nat_ascii_bounded).
  assert (P1 : forall a, byte a / 4 < 64) by (intros a; apply Nat.div_lt_upper_bound; [lia|apply B]).
  assert (P2 : forall a, byte a mod 4 <= 3) by (intros a; pose proof (Nat.mod_upper_bound (byte a) 4); lia).
  assert (P3 : forall a, byte a / 16 < 16) by (intros a; apply Nat.div_lt_upper_bound; [lia|apply B]).
  assert (P4 : forall a, byte a mod 16 <= 15) by (intros a; pose proof (Nat.mod_upper_bound (byte a) 16); lia).
  assert (P5 : forall a, byte a / 64 < 4) by (intros a; apply Nat.div_lt_upper_bound; [lia|apply B]).
  assert (P6 : forall a, byte a mod 64 < 64) by (intros a; apply Nat.mod_upper_bound; lia).
  induction l as [|a|a b|a b c l IH] using text_ind3; cbn [base64].
  - constructor.
  - pose proof (P1 a). pose proof (P2 a). repeat (constructor; [apply D; lia|]). constructor.
  - pose proof (P1 a). pose proof (P2 a). pose proof (P3 b). pose proof (P4 b). repeat (constructor; [apply D; lia|]). constructor.
  - pose proof (P1 a). pose proof (P2 a). pose proof (P3 b). pose proof (P4 b). pose proof (P5 c). pose proof (P6 c). repeat (constructor; [apply D; lia|]). exact IH.
Qed.
(** A letter or a digit, of ASCII or beyond. *)
Definition letter (c : ascii) : Prop := let n := nat_of_ascii c in (48 <= n <= 57 \/ 65 <= n <= 90 \/ 97 <= n <= 122) \/ 128 <= n.

(** Symbols of letters and digits, also beyond ASCII, are kept after a prefix; all others become characters of SMT-LIB and [#], even if they
    contain characters beyond ASCII. Missing: that names are symbols of SMT-LIB, see above. *)
Theorem C77_wide_partial : forall (wide : text -> bool) (k : skd) (s : text), ~ In s special ->
  (Forall letter s /\ wide s = true /\ exists prefix, Forall smt_char prefix /\ sanitize wide k s = prefix ++ s) \/
  (~ (Forall letter s /\ wide s = true) /\ Forall (fun c => smt_char c \/ c = "#"%char) (sanitize wide k s)).
Proof.
  intros wide k s Hs. rewrite not_special by exact Hs.
  assert (Hk : Forall smt_char (kind_text k)).
  { apply Forall_forall. intros c Hc. apply smt_charb_spec. destruct k; cbn in Hc; repeat (destruct Hc as [<-|Hc]; [reflexivity|]); contradiction. }
  assert (A : alnum wide s = true <-> Forall letter s /\ wide s = true).
  { unfold alnum. rewrite andb_true_iff, forallb_forall, Forall_forall. apply and_iff_compat_r. unfold letter, ascii_alnum, in_range, byte.
    split; intros H c Hc; specialize (H c Hc); rewrite ?orb_true_iff, ?andb_true_iff, ?Nat.leb_le in *; lia. }
  destruct (alnum wide s) eqn:E; [left|right].
  - destruct (proj1 A eq_refl) as [A1 A2]. split; [exact A1|]. split; [exact A2|]. exists (kind_text k). split; [exact Hk|reflexivity].
  - split; [intros H; apply A in H; discriminate H|]. rewrite !Forall_app. split; [eapply Forall_impl; [|exact Hk]; cbv beta; auto|]. split; [|apply base64_out].
    apply Forall_forall. intros c Hc. left. apply smt_charb_spec. cbn in Hc. repeat (destruct Hc as [<-|Hc]; [reflexivity|]). contradiction.
Qed.
Print Assumptions C77_wide_partial.
(** [é] is a letter, [€] is not. *)
Example C77_wide_example : let e := [ascii_of_nat 195; ascii_of_nat 169] in let euro := [ascii_of_nat 226; ascii_of_nat 130; ascii_of_nat 172] in
  let wide := fun s => negb (text_eqb s euro) in
  ~ In e special /\ ~ In euro special /\ sanitize wide KFunction e = str "fun_" ++ e /\ sanitize wide KFunction euro = str "fun__base64_4oKs".
Proof.
  intros e euro wide. split; [|split; [|split; reflexivity]]; rewrite special_keys; apply look_none; reflexivity.
Qed.
