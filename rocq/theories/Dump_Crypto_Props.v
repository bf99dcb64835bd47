(** C104: the cryptographic assumptions of a Squirrel file. *)
From Coq Require Import List Arith Bool Lia String Ascii Permutation.
From Verif Require Import Syntax_Model Traversal_Model Traversal_Spec Semantics_Spec Semantics_Proofs Subst_Model Order_Model Order_Spec Macro_Model
  Binding_Proofs Macro_Props Unify_Model Graph_Model Graph_Spec Graph_Proofs Graph_Props Expander_Model Expander_Spec Expander_Props
  Exists_Model Exists_Props Search_Model Search_Spec Search_Props Crypto_Model Crypto_Spec Crypto_Proofs Crypto_Props
  Smt_Model Squirrel_Model Utils_Model Utils_Spec Convert_Model Convert_Spec Dump_Model Dump_Spec Dump_Proofs Dump_Props.
Import ListNotations.
Local Open Scope list_scope.

Lemma section_in {A B} (R : A -> list B -> Prop) l m y : section R l m -> In y m -> exists x ys, In x l /\ R x ys /\ In y ys.
Proof.
  induction 1 as [|x ys l m H S IH]; [intros []|]. intros I. apply in_app_iff in I. destruct I as [I|I]; [exists x, ys; cbn; auto|].
  destruct (IH I) as (x' & ys' & ? & ? & ?). exists x', ys'. cbn. auto.
Qed.
Lemma section_has {A B} (R : A -> list B -> Prop) l m x : section R l m -> In x l -> exists ys, R x ys /\ incl ys m.
Proof.
  induction 1 as [|x' ys l m H S IH]; [intros []|]. intros [->|I]; [exists ys; split; [exact H|apply incl_appl, incl_refl]|].
  destruct (IH I) as (ys' & ? & ?). exists ys'. split; [assumption|apply incl_appr; assumption].
Qed.
Lemma section_none {A B} (R : A -> list B -> Prop) l m (P : B -> Prop) : section R l m -> (forall x ys y, R x ys -> In y ys -> ~ P y) -> forall y, In y m -> ~ P y.
Proof. intros S H y I. destruct (section_in _ _ _ _ S I) as (x & ys & _ & Hx & Hy). eauto. Qed.

(** The assumptions of the converted file: the three that are always there, and those of the functions of the Squirrel file. Partial:
    only their text; for signatures it is not what Squirrel assumes, see below. *)
Theorem C104_assumptions_partial : forall wide table shuffle fuel d x i l, (forall A (l : list A), Permutation (shuffle A l) l) ->
  convert_dump wide table shuffle fuel d = OOk x -> aget x i = Some l ->
  forall name fs os, In (DCrypto name fs os) l <->
    (In name [str "nonce"; str "memory_cell"; str "unfolding"] /\ fs = [] /\ os = []) \/
    exists p o, last_entry (d_operators d) p o /\ assumed wide p o name fs os.
Proof.
  intros wide table shuffle fuel d x i l sh E H name fs os.
  destruct (C103_contents _ _ _ _ _ _ _ _ sh E H) as (csort & names & operators & macros & _ & _ & _ & _ & types & ms & ns & oss & xs & cs & T & C & N & F & G & K & S & O & P & q &
    _ & ST & _ & SC & SG & _ & SN & LO & SF & SK & SP & _ & SS & _ & SO & _ & ->).
  assert (X : forall y, In y P -> (exists a b c, y = DCrypto a b c) -> forall a b c, y = DCrypto a b c -> exists p o, last_entry (d_operators d) p o /\ assumed wide p o a b c).
  { intros y Hy _ a b c ->. destruct (section_in _ _ _ _ SP Hy) as ((p & o) & ys & I & R & Iy). exists p, o. split; [apply LO; exact I|].
    unfold crypto_item in R. cbn [fst snd] in R. destruct (op_def o) as [[| | |] ass|args body] eqn:Eo.
    - subst ys. cbn in Iy. destruct Iy as [Iy|[Iy|[]]]; [|discriminate]. injection Iy as <- <- <-. eapply as_hash; [exact Eo|reflexivity].
    - destruct R as (dec & l' & -> & ->). cbn in Iy. destruct Iy as [Iy|[]]. injection Iy as <- <- <-. eapply as_enc. exact Eo.
    - destruct R as (sign & l' & -> & ->). cbn in Iy. destruct Iy as [Iy|[]]. destruct l' as [|pk l']; injection Iy as <- <- <-.
      + eapply as_sign. exact Eo.
      + eapply as_sign_pk. exact Eo.
    - subst ys. destruct Iy.
    - subst ys. destruct Iy. }
  assert (Nn : forall R l m, section R l m -> (forall (x : path * joperator) ys y, R x ys -> In y ys -> ~ exists a b c, y = DCrypto a b c) -> ~ In (DCrypto name fs os) m).
  { intros R l0 m S0 H0 I. eapply (section_none R l0 m _ S0 H0 _ I). eauto. }
  split.
  - intros I. repeat (rewrite in_app_iff in I).
    repeat match goal with I : _ \/ _ |- _ => destruct I as [I|I] end.
    + exfalso. destruct (section_in _ _ _ _ ST I) as (e & ys & _ & [(_ & ->)|(_ & ->)] & Iy); cbn in Iy; intuition discriminate.
    + exfalso. cbn in I. intuition discriminate.
    + exfalso. destruct (section_in _ _ _ _ SC I) as ((p & m) & ys & _ & R & Iy). unfold cell_item in R. cbn [snd fst] in R.
      destruct m; [| |destruct R as (out & args & _ & _ & ->)|]; subst; cbn in Iy; intuition discriminate.
    + exfalso. destruct (section_in _ _ _ _ SN I) as ((p & m) & ys & _ & R & Iy). unfold name_item in R. cbn [snd fst] in R.
      destruct (f_poly m); [|destruct R as (ins & args & _ & _ & ->)]; subst; cbn in Iy; intuition discriminate.
    + exfalso. destruct (section_in _ _ _ _ SF I) as ((p & m) & ys & _ & R & Iy). unfold operator_item in R. cbn [snd fst] in R.
      destruct (op_def m); [destruct R as [(_ & ->)|[(_ & ->)|(_ & _ & ins & args & out & _ & _ & _ & ->)]]|]; subst; cbn in Iy; intuition discriminate.
    + exfalso. destruct (section_in _ _ _ _ SG I) as ((p & m) & ys & _ & R & Iy). unfold global_item in R. cbn [snd fst] in R.
      destruct m; [| | |destruct R as (args & b & _ & _ & ->)]; subst; cbn in Iy; intuition discriminate.
    + exfalso. destruct (section_in _ _ _ _ SK I) as ((p & m) & ys & _ & R & Iy). unfold defined_item in R. cbn [snd fst] in R.
      destruct (op_def m); [|destruct R as (args' & b & _ & _ & ->)]; subst; cbn in Iy; intuition discriminate.
    + exfalso. apply in_map_iff in I. destruct I as (c & Ec & _). discriminate Ec.
    + exfalso. destruct (section_in _ _ _ _ SS I) as (e & ys & _ & (_ & args & cond & message & updates & _ & _ & _ & _ & ->) & Iy). cbn in Iy. intuition discriminate.
    + exfalso. destruct (section_in _ _ _ _ SO I) as (e & ys & _ & [(_ & ->)|(o & _ & ->)] & Iy); cbn in Iy; intuition discriminate.
    + left. cbn in I. destruct I as [I|[I|[I|[]]]]; injection I as <- <- <-; cbn; auto 6.
    + right. eapply X; eauto.
    + exfalso. cbn in I. intuition discriminate.
  - intros [(I & -> & ->)|(p & o & L & A)].
    + do 10 (apply in_app_iff; right). apply in_app_iff. left. cbn in I |- *. intuition (subst; auto).
    + do 11 (apply in_app_iff; right). apply in_app_iff. left. apply LO in L. destruct (section_has _ _ _ _ SP L) as (ys & R & Inc). apply Inc.
      unfold crypto_item in R. cbn [fst snd] in R. destruct A as [l f Eo ->|dec l Eo|sign Eo|sign pk l Eo]; rewrite Eo in R.
      * subst ys. left. reflexivity.
      * destruct R as (dec' & l' & [= <- <-] & ->). left. reflexivity.
      * destruct R as (dec' & l' & [= <- <-] & ->). left. reflexivity.
      * destruct R as (dec' & l' & [= <- <-] & ->). left. reflexivity.
Qed.
Print Assumptions C104_assumptions_partial.

(** A file with a signature: [checksign(message, signature, public key)]. *)
Definition signer (query : jterm) : dump := mkDump query [] []
  [mkJAction (mkAction (pth "init") [] [] 0) [] (ffn "true" []) [] (ffn "empty" []) []]
  [(pth "k", mkJFun false [] (TPlain 0) false)]
  [(pth "sign", mkOperator false [TPlain 0; TPlain 0] (TPlain 0) (Abstract AOther []));
   (pth "checksign", mkOperator false [TPlain 0; TPlain 0; TPlain 0] (TPlain 2) (Abstract ACheckSign [pth "sign"; pth "pk"]));
   (pth "pk", mkOperator false [TPlain 0] (TPlain 0) (Abstract AOther [])); (pth "b", mkOperator false [] (TPlain 0) (Abstract AOther []))]
  [] [].
Definition honest : jterm := ffn "checksign" [ffn "b" []; ffn "sign" [ffn "b" []; JName (pth "k") []]; ffn "pk" [JName (pth "k") []]].
Example C104_assumptions_example : exists l,
  convert_dump all_ascii sorts (@in_order) 10 (signer (ffn "not" [honest])) = OOk (Any l) /\
  In (DCrypto (str "euf-cma") [str "fun_sign"; str "fun_checksign"; str "fun_pk"] []) l.
Proof.
  eexists. split; [vm_compute; reflexivity|]. vm_compute. repeat (first [left; reflexivity|right]).
Qed.

(** One key; message 0 has the signature 2, the others 3. [checksign(m, s, pk(k))] holds exactly when [s] is the signature of [m]. *)
Definition cs_M : structure := sfinM (fun s => match s with SName => 10 | _ => 0 end) (fun s => match s with SName => 10 | _ => 3 end)
  (fun s ds => match s, ds with
     | Feval _, [d] => d | Fcast SMessage, _ => 1 | Fuser 0, [m; _] => if m =? 0 then 2 else 3
     | Fuser 1, [m; s; _] => b2n (s =? (if m =? 0 then 2 else 3)) | Fsubterm 0, [s; m] => b2n ((s =? m) && (2 <=? s))
     | Fuser 3, [k] => k | _, _ => 0 end).
(** The test of an honest signature, as it is read: functions 0, 1, 3 and 9 are [sign], [checksign], [pk] and [b]. *)
Definition cs_test : formula := FFun (Fuser 1) [c_b; FFun (Fuser 0) [c_b; cast_name c_k]; FFun (Fuser 3) [cast_name c_k]].
(** Squirrel's test takes the message first, and the terms are passed on as they are; CryptoVampire's assumption takes the signature
    first. In a structure where honest signatures are accepted and no other can be forged, the axiom that is written for the test of an
    honest signature is false. *)
Theorem C104_checksign_refuted :
  (exists l, convert_dump all_ascii sorts (@in_order) 10 (signer (ffn "not" [honest])) = OOk (Any l) /\
     In (DCrypto (str "euf-cma") [str "fun_sign"; str "fun_checksign"; str "fun_pk"] []) l /\
     In (DQuery (AQuant QForall [] (AInfix Parser_Model.OImplies [AApp (str "true") []; AApp (str "not") [
       AApp (str "fun_checksign") [AApp (str "fun_b") []; AApp (str "fun_sign") [AApp (str "fun_b") []; AApp (str "name_k") []];
         AApp (str "fun_pk") [AApp (str "name_k") []]]]]))) l) /\
  (forall m k, dom cs_M SMessage m -> dom cs_M SMessage k ->
     accepts cs_M 1 m (fint cs_M (Fuser 0) [m; k]) (fint cs_M (Fuser 3) [k])) /\
  unforgeable cs_M (fun u k => fint cs_M (Fuser 0) [u; k]) (fun sigma m k => accepts cs_M 1 m sigma (fint cs_M (Fuser 3) [named cs_M k])) 0 1 4 /\
  exists c ax, candidates (euf_found 1 3) 30 5 [fnot (ev_cond cs_test)] = Some [c] /\
    euf_instance c_sort [] [] s_anc (fun _ => mkTaQuant [] [] []) 30 scmp0 true true true (KVampire 0) (KVampire 1) 0 1 3 80 5 c = Some (Some ax) /\
    forall rho : env cs_M, ~ holds ax rho.
Proof.
  assert (Hacc : forall a b k, accepts cs_M 1 b a k <-> a = if b =? 0 then 2 else 3).
  { intros a b k. unfold accepts, tholds. cbn [cs_M sfinM dtest fint]. rewrite n2b_b2n. apply Nat.eqb_eq. }
  split. { eexists. split; [vm_compute; reflexivity|]. split; vm_compute; repeat (first [left; reflexivity|right]). }
  split. { intros m k _ _. apply Hacc. reflexivity. }
  split.
  { intros sigma m k Ds Dm Dk Ha Hno. apply Hacc in Ha. apply (Hno m Dm eq_refl). right; left. subst sigma. unfold tholds. cbn [cs_M sfinM dtest fint].
    rewrite n2b_b2n. destruct (m =? 0); reflexivity. }
  eexists _, _. split; [vm_compute; reflexivity|]. split; [vm_compute; reflexivity|]. intros rho H. vm_compute in H. discriminate.
Qed.
Print Assumptions C104_checksign_refuted.
