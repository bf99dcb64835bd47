(** C103-C105: the conversion of a whole Squirrel file. *)
From Coq Require Import List Arith Bool Lia String Ascii Permutation Sorted.
From Verif Require Import Syntax_Model Parser_Model Smt_Model Squirrel_Model Squirrel_Spec Utils_Model Utils_Spec Convert_Model Convert_Spec
  Dump_Model Dump_Spec Dump_Proofs.
Import ListNotations.
Local Open Scope list_scope.

(** ** C103: the contents of the converted file *)

(** In every alternative, the converted file consists of: the finite sorts and [index]; the cells; the names and the functions; the
    global macros and the defined operators; the two projections; the steps; the orders of the pairs of steps other than [init]
    (see C56); the assumptions; the query (see C80). Each comes from its last entry in the Squirrel file, in some order of these. *)
Theorem C103_contents : forall wide table shuffle fuel d x i l, (forall A (l : list A), Permutation (shuffle A l) l) ->
  convert_dump wide table shuffle fuel d = OOk x -> aget x i = Some l ->
  exists csort names operators macros,
    (forall n s, csort n = Some s <-> sort_name wide d (table n) s) /\
    (forall p f, names p = Some f <-> last_entry (d_names d) p f) /\
    (forall p f, operators p = Some f <-> exists o, last_entry (d_operators d) p o /\
       f = mkJFun (op_poly o) (op_args o) (op_out o) (match op_def o with Concrete _ _ => true | Abstract _ _ => false end)) /\
    (forall p m, macros p = Some m <-> exists a, last_entry (d_macros d) p a /\
       m = match a with DProtocol => MProtocol | DStructured => MStructured | DState _ _ _ => MState | DGlobal ins _ _ _ => MGlobal ins end) /\
    let term t b := exists y, convert wide csort names operators macros (Any tt) t = OOk y /\ aget y i = Some b in
    let order c l := (pair_lemma wide csort fuel (fst c) (snd c) = OOk None /\ l = []) \/
                     exists o, pair_lemma wide csort fuel (fst c) (snd c) = OOk (Some o) /\ l = [DOrder o] in
    exists types ms ns os xs cs T C N F G K S O P q,
      listing (d_types d) types /\ section (type_item wide) types T /\
      listing (d_macros d) ms /\ section (cell_item wide table d) ms C /\ section (global_item wide table d term) ms G /\
      listing (d_names d) ns /\ section (name_item wide table d) ns N /\
      listing (d_operators d) os /\ section (operator_item wide table d) os F /\ section (defined_item wide table d term) os K /\
      section (crypto_item wide) os P /\
      listing (map (fun a => (a_name (x_action a), a)) (d_actions d)) xs /\ section (step_item wide table d term) xs S /\
      couples (filter (fun a => if list_eq_dec ascii_dec (path_text (a_name a)) (str "init") then false else true) (map (fun e => x_action (snd e)) xs)) cs /\
      section order cs O /\
      term (JQuant JForAll (map JVar (d_variables d))
              (JApp (JFun (mkPath [] (str "=>")))
                 [fold_left (fun acc t => JApp (JFun (mkPath [] (str "&&"))) [acc; t]) (d_hypotheses d) (JApp (JFun (mkPath [] (str "true"))) []);
                  d_query d])) q /\
      l = T ++ [DType (str "index")] ++ C ++ N ++ F ++ G ++ K ++
          map (fun c => DAssert (AQuant QForall [(str "x", str "Message"); (str "y", str "Message")]
             (AInfix OEq [AApp (str (fst c)) [AApp (str "pair") [AVar (str "x"); AVar (str "y")]]; AVar (str (snd c))])))
            [("fst", "x"); ("snd", "y")]%string ++
          S ++ O ++ [DCrypto (str "nonce") [] []; DCrypto (str "memory_cell") [] []; DCrypto (str "unfolding") [] []] ++ P ++ [DQuery q].
Proof.
  intros wide table shuffle fuel d x i l sh E H.
  destruct (dump_split wide table shuffle fuel d i x l E H) as (T0 & C & F0 & G0 & S & O & P0 & q0 & HT & HC & HF & HG & HS & HO & HP & Hq & El).
  destruct (types_items wide shuffle d sh i _ HT) as (types & T & LT & ST & ->).
  apply (cells_items wide table shuffle d i) in HC. destruct (funs_items wide table shuffle d i _ HF) as (N & F & -> & SN & SF).
  destruct (macros_items wide table shuffle d i _ HG) as (G & K & -> & SG & SK). apply (steps_items wide table shuffle d sh i) in HS.
  destruct (orders_items wide table shuffle fuel d i _ HO) as (cs & Hcs & SO). destruct (crypto_items wide shuffle d i _ HP) as (P & SP & ->).
  apply at_bind in Hq. destruct Hq as (q & Hq & Eq). apply at_pure in Eq. subst q0.
  exists (csort wide table d), (names d), (operators d), (macros d).
  split; [intros; apply csort_spec|]. split; [intros; apply names_spec|]. split; [intros; apply operators_spec|]. split; [intros; apply macros_spec|].
  exists types, (shuffle _ (p_macros d)), (shuffle _ (p_names d)), (shuffle _ (p_operators d)), (shuffle _ (p_actions d)), cs, T, C, N, F, G, K, S, O, P, q.
  split; [exact LT|]. split; [exact ST|]. split; [eapply listing_perm; [apply sh|apply hash_listing]|]. split; [exact HC|]. split; [exact SG|].
  split; [eapply listing_perm; [apply sh|apply hash_listing]|]. split; [exact SN|].
  split; [eapply listing_perm; [apply sh|apply hash_listing]|]. split; [exact SF|]. split; [exact SK|]. split; [exact SP|].
  split; [eapply listing_perm; [apply sh|apply hash_listing]|]. split; [exact HS|]. split; [exact Hcs|]. split; [exact SO|]. split; [exact Hq|].
  rewrite El, <- !app_assoc. reflexivity.
Qed.
Print Assumptions C103_contents.

(** A reader with one cell, a hash and two systems. *)
Definition all_ascii (s : text) : bool := true.
Definition in_order {A} (l : list A) : list A := l.
Definition sorts (n : nat) : jsort := match n with 0 => TMessage | 1 => TIndex | 2 => TBoolean | 3 => TTimestamp | _ => TBase (mkPath [] (str "T")) end.
Definition pth (s : string) : path := mkPath [] (str s).
Definition vi := mkJVar (str "i") 1.
Definition vj := mkJVar (str "j") 1.
Definition vt := mkJVar (str "t") 3.
Definition vin := mkJVar (str "in1") 0.
Definition ffn (s : string) (l : list jterm) : jterm := JApp (JFun (pth s)) l.
Definition msg_of_cell (l : list jterm) : jterm := JMacro (pth "s") l (JApp (JFun (pth "pred")) [JAction (pth "R") [JVar vi]]).
Definition reader : dump := mkDump
  (JDiff [(str "left", ffn "=" [JVar (mkJVar (str "m") 0); JName (pth "k") [JVar vj]]); (str "right", ffn "true" [])])
  [ffn "happens" [JAction (pth "R") [JVar vj]]] [mkJVar (str "m") 0; vj]
  [mkJAction (mkAction (pth "init") [] [] 0) [] (ffn "true" []) [mkUpdate (pth "s") [JVar vj] (JName (pth "k") [JVar vj])] (ffn "empty" []) [];
   mkJAction (mkAction (pth "R") [mkItem (0, [vi]) (0, [])] [vi] 1) []
     (ffn "=" [JVar vin; ffn "h" [msg_of_cell [JVar vi]; JName (pth "k") [JVar vi]]])
     [mkUpdate (pth "s") [JVar vi] (ffn "h" [JMacro (pth "s") [JVar vi] (JApp (JFun (pth "pred")) [JAction (pth "R") [JVar vi]]); JName (pth "k") [JVar vi]])]
     (JDiff [(str "left", JVar vin); (str "right", JName (pth "k") [JVar vi])]) [pth "unknown"; pth "g"]]
  [(pth "k", mkJFun false [TPlain 1] (TPlain 0) false)]
  [(pth "h", mkOperator false [TPlain 0; TPlain 0] (TPlain 0) (Abstract AHash [])); (pth "<>", mkOperator true [TPlain 0; TPlain 0] (TPlain 2) (Abstract AOther []));
   (pth "twice", mkOperator false [TPlain 0] (TPlain 0) (Concrete [mkJVar (str "a") 0] (ffn "h" [JVar (mkJVar (str "a") 0); JVar (mkJVar (str "a") 0)])))]
  [(pth "s", DState (TPlain 0) [vi] (ffn "empty" [])); (pth "input", DStructured); (pth "g", DGlobal [vin; mkJVar (str "$dummy") 0] [vi] vt (JVar vin))]
  [(pth "T", [KFinite; KFixed]); (pth "M", [KLarge]); (pth "M", [KLarge; KEnum])].
Example C103_contents_example : exists a b,
  convert_dump all_ascii sorts (@in_order) 10 reader = OOk (All [a; b]) /\ a <> b /\ (forall A (l : list A), Permutation (in_order l) l) /\
  List.length a = 18.
Proof.
  eexists _, _. split; [vm_compute; reflexivity|]. split; [discriminate|]. split; [intros; apply Permutation_refl|reflexivity].
Qed.
