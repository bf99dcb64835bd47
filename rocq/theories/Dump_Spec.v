(** What the conversion of a whole Squirrel file should give. *)
From Coq Require Import List Arith Bool String Ascii Permutation.
From Verif Require Import Syntax_Model Smt_Model Squirrel_Model Utils_Model Utils_Spec Convert_Model Convert_Spec Dump_Model.
Import ListNotations.
Local Open Scope list_scope.

(** The last entry with that name. *)
Definition last_entry {A} (l : list (path * A)) (p : path) (a : A) : Prop :=
  exists l1 l2, l = l1 ++ (p, a) :: l2 /\ ~ In p (map fst l2).
(** The entries, in some order, each once. *)
Definition listing {A} (l es : list (path * A)) : Prop := NoDup (map fst es) /\ forall p a, In (p, a) es <-> last_entry l p a.

(** What the elements of a list give, one after the other. *)
Inductive section {A B} (R : A -> list B -> Prop) : list A -> list B -> Prop :=
| section_nil : section R [] []
| section_cons x ys l m : R x ys -> section R l m -> section R (x :: l) (ys ++ m).
Inductive couples {A} : list A -> list (A * A) -> Prop :=
| couples_nil : couples [] []
| couples_cons x l m : couples l m -> couples (x :: l) (map (fun y => (x, y)) l ++ m).

(** Sorts that may be declared to CryptoVampire: finite ones. *)
Definition indexable (k : list sortkind) : Prop := (In KFinite k /\ In KFixed k) \/ In KEnum k.

(** The variables that occur in a term, other than where they are bound. *)
Inductive occurs (v : jvar) : jterm -> Prop :=
| oc_var : occurs v (JVar v)
| oc_app f args t : In t (f :: args) -> occurs v t -> occurs v (JApp f args)
| oc_name p args t : In t args -> occurs v t -> occurs v (JName p args)
| oc_action p args t : In t args -> occurs v t -> occurs v (JAction p args)
| oc_macro p args ts t : In t (ts :: args) -> occurs v t -> occurs v (JMacro p args ts)
| oc_let x d b t : In t [d; b] -> occurs v t -> occurs v (JLet x d b)
| oc_tuple l t : In t l -> occurs v t -> occurs v (JTuple l)
| oc_proj i b : occurs v b -> occurs v (JProj i b)
| oc_diff l t : In t (map snd l) -> occurs v t -> occurs v (JDiff l)
| oc_find vars c s f t : In t [c; s; f] -> occurs v t -> occurs v (JFind vars c s f)
| oc_quant q vars b : occurs v b -> occurs v (JQuant q vars b).

(** The operators that are not declared: those CryptoVampire knows and those it has nothing for. *)
Definition undeclared : list text :=
  map str ["diff"; ">"; ">="; "qatt"; "&&"; "||"; "and"; "or"; "<=>"; "=>"; "="; "<="; "<"; "not"; "true"; "false"; "empty";
           "happens"; "pred"; "if"]%string ++ [[ascii_of_nat 195; ascii_of_nat 184]].
(** The types of the arguments: a last one that is a tuple is replaced by its elements, the others are dropped. *)
Definition inputs (l ins : list jtype) : Prop :=
  (exists l' es, l = l' ++ [TTuple es] /\ ins = es) \/ ((forall l' es, l <> l' ++ [TTuple es]) /\ ins = l).

Section Spec.
  Context (wide : text -> bool) (table : nat -> jsort) (d : dump).

  Inductive sort_name : jsort -> text -> Prop :=
  | sn_message : sort_name TMessage (str "Message")
  | sn_tuple : sort_name TTup (str "Message")
  | sn_boolean : sort_name TBoolean (str "Bool")
  | sn_timestamp : sort_name TTimestamp (str "Step")
  | sn_index : sort_name TIndex (str "index")
  | sn_name : sort_name TName (str "Name")
  | sn_large p k : last_entry (d_types d) p k -> ~ indexable k -> sort_name (TBase p) (str "Message")
  | sn_base p : (forall k, last_entry (d_types d) p k -> indexable k) -> sort_name (TBase p) (sanitize wide KSort (path_text p)).
  Inductive type_name : jtype -> text -> Prop :=
  | tn_tuple l : type_name (TTuple l) (str "Message")
  | tn_plain n s : sort_name (table n) s -> type_name (TPlain n) s.
  Definition binds (v : jvar) (b : text * text) : Prop := fst b = sanitize wide KVariable (j_name v) /\ sort_name (table (j_sort v)) (snd b).

  (** [i]: the system; [term t b]: the alternative [i] of the conversion of [t] is [b]. *)
  Section System.
    Context (i : nat) (term : jterm -> aterm -> Prop).

    Definition type_item (e : path * list sortkind) (l : list ditem) : Prop :=
      (indexable (snd e) /\ l = [DType (sanitize wide KSort (path_text (fst e)))]) \/ (~ indexable (snd e) /\ l = []).
    Definition cell_item (e : path * jmacro_data) (l : list ditem) : Prop :=
      match snd e with
      | DState s vars _ => exists out args, type_name s out /\ Forall2 (fun v a => sort_name (table (j_sort v)) a) vars args /\
          l = [DCell (sanitize wide KMacro (path_text (fst e))) args out]
      | _ => l = []
      end.
    Definition name_item (e : path * jfun) (l : list ditem) : Prop :=
      if f_poly (snd e) then l = []
      else exists ins args, inputs (f_args (snd e)) ins /\ Forall2 type_name ins args /\
             l = [DFun (sanitize wide KName (path_text (fst e))) args (str "Name")].
    Definition operator_item (e : path * joperator) (l : list ditem) : Prop :=
      match op_def (snd e) with
      | Concrete _ _ => l = []
      | Abstract _ _ =>
          (op_poly (snd e) = true /\ l = []) \/ (In (path_text (fst e)) undeclared /\ l = []) \/
          (op_poly (snd e) = false /\ ~ In (path_text (fst e)) undeclared /\
           exists ins args out, inputs (op_args (snd e)) ins /\ Forall2 type_name ins args /\ type_name (op_out (snd e)) out /\
             l = [DFun (sanitize wide KFunction (path_text (fst e))) args out])
      end.
    Definition let_item (p : path) (vars : list jvar) (body : jterm) (l : list ditem) : Prop :=
      exists args b, Forall2 binds vars args /\ term body b /\ l = [DLet (sanitize wide KFunction (path_text p)) args b].
    Definition real_inputs (l : list jvar) : list jvar := filter (fun v => if list_eq_dec ascii_dec (j_name v) (str "$dummy") then false else true) l.
    Definition global_item (e : path * jmacro_data) (l : list ditem) : Prop :=
      match snd e with
      | DGlobal ins indices ts body => let_item (fst e) (indices ++ real_inputs ins ++ [ts]) body l
      | _ => l = []
      end.
    Definition defined_item (e : path * joperator) (l : list ditem) : Prop :=
      match op_def (snd e) with Concrete vars body => let_item (fst e) vars body l | Abstract _ _ => l = [] end.

    (** Steps. The input variables of a step are those of its first known global macro. *)
    Definition step_inputs (x : jaction) (vs : list jvar) : Prop :=
      (exists l1 p l2 m, x_globals x = l1 ++ p :: l2 /\ (forall q m', In q l1 -> ~ last_entry (d_macros d) q m') /\
         last_entry (d_macros d) p m /\ vs = match m with DGlobal ins _ _ _ => real_inputs ins | _ => [] end) \/
      ((forall q m', In q (x_globals x) -> ~ last_entry (d_macros d) q m') /\ vs = []).
    (** The last of them is the input of the action at no position, the one before that of the action at the first position, ... *)
    Definition prepared (x : jaction) (t : jterm) (b : aterm) : Prop :=
      exists vs ds body, step_inputs x vs /\ term t body /\ b = lets (rev ds) body /\
        Forall2 (fun v e => binds v (fst e)) (rev vs) ds /\
        forall j e, nth_error ds j = Some e -> exists c,
          last_entry (map (fun x => (a_name (x_action x), x)) (d_actions d)) (a_name (x_action c)) c /\
          a_action (x_action c) = firstn j (a_action (x_action x)) /\ j <= List.length (a_action (x_action x)) /\
          term (JMacro (mkPath [] (str "input")) []
                  (JAction (a_name (x_action c)) (map JVar (flat_map (fun i => snd (i_par i) ++ snd (i_sum i)) (a_action (x_action c)))))) (snd e).
    (** The variables of the arguments that are not parameters of the step are universal. *)
    Definition assigns (indices : list jvar) (u : jupdate) (g : assignment) : Prop :=
      g_cell g = sanitize wide KMacro (path_text (u_symb u)) /\ Forall2 term (u_args u) (g_args g) /\ term (u_body u) (g_term g) /\
      exists vs fresh, (forall v, In v vs <-> (exists t, In t (u_args u) /\ occurs v t) /\ ~ In v indices) /\
        Forall2 binds vs fresh /\ (g_fresh g = None -> vs = []) /\ (forall l, g_fresh g = Some l -> l = fresh).
    Definition step_item (e : path * jaction) (l : list ditem) : Prop :=
      let x := snd e in
      x_cond_vars x = [] /\
      exists args cond message updates, Forall2 binds (a_indices (x_action x)) args /\ prepared x (x_cond x) cond /\
        prepared x (x_output x) message /\ Forall2 (assigns (a_indices (x_action x))) (x_updates x) updates /\
        l = [DStep (sanitize wide KStep (path_text (a_name (x_action x)))) args cond message updates].

    (** The assumption on a primitive. A hash function is a message authentication code whose verification is an unused function. *)
    Definition crypto_item (e : path * joperator) (l : list ditem) : Prop :=
      let f p := sanitize wide KFunction (path_text p) in
      match op_def (snd e) with
      | Abstract AHash _ =>
          l = [DCrypto (str "euf-cma") [f (fst e); str "verify_" ++ f (fst e)] [str "hmac"];
               DFun (str "verify_" ++ f (fst e)) [str "Message"; str "Message"; str "Message"] (str "Bool")]
      | Abstract ASEnc associated =>
          exists dec l', associated = dec :: l' /\ l = [DCrypto (str "int_ctxt") [f (fst e); f dec; str "fail"] []]
      | Abstract ACheckSign associated =>
          exists sign l', associated = sign :: l' /\
            l = [DCrypto (str "euf-cma") (match l' with [] => [f sign; f (fst e)] | pk :: _ => [f sign; f (fst e); f pk] end) []]
      | _ => l = []
      end.
  End System.
End Spec.

(** The assumption on a function of the Squirrel file, as CryptoVampire reads it. *)
Inductive assumed (wide : text -> bool) (p : path) (o : joperator) : text -> list text -> list text -> Prop :=
| as_hash l f : op_def o = Abstract AHash l -> f = sanitize wide KFunction (path_text p) ->
    assumed wide p o (str "euf-cma") [f; str "verify_" ++ f] [str "hmac"]
| as_enc dec l : op_def o = Abstract ASEnc (dec :: l) ->
    assumed wide p o (str "int_ctxt") [sanitize wide KFunction (path_text p); sanitize wide KFunction (path_text dec); str "fail"] []
| as_sign sign : op_def o = Abstract ACheckSign [sign] ->
    assumed wide p o (str "euf-cma") [sanitize wide KFunction (path_text sign); sanitize wide KFunction (path_text p)] []
| as_sign_pk sign pk l : op_def o = Abstract ACheckSign (sign :: pk :: l) ->
    assumed wide p o (str "euf-cma")
      [sanitize wide KFunction (path_text sign); sanitize wide KFunction (path_text p); sanitize wide KFunction (path_text pk)] [].
