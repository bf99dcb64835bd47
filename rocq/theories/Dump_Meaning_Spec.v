(** Converted terms, as they are read by CryptoVampire. *)
From Coq Require Import List Arith Bool String Ascii.
From Verif Require Import Syntax_Model Traversal_Spec Semantics_Spec Sort_Model Parser_Model Parser_Spec Source_Model Smt_Model Squirrel_Model Convert_Model Convert_Spec
  Meaning_Spec Dump_Model Dump_Spec Dump_Source_Model.
Import ListNotations.
Local Open Scope list_scope.

(** A value in the symbolic realm and one in the evaluated realm. *)
Definition in_realm {A} (r : realm) (d : A * A) : A := match r with RSymbolic => fst d | REvaluated => snd d end.
Definition by_realm {A} (f : realm -> A) : A * A := (f RSymbolic, f REvaluated).

(** Nested quantification over values of the given sorts. *)
Fixpoint over {M : structure} (q : quant) (ss : list sort) (k : list (D M) -> bool) : bool :=
  match ss with
  | [] => k []
  | s :: ss' =>
      match q with
      | QForall => all_ M s (fun d => over q ss' (fun ds => k (d :: ds)))
      | QExists => ex_ s (fun d => over q ss' (fun ds => k (d :: ds)))
      end
  end.

Section Reading.
  Context {M : structure} (env : penv) (qsem : qkind -> list sort -> (list (D M) -> list (D M)) -> D M)
    (mval : callee -> realm -> list (D M) -> list (D M) -> D M) (code : text -> name).

  (** What a variable of this sort with this value stands for: messages and conditions are evaluated in the evaluated realm. *)
  Definition stands (s : sort) (d : D M) : D M * D M := by_realm (fun r => evald M r s d).
  Fixpoint stand (ss : list sort) (ds : list (D M)) : list (D M * D M) :=
    match ss, ds with s :: ss', d :: ds' => stands s d :: stand ss' ds' | _, _ => [] end.
  Definition sorts_read (ss : list text) : list sort := map (fun s => sort_named env (code s)) ss.

  (** The meaning CryptoVampire gives to the symbols of converted terms ([Parser_Spec]). *)
  Definition reading : target (D M * D M) := mkTarget (D M * D M)
    (fun f ds => by_realm (fun r => fn_value M env r (code f) (fun r' => map (in_realm r') ds)))
    (fun o ds => by_realm (fun r => infix_value M o r (fun r' => map (in_realm r') ds)))
    (fun c l d => by_realm (fun r => app (match r with REvaluated => Fite | RSymbolic => Fta TIte end) [in_realm r c; in_realm r l; in_realm r d]))
    (fun m ds => by_realm (fun r => mval (CMac (code m)) r (map fst ds) (map snd ds)))
    (fun ss c l d => by_realm (fun r => evald M r SMessage
       (qsem KFind (sorts_read ss) (fun ds => [fst (c (stand (sorts_read ss) ds)); fst (l (stand (sorts_read ss) ds)); fst d]))))
    (fun ss p => (qsem KForall (sorts_read ss) (fun ds => [fst (p (stand (sorts_read ss) ds))]),
                  dinj M (over QForall (sorts_read ss) (fun ds => dtest M (snd (p (stand (sorts_read ss) ds)))))))
    (fun ss p => (qsem KExists (sorts_read ss) (fun ds => [fst (p (stand (sorts_read ss) ds))]),
                  dinj M (over QExists (sorts_read ss) (fun ds => dtest M (snd (p (stand (sorts_read ss) ds))))))).

  (** A name that nothing binds is a constant. *)
  Definition constant (x : text) : D M * D M := by_realm (fun r => fn_value M env r (code x) (fun _ => [])).
End Reading.

(** Lets, if any, define messages by applications of functions to messages, under this reading of the names. *)
Inductive message_lets (env : penv) (code : text -> name) : aterm -> Prop :=
| ml_var x : message_lets env code (AVar x)
| ml_app f args : (forall a, In a args -> message_lets env code a) -> message_lets env code (AApp f args)
| ml_infix o args : (forall a, In a args -> message_lets env code a) -> message_lets env code (AInfix o args)
| ml_ite c l r : message_lets env code c -> message_lets env code l -> message_lets env code r -> message_lets env code (AIte c l r)
| ml_macro f args : (forall a, In a args -> message_lets env code a) -> message_lets env code (AMacro f args)
| ml_find vs c l r : message_lets env code c -> message_lets env code l -> message_lets env code r -> message_lets env code (AFind vs c l r)
| ml_quant q vs b : message_lets env code b -> message_lets env code (AQuant q vs b)
| ml_let x ty f fc ss args b : sort_named env (code ty) = SMessage ->
    (forall r, denotes env (code f) r = Some fc) -> fc_kind fc = SgFixed ss SMessage -> fc_name fc = None ->
    (forall a, In a args -> message_lets env code a) -> message_lets env code b -> message_lets env code (ALet (x, ty) (AApp f args) b).

(** The names CryptoVampire fixes, and its function for the inputs of steps. *)
Record spelled (code : text -> name) (bf : list (name * fcache)) : Prop := mkSpelled {
  sp_words : map (fun s => code (str s)) ["true"; "True"; "false"; "False"; "not"; "in"]%string = [0; 1; 2; 3; 4; 5];
  sp_input : In (code (str "input"), mkFc (Fmacro MInput) (SgFixed [SStep] SMessage) None None) bf
}.
(** The terms of the item do not apply functions to more arguments than they take. *)
Definition counted_item (env : penv) (i : Source_Model.item) : Prop :=
  match i with
  | IStep a => counted env (sa_cond a) /\ counted env (sa_msg a)
  | IQuery t => counted env t
  | _ => True
  end.

(** ** Steps *)
Section Steps.
  Context (wide : text -> bool) (table : nat -> jsort) (d : dump) (names operators : path -> option jfun) (macros : path -> option jmacro).

  (** The input of an action. *)
  Definition input_term (c : jaction) : jterm :=
    JMacro (mkPath [] (str "input")) [] (JAction (a_name (x_action c)) (map JVar (flat_map (fun i => snd (i_par i) ++ snd (i_sum i)) (a_action (x_action c))))).

  (** The values of the variables in a step: its indices have those of the parameters, its input variables are the inputs of the actions
      [cs], and the other names are constants. *)
  Record environment {M : structure} (env : penv) (code : text -> name) (S : source (D M * D M)) (x : jaction) (vs : list jvar) (cs : list jaction)
      (params : list var) (rho : Semantics_Spec.env M) (e : text -> D M * D M) : Prop := mkEnvironment {
    en_index : forall k v w, nth_error (a_indices (x_action x)) k = Some v -> nth_error params k = Some w -> e (j_name v) = stands (vsort w) (rho (vid w));
    en_input : forall j v c, nth_error (rev vs) j = Some v -> nth_error cs j = Some c -> e (j_name v) = jvalue (global_inputs macros) S e (input_term c);
    en_other : forall y, ~ In y (map j_name (a_indices (x_action x) ++ vs)) -> e y = constant env code (sanitize wide KVariable y)
  }.

  (** Indices and inputs have distinct names, which stay apart from those of the term; the variables of the position are indices; inputs are
      messages, and [input] is the macro for the inputs of actions. *)
  Record proper_step (systems : list text) (s : text) (x : jaction) (t : jterm) : Prop := mkProperStep {
    ps_systems : systems_of systems t;
    ps_diff : no_diff_tuple names operators t;
    ps_proper : proper_term wide names operators macros (side s t);
    ps_names : forall vs, step_inputs d x vs -> NoDup (map j_name (a_indices (x_action x) ++ vs)) /\
      forall y z, In y (map j_name (a_indices (x_action x) ++ vs)) \/ variable_of macros (side s t) y -> In z (map j_name (a_indices (x_action x) ++ vs)) \/ variable_of macros (side s t) z ->
        sanitize wide KVariable y = sanitize wide KVariable z -> y = z;
    ps_position : forall i v, In i (a_action (x_action x)) -> In v (snd (i_par i) ++ snd (i_sum i)) -> In v (a_indices (x_action x));
    ps_messages : forall vs v, step_inputs d x vs -> In v vs ->
      sort_name wide d (table (j_sort v)) (str "Message") /\
      exists m, last_entry (d_macros d) (mkPath [] (str "input")) m /\ (m = DProtocol \/ m = DStructured)
  }.

  (** [f] has the value of [t] in the step: the last of its input variables is the input of the action at no position, the one before that of the
      action at its first position, ... *)
  Definition step_means {M : structure} (env : penv) (code : text -> name) (S : source (D M * D M)) (s : text) (x : jaction) (params : list var)
      (t : jterm) (f : formula) : Prop :=
    exists vs cs, step_inputs d x vs /\ List.length cs = List.length vs /\
      (forall j c, nth_error cs j = Some c -> last_entry (map (fun x => (a_name (x_action x), x)) (d_actions d)) (a_name (x_action c)) c /\
         a_action (x_action c) = firstn j (a_action (x_action x)) /\ j <= List.length (a_action (x_action x))) /\
      forall rho : Semantics_Spec.env M, (exists e, environment env code S x vs cs params rho e) /\
        forall e, environment env code S x vs cs params rho e -> eval f rho = fst (jvalue (global_inputs macros) S e (side s t)).
End Steps.
