(** The conversion of a whole Squirrel file. Paths are relative to /repo/crates/cryptovampire/src/squirrel unless said otherwise.
    Source positions ([span]), traces and the messages of errors are left out. *)
From Coq Require Import List Arith Bool String Ascii.
From Verif Require Import Syntax_Model Smt_Model Squirrel_Model Utils_Model Convert_Model.
Import ListNotations.
Local Open Scope list_scope.

(** ** The file *)

(** json/sort.rs [Type], for those that are numbers in [jtype]; [TOther]: type variables and function types. *)
Inductive jsort : Type := TMessage | TBoolean | TIndex | TTimestamp | TBase (p : path) | TTup | TOther | TName.
(** json/mtype.rs 4-12 [SortKind]. *)
Inductive sortkind : Type := KLarge | KNameFixedLength | KFinite | KFixed | KWellFounded | KEnum.
Definition kind_eqb (a b : sortkind) : bool :=
  match a, b with
  | KLarge, KLarge | KNameFixedLength, KNameFixedLength | KFinite, KFinite | KFixed, KFixed | KWellFounded, KWellFounded | KEnum, KEnum => true
  | _, _ => false
  end.
Definition contains (k : sortkind) (l : list sortkind) : bool := existsb (kind_eqb k) l.
(** json/mtype.rs 87-90. *)
Definition can_be_index (l : list sortkind) : bool := (contains KFinite l && contains KFixed l) || contains KEnum l.

(** json/action.rs 38-44 [Update]. *)
Record jupdate : Type := mkUpdate { u_symb : path; u_args : list jterm; u_body : jterm }.
(** json/action.rs 60-78 [Action]; channels are left out. *)
Record jaction : Type := mkJAction {
  x_action : action; x_cond_vars : list jvar; x_cond : jterm; x_updates : list jupdate; x_output : jterm; x_globals : list path }.
(** json/mmacro.rs 6-109 [Data]; arities, the types and shapes of the global macros and the definitions of the structured ones are
    left out. *)
Inductive jmacro_data : Type :=
| DProtocol
| DStructured
| DState (sort : jtype) (vars : list jvar) (init : jterm)
| DGlobal (inputs indices : list jvar) (ts : jvar) (body : jterm).
Definition macro_kind (m : jmacro_data) : jmacro :=
  match m with DProtocol => MProtocol | DStructured => MStructured | DState _ _ _ => MState | DGlobal inputs _ _ _ => MGlobal inputs end.
(** json/operator.rs 27-60 [AbstractDef], [Concrete], [Def]; [AOther]: the other abstract definitions. *)
Inductive abstract_def : Type := AHash | ASEnc | ACheckSign | AOther.
Inductive jdef : Type := Abstract (d : abstract_def) (associated : list path) | Concrete (args : list jvar) (body : jterm).
(** json/operator.rs 90-96 [Data]. *)
Record joperator : Type := mkOperator { op_poly : bool; op_args : list jtype; op_out : jtype; op_def : jdef }.
Definition op_fun (o : joperator) : jfun :=
  mkJFun (op_poly o) (op_args o) (op_out o) (match op_def o with Concrete _ _ => true | _ => false end).

(** json/squirrel_dump.rs 17-28 [SquirrelDump]. *)
Record dump : Type := mkDump {
  d_query : jterm; d_hypotheses : list jterm; d_variables : list jvar; d_actions : list jaction; d_names : list (path * jfun);
  d_operators : list (path * joperator); d_macros : list (path * jmacro_data); d_types : list (path * list sortkind) }.

Definition path_eqb (p q : path) : bool := list_eqb text_eqb (p_npath p) (p_npath q) && text_eqb (p_symb p) (p_symb q).
(** [HashMap::insert], the map being a list. *)
Fixpoint insert {A} (p : path) (a : A) (l : list (path * A)) : list (path * A) :=
  match l with [] => [(p, a)] | (q, b) :: l' => if path_eqb p q then (q, a) :: l' else (q, b) :: insert p a l' end.
(** json/squirrel_dump.rs 196-200 [convert_content_list], and [collect] into a [HashMap]. *)
Definition hash_map {A} (l : list (path * A)) : list (path * A) := fold_left (fun acc x => insert (fst x) (snd x) acc) l [].
Fixpoint find_path {A} (l : list (path * A)) (p : path) : option A :=
  match l with [] => None | (q, a) :: l' => if path_eqb p q then Some a else find_path l' p end.

(** ** What the conversion builds: ../parser/ast *)

(** ../parser/ast/cell.rs 80-96 [Assignement]. *)
Record assignment : Type := mkAssign { g_cell : text; g_args : list aterm; g_fresh : option (list (text * text)); g_term : aterm }.
(** ../parser/ast/mod.rs [AST]. *)
Inductive ditem : Type :=
| DType (s : text)
| DFun (f : text) (args : list text) (out : text)
| DCell (f : text) (args : list text) (out : text)
| DLet (f : text) (args : list (text * text)) (body : aterm)
| DAssert (t : aterm)
| DStep (name : text) (args : list (text * text)) (cond message : aterm) (updates : list assignment)
| DOrder (o : order)
| DCrypto (name : text) (functions : list text) (options : list text)
| DQuery (t : aterm).

(** json/term.rs 100-143 [vars]: the subterms are taken from a stack, so the last are first. *)
Fixpoint term_vars (t : jterm) {struct t} : list jvar :=
  match t with
  | JVar v => [v]
  | JFun _ => []
  | JAction _ args | JName _ args => List.concat (rev (map term_vars args))
  | JApp f args => term_vars f ++ List.concat (rev (map term_vars args))
  | JMacro _ args ts => term_vars ts ++ List.concat (rev (map term_vars args))
  | JLet _ d b => term_vars b ++ term_vars d
  | JTuple l => List.concat (rev (map term_vars l))
  | JQuant _ _ b | JProj _ b => term_vars b
  | JFind _ c s f => term_vars f ++ term_vars s ++ term_vars c
  | JDiff l => List.concat (rev (map (fun d => match d with (_, t) => term_vars t end) l))
  end.

Section Dump.
  (** [table]: the sorts that are numbers; [shuffle]: the order of the elements of a [HashMap]; [fuel]: for the renaming of indices. *)
  Context (wide : text -> bool) (table : nat -> jsort) (shuffle : forall {A}, list A -> list A) (fuel : nat) (d : dump).

  (** json/squirrel_dump.rs 140-194 [ProcessedSquirrelDump::from]. *)
  Definition p_names : list (path * jfun) := hash_map (d_names d).
  Definition p_operators : list (path * joperator) := hash_map (d_operators d).
  Definition p_macros : list (path * jmacro_data) := hash_map (d_macros d).
  Definition p_types : list (path * list sortkind) := hash_map (d_types d).
  Definition p_actions : list (path * jaction) := hash_map (map (fun a => (a_name (x_action a), a)) (d_actions d)).

  Definition names (p : path) : option jfun := find_path p_names p.
  Definition operators (p : path) : option jfun := option_map op_fun (find_path p_operators p).
  Definition macros (p : path) : option jmacro := option_map macro_kind (find_path p_macros p).
  (** json/squirrel_dump.rs 128-136 and 174-177: the last action with these positions. *)
  Definition by_position (l : list (item (list jvar))) : option action :=
    fold_left (fun acc a => if list_eqb (item_eqb var_list_eqb) l (a_action (x_action (snd a))) then Some (x_action (snd a)) else acc)
      (shuffle _ p_actions) None.

  (** converters/ast_convertion.rs 79-105 and ../formula/sort/builtins.rs. *)
  Definition sort_text (p : path) : text := sanitize wide KSort (path_text p).
  Definition convert_jsort (s : jsort) : option text :=
    match s with
    | TMessage | TTup => Some (str "Message")
    | TBoolean => Some (str "Bool")
    | TTimestamp => Some (str "Step")
    | TIndex => Some (str "index")
    | TBase p =>
        match option_map (fun k => negb (can_be_index k)) (find_path p_types p) with
        | Some true => Some (str "Message")
        | _ => Some (sort_text p)
        end
    | TOther => None
    | TName => Some (str "Name")
    end.
  Definition csort (n : nat) : option text := convert_jsort (table n).

  (** The shape of the context is the default one: ContextBuilder, converters/mod.rs 104-112. *)
  Definition conv : jterm -> outcome (aoov aterm) := convert wide csort names operators macros (Any tt).

  (** converters/ast_convertion.rs 232-272 [UpdateRef::convert]. *)
  Definition convert_update (a : action) (u : jupdate) : outcome (aoov assignment) :=
    andthen (mapR (typed_var wide csort) (filter (fun v => negb (existsb (jvar_eqb v) (a_indices a))) (flat_map term_vars (u_args u)))) (fun fresh =>
    andthen (mapR conv (u_args u)) (fun args =>
    transposed args (fun args =>
    transposed fresh (fun fresh =>
    rbind (conv (u_body u)) (fun b =>
    rpure (mkAssign (macro_text wide (u_symb u)) args (match fresh with [] => None | _ => Some fresh end) b)))))).

  (** converters/ast_convertion.rs 156-162: the first global macro that is known. *)
  Definition first_global (l : list path) : option jmacro :=
    hd_error (flat_map (fun p => match macros p with Some m => [m] | None => [] end) l).
  (** converters/ast_convertion.rs 110-180 [Action::convert]. *)
  Definition convert_action (x : jaction) : outcome (aoov ditem) :=
    let a := x_action x in
    let prepare t := prepare_term wide csort names operators macros by_position (Any tt) a t (first_global (x_globals x)) in
    andthen (mapR (typed_var wide csort) (a_indices a)) (fun args =>
    andthen (mapR (convert_update a) (x_updates x)) (fun updates =>
    match x_cond_vars x with
    | _ :: _ => OPanic
    | [] =>
        rbind (prepare (x_output x)) (fun message =>
        rbind (prepare (x_cond x)) (fun cond =>
        transposed updates (fun updates =>
        transposed args (fun args =>
        rpure (DStep (action_text wide (a_name a)) args cond message updates)))))
    end)).

  (** converters/ast_convertion.rs 326-353 [ConcreteMacro::convert]. *)
  Definition convert_let (p : path) (args : list jvar) (body : jterm) : outcome (aoov ditem) :=
    andthen (mapR (typed_var wide csort) args) (fun args =>
    transposed args (fun args => rbind (conv body) (fun b => rpure (DLet (op_text wide p) args b)))).

  (** converters/top_level_converter.rs 389-408 [mk_types]. *)
  Definition mk_types : list (outcome (aoov ditem)) :=
    map (fun s => rpure (DType s))
      (flat_map (fun x => if can_be_index (snd x) then [sort_text (fst x)] else []) (shuffle _ p_types) ++ [str "index"]).
  (** converters/top_level_converter.rs 280-303 [mk_cells]; 295: an error in an argument is one of the closure. *)
  Definition mk_cells : list (outcome (aoov ditem)) :=
    flat_map (fun x => match snd x with
                       | DState s vars _ =>
                           [rbind (convert_type csort s) (fun s =>
                            andthen (mapR (fun v => convert_sort csort (j_sort v)) vars) (fun args =>
                            transposed args (fun args => rpure (DCell (macro_text wide (fst x)) args s))))]
                       | _ => []
                       end) (shuffle _ p_macros).
  (** converters/top_level_converter.rs 327-386 [mk_funs_and_names]. *)
  Definition mk_funs : list (outcome (aoov ditem)) :=
    map (fun r => rbind r (fun f => match f with (f, args, out) => rpure (DFun f args out) end))
      (flat_map (fun x => match declare_name wide csort (fst x) (snd x) with Some r => [r] | None => [] end) (shuffle _ p_names) ++
       flat_map (fun x => match declare_operator wide csort (fst x) (op_fun (snd x)) with Some r => [r] | None => [] end) (shuffle _ p_operators)).
  (** converters/top_level_converter.rs 305-325 [mk_macros] and converters/ast_convertion.rs 284-318: the name is taken for one of an
      operator. *)
  Definition mk_macros : list (outcome (aoov ditem)) :=
    flat_map (fun x => match snd x with
                       | DGlobal inputs indices ts body => [convert_let (fst x) (indices ++ macro_inputs (MGlobal inputs) ++ [ts]) body]
                       | _ => []
                       end) (shuffle _ p_macros) ++
    flat_map (fun x => match op_def (snd x) with Concrete args body => [convert_let (fst x) args body] | _ => [] end) (shuffle _ p_operators).
  (** converters/top_level_converter.rs 96-118 [mk_assertions], ../parser/ast/ident.rs 134-152 and ../parser/ast/term.rs 241-285. *)
  Definition projection (f : text) (x : string) : aterm :=
    AQuant QForall [(str "x", str "Message"); (str "y", str "Message")]
      (AInfix Parser_Model.OEq [AApp f [AApp n_pair [AVar (str "x"); AVar (str "y")]]; AVar (str x)]).
  Definition mk_assertions : list (outcome (aoov ditem)) := map (fun t => rpure (DAssert t)) [projection n_fst "x"; projection n_snd "y"].
  (** converters/top_level_converter.rs 236-245 [mk_steps]. *)
  Definition mk_steps : list (outcome (aoov ditem)) := map (fun x => convert_action (snd x)) (shuffle _ p_actions).
  (** converters/top_level_converter.rs 39-46 and converters/convert_order.rs 28-47. *)
  Definition mk_orders : list (outcome (aoov ditem)) :=
    flat_map (fun p => match pair_lemma wide csort fuel (fst p) (snd p) with
                       | OOk None => []
                       | OOk (Some o) => [rpure (DOrder o)]
                       | OErr => [OErr] | OPanic => [OPanic] | OFuel => [OFuel]
                       end)
      (combinations (filter (fun a => negb (is_init a)) (map (fun x => x_action (snd x)) (shuffle _ p_actions)))).
  (** converters/top_level_converter.rs 174-213 [assert_euf]. *)
  Definition assert_euf (hash : path) (verify vk : option path) : list ditem :=
    let v := match verify with Some p => op_text wide p | None => str "verify_" ++ op_text wide hash end in
    DCrypto (str "euf-cma") ([op_text wide hash; v] ++ match vk with Some p => [op_text wide p] | None => [] end)
      (match verify with Some _ => [] | None => [str "hmac"] end) ::
    match verify with Some _ => [] | None => [DFun v (repeat (str "Message") 3) (str "Bool")] end.
  (** converters/top_level_converter.rs 215-234 [assert_int_ctxt]. *)
  Definition assert_int_ctxt (senc sdec : path) : ditem :=
    DCrypto (str "int_ctxt") [op_text wide senc; op_text wide sdec; sanitize wide KFunction (str "fail")] [].
  (** converters/top_level_converter.rs 126-172 [assert_crypto]; a missing associated function panics. *)
  Definition assert_operator (p : path) (def : jdef) : list (outcome ditem) :=
    match def with
    | Concrete _ _ => []
    | Abstract AHash _ => map OOk (assert_euf p None None)
    | Abstract ASEnc associated => match associated with sdec :: _ => [OOk (assert_int_ctxt p sdec)] | [] => [OPanic] end
    | Abstract ACheckSign associated =>
        match associated with sign :: l => map OOk (assert_euf sign (Some p) (hd_error l)) | [] => [OPanic] end
    | Abstract AOther _ => []
    end.
  Definition assert_crypto : list (outcome (aoov ditem)) :=
    map (fun s => rpure (DCrypto (str s) [] [])) ["nonce"; "memory_cell"; "unfolding"]%string ++
    map (fun o => andthen o rpure) (flat_map (fun x => assert_operator (fst x) (op_def (snd x))) (shuffle _ p_operators)).
  (** converters/top_level_converter.rs 249-278 and 48-54. *)
  Definition query_item : outcome (aoov ditem) :=
    rbind (mk_query wide csort names operators macros (d_variables d) (d_hypotheses d) (d_query d)) (fun t => rpure (DQuery t)).

  (** converters/top_level_converter.rs 13-93 [convert_squirrel_dump]. *)
  Definition convert_dump : outcome (aoov (list ditem)) :=
    andthen (mapR (fun x => x)
      (mk_types ++ mk_cells ++ mk_funs ++ mk_macros ++ mk_assertions ++ mk_steps ++ mk_orders ++ assert_crypto ++ [query_item]))
      (fun all => transposed all rpure).
End Dump.
