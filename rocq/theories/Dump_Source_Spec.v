(** Squirrel files whose conversion can be read. *)
From Coq Require Import List Arith Bool String Ascii.
From Verif Require Import Syntax_Model Sort_Model Parser_Model Source_Model Source_Spec Smt_Model Squirrel_Model Utils_Model Convert_Model Squirrel_Spec
  Dump_Model Dump_Spec.
Import ListNotations.
Local Open Scope list_scope.

(** A symbol without fixed translation. *)
Definition ordinary (p : path) : Prop := legal_path p /\ ~ In (path_text p) special.
(** An operator that is declared as a function. *)
Definition as_function (p : path) (o : joperator) : Prop :=
  (exists a l, op_def o = Abstract a l) /\ op_poly o = false /\ ~ In (path_text p) undeclared.
Definition as_let (o : joperator) : Prop := exists vs b, op_def o = Concrete vs b.
Definition is_index (table : nat -> jsort) (d : dump) (t : jtype) : Prop :=
  exists n, t = TPlain n /\ (table n = TIndex \/ exists p k, table n = TBase p /\ last_entry (d_types d) p k /\ indexable k).

(** Symbols have no fixed translation, except for the projections and [fail]; the types that are used are listed; no operator gives an
    index; no cell has the name of a function, no global macro that of a defined operator; [init] has no indices. *)
Record declarable (table : nat -> jsort) (d : dump) : Prop := mkDeclarable {
  dc_types : forall p k, last_entry (d_types d) p k -> indexable k -> ordinary p;
  dc_known : forall n p, table n = TBase p -> exists k, last_entry (d_types d) p k;
  dc_names : forall p f, last_entry (d_names d) p f -> f_poly f = false -> ordinary p;
  dc_cells : forall p s vs t, last_entry (d_macros d) p (DState s vs t) -> ordinary p /\ forall o, last_entry (d_operators d) p o -> ~ as_function p o;
  dc_functions : forall p o, last_entry (d_operators d) p o -> as_function p o ->
    legal_path p /\ (~ In (path_text p) special \/ In (path_text p) (map str ["pair"; "fst"; "snd"; "fail"]%string)) /\ ~ is_index table d (op_out o);
  dc_hashes : forall p o l, last_entry (d_operators d) p o -> op_def o = Abstract AHash l -> ordinary p;
  dc_globals : forall p ins ix ts b, last_entry (d_macros d) p (DGlobal ins ix ts b) -> ordinary p /\ forall o, last_entry (d_operators d) p o -> ~ as_let o;
  dc_lets : forall p o, last_entry (d_operators d) p o -> as_let o -> ordinary p;
  dc_actions : forall x, last_entry (map (fun x => (a_name (x_action x), x)) (d_actions d)) (a_name (x_action x)) x ->
    legal_path (a_name (x_action x)) /\ (~ In (path_text (a_name (x_action x))) special \/ path_text (a_name (x_action x)) = str "init" /\ a_indices (x_action x) = [])
}.

(** Names are numbered one by one, and the file is read with the names of CryptoVampire. *)
Record coded (code : text -> name) (bs : list (name * sort)) (bf : list (name * fcache)) (kw : list name) : Prop := mkCoded {
  co_inj : forall a b, code a = code b -> a = b;
  co_init : code (str "init") = 6;
  co_sorts : bs = map (fun e => (code (str (fst e)), snd e))
    [("Bool", SBool); ("Condition", SCondition); ("Message", SMessage); ("Bitstring", SBitstring); ("Step", SStep); ("Name", SName)]%string;
  co_functions : NoDup (map fst bf) /\ forall x, In x (map fst bf) -> exists s, x = code (str s) /\
    In s ["and"; "ta$and"; "empty"; "="; "ta$="; "false"; "ta$false"; "true"; "ta$true"; "happens"; "ite"; "ta$ite"; "ta$iff"; "=>"; "ta$implies";
          "input"; "lt"; "gt"; "leq"; "cast$Message$name"; "not"; "ta$not"; "or"; "ta$or"; "pred"; "cond"; "msg"; "exec"]%string;
  co_keywords : forall x, In x kw -> exists s, x = code (str s) /\
    In s ["and"; "or"; "not"; "ite"; "assert"; "assert-not"; "assert-theory"; "rewrite"; "subterm"; "True"; "False"; "true"; "false"; "implies";
          "forall"; "exists"; "match"; "declare-datatype"; "declare-fun"; "declare-sort"; "define-fun"; "define-fun-rec"; "define-sort";
          "Int"; "Real"; "Array"]%string
}.

(** The symbols of a Squirrel file that are declared to CryptoVampire. *)
Inductive declares (d : dump) : skd -> path -> Prop :=
| ds_name p f : last_entry (d_names d) p f -> f_poly f = false -> declares d KName p
| ds_function p o : last_entry (d_operators d) p o -> as_function p o -> declares d KFunction p
| ds_cell p s vs t : last_entry (d_macros d) p (DState s vs t) -> declares d KMacro p
| ds_step p x : last_entry (map (fun x => (a_name (x_action x), x)) (d_actions d)) p x -> declares d KStep p.

(** The sort of a type: large types are messages, the others index sorts. *)
Inductive sort_read (code : text -> name) (wide : text -> bool) (table : nat -> jsort) (d : dump) (srt : name -> option sort) : jtype -> sort -> Prop :=
| sr_tuple l : sort_read code wide table d srt (TTuple l) SMessage
| sr_message n : table n = TMessage \/ table n = TTup -> sort_read code wide table d srt (TPlain n) SMessage
| sr_boolean n : table n = TBoolean -> sort_read code wide table d srt (TPlain n) SBool
| sr_timestamp n : table n = TTimestamp -> sort_read code wide table d srt (TPlain n) SStep
| sr_named n : table n = TName -> sort_read code wide table d srt (TPlain n) SName
| sr_index n j : table n = TIndex -> srt (code (str "index")) = Some (SIndex j) -> sort_read code wide table d srt (TPlain n) (SIndex j)
| sr_large n p k : table n = TBase p -> last_entry (d_types d) p k -> ~ indexable k -> sort_read code wide table d srt (TPlain n) SMessage
| sr_finite n p j : table n = TBase p -> (forall k, last_entry (d_types d) p k -> indexable k) -> srt (code (sanitize wide KSort (path_text p))) = Some (SIndex j) ->
    sort_read code wide table d srt (TPlain n) (SIndex j).
