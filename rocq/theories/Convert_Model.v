(** The conversion of Squirrel terms. Paths are relative to /repo/crates/cryptovampire/src/squirrel unless said otherwise.
    Source positions ([span]) and the messages of errors are left out. *)
From Coq Require Import List Arith Bool String Ascii.
From Verif Require Import Syntax_Model Parser_Infix_Model Smt_Model Squirrel_Model Utils_Model.
Import ListNotations.
Local Open Scope list_scope.

(** json/sort.rs [Type]: tuples and the others, which are numbers; [csort] below converts those. *)
Inductive jtype : Type := TTuple (l : list jtype) | TPlain (s : nat).

(** json/term.rs 8-13 [Quant]. *)
Inductive jquant : Type := JForAll | JExists | JSeq | JLambda.

(** json/term.rs 16-71 [Term] and 73-79 [Diff]. *)
Inductive jterm : Type :=
| JApp (f : jterm) (args : list jterm)
| JFun (p : path)
| JName (p : path) (args : list jterm)
| JMacro (p : path) (args : list jterm) (ts : jterm)
| JAction (p : path) (args : list jterm)
| JVar (v : jvar)
| JLet (x d b : jterm)
| JTuple (l : list jterm)
| JProj (id : nat) (b : jterm)
| JDiff (l : list (text * jterm))
| JFind (vars : list jterm) (c s f : jterm)
| JQuant (q : jquant) (vars : list jterm) (b : jterm).

(** ../parser/ast/term.rs [Term] and below, what the conversion builds: applications, infix applications (infix.rs 9-13),
    conditionals, applications of macros, [find], quantifiers, [let]. [AVar]: [ConstVar], application.rs 6-18. *)
Inductive aterm : Type :=
| AVar (x : text)
| AApp (f : text) (args : list aterm)
| AInfix (o : Parser_Model.operation) (args : list aterm)
| AIte (c l r : aterm)
| AMacro (f : text) (args : list aterm)
| AFind (vars : list (text * text)) (c l r : aterm)
| AQuant (q : quant) (vars : list (text * text)) (b : aterm)
| ALet (x : text * text) (d b : aterm).

(** [?] on results. *)
Definition andthen {A B} (x : outcome A) (f : A -> outcome B) : outcome B :=
  match x with OOk a => f a | OErr => OErr | OPanic => OPanic | OFuel => OFuel end.
(** [.map(f).try_collect()]: the first failure stops. *)
Definition mapR {A B} (f : A -> outcome B) : list A -> outcome (list B) :=
  fix go l := match l with [] => OOk [] | a :: l' => andthen (f a) (fun b => andthen (go l') (fun bs => OOk (b :: bs))) end.
(** A panic of the functions of Utils_Model. *)
Definition lift {A} (x : option A) : outcome A := match x with Some a => OOk a | None => OPanic end.

(** crates/utils/src/all_or_one.rs 284-316: the monad of results. *)
Definition rpure {U} (x : U) : outcome (aoov U) := OOk (Any x).
Definition rbind {U V} (x : outcome (aoov U)) (f : U -> outcome (aoov V)) : outcome (aoov V) :=
  andthen x (fun s =>
    match s with
    | All l => andthen (mapR (fun p => andthen (f (snd p)) (fun y => lift (owned_get y (fst p)))) (combine (seq 0 (List.length l)) l))
                       (fun l' => OOk (All l'))
    | Any e => andthen (f e) (fun r => match r with One _ _ => OPanic | _ => OOk r end)
    | One i e => andthen (f e) (fun y => andthen (lift (owned_get y i)) (fun z => OOk (One i z)))
    end).
(** all_or_one.rs 66-72 [to_aoov]. *)
Definition to_aoov (sh : Utils_Model.shape) : aoov unit :=
  match sh with All n => All (repeat tt n) | Any _ => Any tt | One i _ => One i tt end.

(** The order of strings: lexicographic on bytes. *)
Fixpoint text_leb (a b : text) : bool :=
  match a, b with
  | [], _ => true
  | _ :: _, [] => false
  | x :: a', y :: b' => Nat.ltb (byte x) (byte y) || (Nat.eqb (byte x) (byte y) && text_leb a' b')
  end.
(** [sorted_unstable_by_key]; this one is stable. *)
Fixpoint insert_key {A} (x : text * A) (l : list (text * A)) : list (text * A) :=
  match l with [] => [x] | y :: l' => if text_leb (fst x) (fst y) then x :: l else y :: insert_key x l' end.
Fixpoint sort_keys {A} (l : list (text * A)) : list (text * A) :=
  match l with [] => [] | x :: l' => insert_key x (sort_keys l') end.

(** converters/mod.rs 75-90 and ../formula/function/builtin.rs. *)
Definition n_pair : text := str "pair".
Definition n_fst : text := str "fst".
Definition n_snd : text := str "snd".
Definition n_empty : text := str "empty".

(** json/mmacro.rs [Data]: the macros of the protocol, the structured ones, the states, and the global ones with their input
    variables (lines 95-99: without the dummies). *)
Inductive jmacro : Type := MProtocol | MStructured | MState | MGlobal (inputs : list jvar).
Definition is_dummy (v : jvar) : bool := text_eqb (j_name v) dummy.
Definition macro_inputs (m : jmacro) : list jvar :=
  match m with MGlobal l => filter (fun v => negb (is_dummy v)) l | _ => [] end.

(** json/mod.rs [FunctionType] and json/operator.rs [Data]: polymorphic or not, types of the arguments and of the result, defined
    in Squirrel or not. *)
Record jfun : Type := mkJFun { f_poly : bool; f_args : list jtype; f_out : jtype; f_concrete : bool }.

(** converters/mod.rs 72-86. *)
Definition FORBIDDEN_FUNCTIONS : list text := map str ["diff"; ">"; ">="; "qatt"].
Definition BUILTIN_FUNCTION : list text :=
  map str ["&&"; "||"; "and"; "or"; "<=>"; "=>"; "="; "<="; "<"; "not"; "true"; "false"; "empty"] ++ [o_slash] ++
  map str ["happens"; "pred"; "if"].

Section Convert.
  Context (wide : text -> bool) (csort : nat -> option text)
    (names operators : path -> option jfun) (macros : path -> option jmacro).

  (** converters/ast_convertion.rs 80-105. *)
  Definition convert_type (t : jtype) : outcome (aoov text) :=
    match t with TTuple _ => rpure (str "Message") | TPlain s => match csort s with Some n => rpure n | None => OErr end end.
  Definition convert_sort (s : nat) : outcome (aoov text) := convert_type (TPlain s).

  Definition op_text (p : path) : text := sanitize wide KFunction (path_text p).
  Definition name_text (p : path) : text := sanitize wide KName (path_text p).
  Definition macro_text (p : path) : text := sanitize wide KMacro (path_text p).
  Definition action_text (p : path) : text := sanitize wide KStep (path_text p).
  Definition variable (v : jvar) : aterm := AVar (var_text wide v).

  (** [let! args = Ok(AoOV::transpose_iter(args)); pure f args]. *)
  Definition transposed {U V} (args : list (aoov U)) (f : list U -> outcome (aoov V)) : outcome (aoov V) :=
    rbind (lift (transpose_iter args)) f.
  (** converters/helper_functions.rs 30-35. *)
  Definition applied (f : text) (args : list (aoov aterm)) : outcome (aoov aterm) := transposed args (fun l => rpure (AApp f l)).

  (** converters/helper_functions.rs 39-72 [to_variable_binding]. *)
  Definition typed_var (v : jvar) : outcome (aoov (text * text)) :=
    rbind (convert_sort (j_sort v)) (fun s => rpure (var_text wide v, s)).
  Definition binding (vars : list jterm) : outcome (aoov (list (text * text))) :=
    rbind (andthen (mapR (fun t => match t with JVar v => typed_var v | _ => OErr end) vars) (fun l => lift (transpose_iter l)))
          rpure.

  (** converters/helper_functions/convertion_functions.rs 95-104 and 113-123. *)
  Definition special (f : text) (args : list aterm) : outcome (aoov aterm) :=
    if text_eqb f (str "if") then match args with [c; l; r] => rpure (AIte c l r) | _ => OErr end
    else match get_operation (string_of_list_ascii f) with
         | Some o => rpure (AInfix o args)
         | None => rpure (AApp f args)
         end.
  (** convertion_functions.rs 75-83: the only argument has a tuple type. *)
  Definition takes_tuple (f : option jfun) : bool := match option_map f_args f with Some [TTuple _] => true | _ => false end.

  (** converters/ast_convertion.rs 38-77 and convertion_functions.rs. The error of a head that is not a function is that of lines
      41-57. The alternatives of a [diff] (208-226) are converted before they are sorted, which changes nothing: the shape they
      are converted with is known, and what is not needed is dropped. [id] is a [u8]. *)
  Fixpoint convert (sh : Utils_Model.shape) (t : jterm) {struct t} : outcome (aoov aterm) :=
    match t with
    | JFun p => match option_map f_args (operators p) with Some [] => rpure (AApp (op_text p) []) | _ => OErr end
    | JLet _ _ _ => OErr
    | JVar v => rpure (variable v)
    | JTuple l =>
        (fix fold (acc : aoov aterm) (l : list jterm) :=
           match l with
           | [] => OOk acc
           | t :: l' => andthen (convert sh t) (fun x => andthen (applied n_pair [x; acc]) (fun acc' => fold acc' l'))
           end) (Any (AApp n_empty [])) l
    | JQuant q vars b =>
        let go q := rbind (convert sh b) (fun b' => rbind (binding vars) (fun vs => rpure (AQuant q vs b'))) in
        match q with JForAll => go QForall | JExists => go QExists | JSeq | JLambda => OErr end
    | JFind vars c s f =>
        rbind (convert sh c) (fun c' =>
        rbind (convert sh s) (fun s' =>
        rbind (convert sh f) (fun f' =>
        rbind (binding vars) (fun vs => rpure (AFind vs c' s' f')))))
    | JProj id b =>
        rbind (Nat.iter (id - 1) (fun acc => rbind acc (fun b => rpure (AApp n_snd [b]))) (convert sh b))
              (fun u => rpure (AApp n_fst [u]))
    | JDiff l =>
        let sh' := match sh with Any _ => All (List.length l) | _ => sh end in
        let rs := map snd (sort_keys (map (fun d => match d with (k, t) => (k, convert sh' t) end) l)) in
        rbind (lift (abind (to_aoov sh) (fun _ => Some (All rs)))) (fun r => r)
    | JApp (JFun p) args =>
        andthen (match args with
                 | JTuple es :: _ => if takes_tuple (operators p) then mapR (convert sh) es else mapR (convert sh) args
                 | _ => mapR (convert sh) args
                 end) (fun l => transposed l (special (op_text p)))
    | JApp _ _ => OErr
    | JName p args =>
        andthen (match args with
                 | JTuple es :: _ => if takes_tuple (names p) then mapR (convert sh) es else mapR (convert sh) args
                 | _ => mapR (convert sh) args
                 end) (fun l => transposed l (special (name_text p)))
    | JMacro p args ts =>
        match macros p with
        | None => OErr
        | Some MProtocol => andthen (convert sh ts) (fun x => applied (macro_text p) [x])
        | Some MStructured | Some MState =>
            andthen (mapR (convert sh) args) (fun l => andthen (convert sh ts) (fun x => applied (macro_text p) (l ++ [x])))
        | Some m =>
            andthen (mapR (convert sh) args) (fun l => andthen (convert sh ts) (fun x =>
              transposed (l ++ map (fun v => Any (variable v)) (macro_inputs m) ++ [x]) (fun l => rpure (AMacro (macro_text p) l))))
        end
    | JAction p args => andthen (mapR (convert sh) args) (applied (action_text p))
    end.

  (** json/term.rs 88-98 [mk_app]. *)
  Definition mk_app (s : string) (args : list jterm) : jterm := JApp (JFun (mkPath [] (str s))) args.
  (** converters/top_level_converter.rs 249-278 [mk_query]. *)
  Definition query_term (variables : list jvar) (hypotheses : list jterm) (query : jterm) : jterm :=
    JQuant JForAll (map JVar variables)
      (mk_app "=>" [fold_left (fun acc t => mk_app "&&" [acc; t]) hypotheses (mk_app "true" []); query]).
  Definition mk_query (variables : list jvar) (hypotheses : list jterm) (query : jterm) : outcome (aoov aterm) :=
    convert (Any tt) (query_term variables hypotheses query).

  (** converters/top_level_converter.rs 327-386 [mk_funs_and_names], for one symbol; [None]: not declared. The result: symbol,
      sorts of the arguments, sort. *)
  Definition declare (f : text) (args : list jtype) (out : outcome (aoov text)) : outcome (aoov (text * list text * text)) :=
    rbind out (fun s =>
      andthen (mapR convert_type (match last args (TPlain 0) with TTuple es => es | _ => args end))
              (fun l => transposed l (fun l => rpure (f, l, s)))).
  Definition declare_name (p : path) (f : jfun) : option (outcome (aoov (text * list text * text))) :=
    if f_poly f then None else Some (declare (name_text p) (f_args f) (rpure (str "Name"))).
  Definition declare_operator (p : path) (f : jfun) : option (outcome (aoov (text * list text * text))) :=
    if existsb (text_eqb (path_text p)) (FORBIDDEN_FUNCTIONS ++ BUILTIN_FUNCTION) || f_concrete f || f_poly f then None
    else Some (declare (op_text p) (f_args f) (convert_type (f_out f))).

  (** ** Inputs of steps *)

  (** json/squirrel_dump.rs 134-139: the action with a given position in the protocol. *)
  Context (by_position : list (item (list jvar)) -> option action).

  (** json/action.rs 81-102 [as_term]. *)
  Definition as_term (a : action) : jterm :=
    JAction (a_name a) (map JVar (flat_map (fun i => snd (i_par i) ++ snd (i_sum i)) (a_action a))).

  (** converters/ast_convertion.rs 182-230 [prepare_term]: [let]s for the input variables of the first global macro of the step.
      A slice beyond the end panics. *)
  Definition bind_input (sh : Utils_Model.shape) (a : action) (i : nat) (v : jvar) (acc : aoov aterm) : outcome (aoov aterm) :=
    if Nat.ltb (List.length (a_action a)) i then OPanic
    else match by_position (firstn i (a_action a)) with
         | None => OErr
         | Some b =>
             rbind (OOk acc) (fun t =>
             rbind (convert sh (JMacro (mkPath [] (str "input")) [] (as_term b))) (fun d =>
             rbind (convert_sort (j_sort v)) (fun s => rpure (ALet (var_text wide v, s) d t))))
         end.
  Fixpoint bind_inputs (sh : Utils_Model.shape) (a : action) (i : nat) (vs : list jvar) (acc : aoov aterm) : outcome (aoov aterm) :=
    match vs with
    | [] => OOk acc
    | v :: vs' => andthen (bind_input sh a i v acc) (bind_inputs sh a (S i) vs')
    end.
  Definition prepare_term (sh : Utils_Model.shape) (a : action) (t : jterm) (g : option jmacro) : outcome (aoov aterm) :=
    rbind (convert sh t) (fun t' => bind_inputs sh a 0 (rev (match g with Some m => macro_inputs m | None => [] end)) (Any t')).
End Convert.
