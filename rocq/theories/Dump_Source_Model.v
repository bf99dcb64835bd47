(** The converted file as the list of items that is read: both are the [AST] of ../parser/ast, with texts for names in [Dump_Model] and
    numbers in [Source_Model]. Paths are relative to /repo/crates/cryptovampire/src. *)
From Coq Require Import List Arith Bool String Ascii.
From Verif Require Import Syntax_Model Sort_Model Parser_Model Source_Model Smt_Model Squirrel_Model Utils_Model Convert_Model Dump_Model.
Import ListNotations.
Local Open Scope list_scope.

Section Items.
  (** [code]: the number of a name. *)
  Context (code : text -> name).
  Definition code_pair (x : text * text) : name * name := (code (fst x), code (snd x)).

  (** parser/ast/term.rs. *)
  Fixpoint to_term (a : aterm) : term :=
    match a with
    | AVar x => TVar (code x)
    | AApp f args => TApp (code f) (map to_term args)
    | AInfix o args => TInfix o (map to_term args)
    | AIte c l r => TIf (to_term c) (to_term l) (to_term r)
    | AMacro f args => TMac (code f) (map to_term args)
    | AFind vars c l r => TFind (map code_pair vars) (to_term c) (to_term l) (to_term r)
    | AQuant q vars b => TQuant q (map code_pair vars) (to_term b)
    | ALet x d b => TLet (code (fst x)) (code (snd x)) (to_term d) (to_term b)
    end.
  (** parser/ast/cell.rs 80-96. *)
  Definition to_asg (g : assignment) : assign_ast :=
    mkAsgAst (option_map (map code_pair) (g_fresh g)) (code (g_cell g)) (map to_term (g_args g)) (to_term (g_term g)).
  (** squirrel/converters/convert_order.rs 115-136, 185-200. *)
  Definition to_step (t : text * list text) : term := TApp (code (fst t)) (map (fun x => TVar (code x)) (snd t)).
  Definition to_order (o : Squirrel_Model.order) : Parser_Model.order :=
    Parser_Model.mkOrder QForall (map code_pair (o_args o)) None (match o_kind o with OLt => OpLt | OIncompatible => OpIncompatible end)
      (to_step (o_t1 o)) (to_step (o_t2 o)).
  (** parser/ast/mod.rs, parser/ast/assertions.rs. *)
  Definition to_item (i : ditem) : Source_Model.item :=
    match i with
    | DType s => IType (code s)
    | DFun f args out => IFun (code f) (map code args) (code out)
    | DCell f args out => ICell (code f) (map code args) (code out)
    | DLet f args body => ILet (code f) (map code_pair args) (to_term body)
    | DAssert t => IAssert (to_term t)
    | DStep n args c m us => IStep (mkStepAst (code n) (map code_pair args) (to_term c) (to_term m) (map to_asg us))
    | DOrder o => IOrder (to_order o)
    | DCrypto n fs os => ICrypto (mkCryptoAst (code n) (map code fs) (map code os))
    | DQuery t => IQuery (to_term t)
    end.
End Items.

(** parser/mod.rs 25-52. *)
Definition used_keywords : list text :=
  map str ["and"; "or"; "not"; "ite"; "assert"; "assert-not"; "assert-theory"; "rewrite"; "subterm"; "True"; "False"; "true"; "false"; "implies";
           "forall"; "exists"; "match"; "declare-datatype"; "declare-fun"; "declare-sort"; "define-fun"; "define-fun-rec"; "define-sort";
           "Int"; "Real"; "Array"]%string.
(** formula/function/builtin.rs 240-270: the names. *)
Definition builtin_functions : list text :=
  map str ["and"; "ta$and"; "empty"; "="; "ta$="; "false"; "ta$false"; "true"; "ta$true"; "happens"; "ite"; "ta$ite"; "ta$iff"; "=>"; "ta$implies";
           "input"; "lt"; "gt"; "leq"; "cast$Message$name"; "not"; "ta$not"; "or"; "ta$or"; "pred"; "cond"; "msg"; "exec"]%string.
(** formula/sort/builtins.rs 25-27. *)
Definition builtin_sorts : list (text * sort) :=
  [(str "Bool", SBool); (str "Condition", SCondition); (str "Message", SMessage); (str "Bitstring", SBitstring); (str "Step", SStep); (str "Name", SName)].
