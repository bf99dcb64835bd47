(** Spellings of the infix operators: parser/ast/infix.rs. Paths are relative to /repo/crates/cryptovampire/src. *)
From Coq Require Import List String Bool.
From Verif Require Import Syntax_Model Parser_Model.
Import ListNotations.
Open Scope string_scope.

(** infix.rs 54-62 [OPERATION_LIST]. *)
Definition OPERATION_LIST : list operation := [OHardEq; OEq; ONeq; OOr; OAnd; OImplies; OIff].

(** infix.rs 88-98 [as_str]. *)
Definition as_str (o : operation) : string :=
  match o with
  | OHardEq => "==="
  | OEq => "=="
  | ONeq => "!="
  | OOr => "||"
  | OAnd => "&&"
  | OImplies => "=>"
  | OIff => "<=>"
  end.

(** infix.rs 102-112 [as_str_alias]. *)
Definition as_str_alias (o : operation) : list string :=
  match o with
  | OHardEq => ["==="; "meq"]
  | OEq => ["="; "=="; "eq"]
  | ONeq => ["!="; "neq"; "<>"]
  | OOr => ["||"; "or"; "ors"]
  | OAnd => ["&&"; "and"; "ands"]
  | OImplies => ["=>"; "implies"; "==>"]
  | OIff => ["<=>"; "iff"]
  end.

(** infix.rs 81-86 [get_operation]. *)
Definition get_operation (s : string) : option operation :=
  find (fun o => existsb (String.eqb s) (as_str_alias o)) OPERATION_LIST.

(** infix.rs 17-34 [Infix::try_from]: the operators between the operands must all be the first one. *)
Definition infix_operation (ops : list operation) : option operation :=
  match ops with
  | [] => None
  | o :: l => if forallb (fun p => match o, p with
                                   | OHardEq, OHardEq | OEq, OEq | ONeq, ONeq | OOr, OOr | OAnd, OAnd
                                   | OImplies, OImplies | OIff, OIff => true
                                   | _, _ => false
                                   end) l
              then Some o else None
  end.
