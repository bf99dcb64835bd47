(** The SMT output: smt/smt.rs, smt/smt/display.rs, and the reserved words of parser/mod.rs. *)
From Coq Require Import List Arith Bool String Ascii DecimalString.
From Verif Require Import Syntax_Model Search_Model.
Import ListNotations.

(** ** Formulas *)

(** smt.rs 37-66 [SmtFormula]. *)
Inductive smt : Type :=
| SmVar (v : var)
| SmFun (f : fsym) (args : list smt)
| SmForall (vs : list var) (b : smt)
| SmExists (vs : list var) (b : smt)
| SmTrue
| SmFalse
| SmAnd (l : list smt)
| SmOr (l : list smt)
| SmEq (l : list smt)
| SmNeq (l : list smt)
| SmNot (a : smt)
| SmImplies (a b : smt)
| SmSubterm (f : fsym) (a b : smt)
| SmIte (c l r : smt).

(** smt.rs 124-137: two or three arguments, or a panic. *)
Definition unpack2 (k : smt -> smt -> smt) (l : list smt) : option smt := match l with [a; b] => Some (k a b) | _ => None end.
Definition unpack3 (k : smt -> smt -> smt -> smt) (l : list smt) : option smt := match l with [a; b; c] => Some (k a b c) | _ => None end.
(** [args.pop().unwrap()]. *)
Definition pop (l : list smt) : option smt := match rev l with a :: _ => Some a | [] => None end.

(** smt.rs 156-207, the arguments being translated; [kind i]: the kind of the subterm relation [i]. *)
Definition smt_app (kind : nat -> skind) (f : fsym) (args : list smt) : option smt :=
  match f with
  | Fsubterm i => match kind i with KRegular _ => Some (SmFun f args) | KVampire _ => unpack2 (SmSubterm f) args end
  | Fite => unpack3 SmIte args
  | Fb CEq => Some (SmEq args)
  | Fb CTrue => Some SmTrue
  | Fb CFalse => Some SmFalse
  | Fb CAnd => Some (SmAnd args)
  | Fb COr => Some (SmOr args)
  | Fb CNot => option_map SmNot (pop args)
  | Fb CImplies => unpack2 SmImplies args
  | _ => Some (SmFun f args)
  end.
(** smt.rs 140-208 [from_arichformula]; [None]: a panic. *)
Section Translate.
  Context (kind : nat -> skind).
  Fixpoint smt_of (f : formula) : option smt :=
    match f with
    | FVar v => Some (SmVar v)
    | FQ QExists vs b => option_map (SmExists vs) (smt_of b)
    | FQ QForall vs b => option_map (SmForall vs) (smt_of b)
    | FFun s args =>
        match (fix go (l : list formula) : option (list smt) :=
                 match l with
                 | [] => Some []
                 | a :: l' => match smt_of a, go l' with Some x, Some xs => Some (x :: xs) | _, _ => None end
                 end) args with
        | Some xs => smt_app kind s xs
        | None => None
        end
    end.
End Translate.

(** ** Text *)
Definition text : Type := list ascii.
Definition str (s : string) : text := list_ascii_of_string s.
(** Decimal printing of a number. *)
Definition dec (n : nat) : text := str (NilEmpty.string_of_uint (Nat.to_uint n)).

Section Print.
  (** [fname]: [Function::name]; [sname]: [Sort::name]; [evaluated]: the realm. *)
  Context (fname : fsym -> text) (sname : sort -> text) (evaluated : bool).

  (** function.rs 458-460 [is_no_op]. *)
  Definition is_no_op (f : fsym) : bool := evaluated && match f with Feval _ => true | _ => false end.
  (** variable.rs 24-28, sort/mod.rs 263-265 [short_name], which panics on an empty name. *)
  Definition var_text (v : var) : option text :=
    match sname (vsort v) with c :: _ => Some (c :: str "X" ++ dec (vid v)) | [] => None end.
  (** display.rs 136-138, 143-145. *)
  Fixpoint binders (vs : list var) : option text :=
    match vs with
    | [] => Some []
    | v :: vs' => match var_text v, binders vs' with Some x, Some r => Some (str "(" ++ x ++ str " " ++ sname (vsort v) ++ str ") " ++ r) | _, _ => None end
    end.
  (** A list of texts, each followed by a space: smt.rs 112-121 and display.rs 123-125. *)
  Definition spaced (l : list text) : text := List.concat (map (fun t => t ++ str " ") l).
  (** smt.rs 112-121 [fun_list_fmt]. *)
  Definition fun_list (name : string) (l : list text) : text := str "(" ++ str name ++ str " " ++ spaced l ++ str ")".

  (** display.rs 112-186. *)
  Fixpoint print (s : smt) : option text :=
    let prints := fix prints (l : list smt) : option (list text) :=
      match l with
      | [] => Some []
      | a :: l' => match print a, prints l' with Some x, Some xs => Some (x :: xs) | _, _ => None end
      end in
    match s with
    | SmVar v => var_text v
    | SmFun f args =>
        if is_no_op f then match args with [a] => print a | _ => None end
        else match args with
             | [] => Some (fname f ++ str " ")
             | _ => option_map (fun l => str "(" ++ fname f ++ str " " ++ spaced l ++ str ")") (prints args)
             end
    | SmForall [] b | SmExists [] b => print b
    | SmForall vs b => match binders vs, print b with Some x, Some y => Some (str "(forall (" ++ x ++ str ") " ++ y ++ str ")") | _, _ => None end
    | SmExists vs b => match binders vs, print b with Some x, Some y => Some (str "(exists (" ++ x ++ str ") " ++ y ++ str ")") | _, _ => None end
    | SmTrue => Some (str "true")
    | SmFalse => Some (str "false")
    | SmAnd [] => Some (str "true")
    | SmAnd l => option_map (fun_list "and") (prints l)
    | SmOr [] => Some (str "false")
    | SmOr l => option_map (fun_list "or") (prints l)
    | SmEq [] | SmEq [_] | SmNeq [] | SmNeq [_] => Some (str "true")
    | SmEq l => option_map (fun_list "=") (prints l)
    | SmNeq l => option_map (fun_list "distinct") (prints l)
    | SmIte c l r =>
        match print c, print l, print r with
        | Some x, Some y, Some z => Some (str "(ite " ++ x ++ str " " ++ y ++ str " " ++ z ++ str ")")
        | _, _, _ => None
        end
    | SmImplies a b => match print a, print b with Some x, Some y => Some (str "(=> " ++ x ++ str " " ++ y ++ str ")") | _, _ => None end
    | SmSubterm f a b =>
        match print a, print b with
        | Some x, Some y => Some (str "(subterm " ++ fname f ++ str " " ++ x ++ str " " ++ y ++ str ")")
        | _, _ => None
        end
    | SmNot a => option_map (fun x => str "(not " ++ x ++ str ")") (print a)
    end.
End Print.

(** parser/mod.rs 25-53 [USED_KEYWORDS]: names a user cannot declare. *)
Definition USED_KEYWORDS : list string :=
  ["and"; "or"; "not"; "ite"; "assert"; "assert-not"; "assert-theory"; "rewrite"; "subterm"; "True"; "False"; "true"; "false"; "implies";
   "forall"; "exists"; "match"; "declare-datatype"; "declare-fun"; "declare-sort"; "define-fun"; "define-fun-rec"; "define-sort"; "Int";
   "Real"; "Array"]%string.

(** ** Files *)

(** formula/file_descriptior/axioms.rs 5-53; a rewrite rule of kind [Bool] has no function. *)
Inductive axm : Type :=
| XComment
| XBase (f : formula)
| XGround (s : sort) (f : formula)
| XTheory (f : formula)
| XQuery (f : formula)
| XRewrite (fn : option fsym) (vs : list var) (pre post : formula).
(** smt.rs 68-103, the commands that are generated; declarations are kept apart. *)
Inductive command : Type :=
| KComment
| KAssert (s : smt)
| KAssertTh (s : smt)
| KAssertGround (g : sort) (s : smt)
| KAssertNot (s : smt)
| KRewrite (fn : option fsym) (vs : list var) (l r : smt)
| KCheckSat.
(** environement: the options that matter here. *)
Record smt_options : Type := mkOptions { use_assert_theory : bool; use_assert_not : bool; no_rewrite : bool; use_assert_ground : bool }.

Section File.
  Context (kind : nat -> skind) (o : smt_options).
  (** smt.rs 243-306 [from_axiom]. *)
  Definition command_of (a : axm) : option command :=
    match a with
    | XComment => Some KComment
    | XBase f => option_map KAssert (smt_of kind f)
    | XTheory f => option_map (fun s => if use_assert_theory o then KAssertTh s else KAssert s) (smt_of kind f)
    | XQuery f => option_map (fun s => if use_assert_not o then KAssertNot s else KAssert (SmNot s)) (smt_of kind f)
    | XRewrite fn vs pre post =>
        match smt_of kind pre, smt_of kind post with
        | Some l, Some r => Some (if no_rewrite o then KAssert (SmForall vs (SmEq [l; r])) else KRewrite fn vs l r)
        | _, _ => None
        end
    | XGround g f => option_map (fun s => if use_assert_ground o then KAssertGround g s else KAssert s) (smt_of kind f)
    end.
  (** smt.rs 386-401 [from_general_file], after the declarations. *)
  Definition file_of (axs : list axm) : option (list command) :=
    option_map (fun l => l ++ [KCheckSat])
      ((fix go (l : list axm) : option (list command) :=
          match l with
          | [] => Some []
          | a :: l' => match command_of a, go l' with Some x, Some xs => Some (x :: xs) | _, _ => None end
          end) axs).
End File.

(** problem/problem/mod.rs 221-258 [generate]: [generated] are the axioms of the ordering, the evaluation and the cryptographic
    assumptions; [pre] is [propagate_evaluate]. *)
Definition problem_axioms (pre : formula -> formula) (generated : list axm) (assertions : list formula) (query : formula) : list axm :=
  generated ++ [XComment] ++ map (fun a => XBase (pre a)) assertions ++ [XComment; XQuery (pre query)].
