(** Meanings of Squirrel terms and of the terms they are converted to. *)
From Coq Require Import List Arith Bool String Ascii.
From Verif Require Import Syntax_Model Parser_Model Smt_Model Squirrel_Model Convert_Model Convert_Spec.
Import ListNotations.
Local Open Scope list_scope.

(** Assignment; of equal names the last one counts. *)
Fixpoint assign {D} (xs : list text) (ds : list D) (e : text -> D) : text -> D :=
  match xs, ds with
  | x :: xs', d :: ds' => assign xs' ds' (fun y => if list_eq_dec ascii_dec y x then d else e y)
  | _, _ => e
  end.

(** ** Squirrel terms *)

(** Operators, names, macros (arguments, time point), global macros (arguments, inputs, time point), actions, tuples, projections;
    [find]: any function of a condition and of what is taken when it can be satisfied, and of the alternative; quantifiers.
    Sorts are numbers. *)
Record source (D : Type) : Type := mkSource {
  s_fun : path -> list D -> D;
  s_name : path -> list D -> D;
  s_macro : path -> list D -> D -> D;
  s_global : path -> list D -> list D -> D -> D;
  s_action : path -> list D -> D;
  s_tuple : list D -> D;
  s_proj : nat -> D -> D;
  s_find : list nat -> (list D -> D) -> (list D -> D) -> D -> D;
  s_all : list nat -> (list D -> D) -> D;
  s_some : list nat -> (list D -> D) -> D;
  s_other : D }.
Arguments s_fun {D}. Arguments s_name {D}. Arguments s_macro {D}. Arguments s_global {D}. Arguments s_action {D}.
Arguments s_tuple {D}. Arguments s_proj {D}. Arguments s_find {D}. Arguments s_all {D}. Arguments s_some {D}. Arguments s_other {D}.

Definition bound_name (t : jterm) : text := match t with JVar v => j_name v | _ => [] end.
Definition bound_sort (t : jterm) : nat := match t with JVar v => j_sort v | _ => 0 end.

(** The value of a term under the values [e] of the variables. [globals p]: the inputs of the macro [p] if it is a global one. *)
Fixpoint jvalue {D} (globals : path -> option (list text)) (S : source D) (e : text -> D) (t : jterm) {struct t} : D :=
  match t with
  | JApp (JFun p) args => s_fun S p (map (jvalue globals S e) args)
  | JFun p => s_fun S p []
  | JName p args => s_name S p (map (jvalue globals S e) args)
  | JMacro p args ts =>
      match globals p with
      | Some inputs => s_global S p (map (jvalue globals S e) args) (map e inputs) (jvalue globals S e ts)
      | None => s_macro S p (map (jvalue globals S e) args) (jvalue globals S e ts)
      end
  | JAction p args => s_action S p (map (jvalue globals S e) args)
  | JVar v => e (j_name v)
  | JTuple l => s_tuple S (map (jvalue globals S e) l)
  | JProj i b => s_proj S i (jvalue globals S e b)
  | JFind vars c s f =>
      s_find S (map bound_sort vars) (fun ds => jvalue globals S (assign (map bound_name vars) ds e) c)
        (fun ds => jvalue globals S (assign (map bound_name vars) ds e) s) (jvalue globals S e f)
  | JQuant JForAll vars b => s_all S (map bound_sort vars) (fun ds => jvalue globals S (assign (map bound_name vars) ds e) b)
  | JQuant JExists vars b => s_some S (map bound_sort vars) (fun ds => jvalue globals S (assign (map bound_name vars) ds e) b)
  | _ => s_other S
  end.

(** ** Converted terms *)

(** Functions, infix operations, conditionals, macros. Sorts are texts. *)
Record target (D : Type) : Type := mkTarget {
  t_app : text -> list D -> D;
  t_infix : operation -> list D -> D;
  t_ite : D -> D -> D -> D;
  t_macro : text -> list D -> D;
  t_find : list text -> (list D -> D) -> (list D -> D) -> D -> D;
  t_all : list text -> (list D -> D) -> D;
  t_some : list text -> (list D -> D) -> D }.
Arguments t_app {D}. Arguments t_infix {D}. Arguments t_ite {D}. Arguments t_macro {D}. Arguments t_find {D}. Arguments t_all {D}. Arguments t_some {D}.

Fixpoint avalue {D} (T : target D) (e : text -> D) (a : aterm) {struct a} : D :=
  match a with
  | AVar x => e x
  | AApp f args => t_app T f (map (avalue T e) args)
  | AInfix o args => t_infix T o (map (avalue T e) args)
  | AIte c l r => t_ite T (avalue T e c) (avalue T e l) (avalue T e r)
  | AMacro f args => t_macro T f (map (avalue T e) args)
  | AFind vars c l r =>
      t_find T (map snd vars) (fun ds => avalue T (assign (map fst vars) ds e) c) (fun ds => avalue T (assign (map fst vars) ds e) l) (avalue T e r)
  | AQuant QForall vars b => t_all T (map snd vars) (fun ds => avalue T (assign (map fst vars) ds e) b)
  | AQuant QExists vars b => t_some T (map snd vars) (fun ds => avalue T (assign (map fst vars) ds e) b)
  | ALet x d b => avalue T (assign [fst x] [avalue T e d] e) b
  end.

(** ** Agreement *)

(** The spellings of the infix operations. *)
Definition spelling : list (text * operation) :=
  map (fun x => (str (fst x), snd x))
    [("===", OHardEq); ("meq", OHardEq); ("=", OEq); ("==", OEq); ("eq", OEq); ("!=", ONeq); ("neq", ONeq); ("<>", ONeq);
     ("||", OOr); ("or", OOr); ("ors", OOr); ("&&", OAnd); ("and", OAnd); ("ands", OAnd);
     ("=>", OImplies); ("implies", OImplies); ("==>", OImplies); ("<=>", OIff); ("iff", OIff)]%string.

(** [d] is the value of the symbol [f] applied to [ds]. *)
Definition symbol {D} (T : target D) (f : text) (ds : list D) (d : D) : Prop :=
  (f = str "if" -> forall c l r, ds = [c; l; r] -> d = t_ite T c l r) /\
  (forall o, In (f, o) spelling -> d = t_infix T o ds) /\
  (f <> str "if" -> (forall o, ~ In (f, o) spelling) -> d = t_app T f ds).

Section Agreement.
  Context (wide : text -> bool) (csort : nat -> option text) (names operators : path -> option jfun) (macros : path -> option jmacro).

  (** The two readings agree: symbols, up to their names; sorts; tuples are nested pairs, the last component outermost. *)
  Record agree {D} (S : source D) (T : target D) : Prop := mkAgree {
    ag_const p g : operators p = Some g -> f_args g = [] -> s_fun S p [] = t_app T (sanitize wide KFunction (path_text p)) [];
    ag_fun p ds : ~ one_tuple (operators p) -> symbol T (sanitize wide KFunction (path_text p)) ds (s_fun S p ds);
    ag_fun_tuple p ds : one_tuple (operators p) -> symbol T (sanitize wide KFunction (path_text p)) ds (s_fun S p [s_tuple S ds]);
    ag_name p ds : ~ one_tuple (names p) -> symbol T (sanitize wide KName (path_text p)) ds (s_name S p ds);
    ag_name_tuple p ds : one_tuple (names p) -> symbol T (sanitize wide KName (path_text p)) ds (s_name S p [s_tuple S ds]);
    ag_macro p m ds d : macros p = Some m -> (forall l, m <> MGlobal l) -> s_macro S p ds d = t_app T (sanitize wide KMacro (path_text p)) (ds ++ [d]);
    ag_global p l ds is d : macros p = Some (MGlobal l) -> s_global S p ds is d = t_macro T (sanitize wide KMacro (path_text p)) (ds ++ is ++ [d]);
    ag_action p ds : s_action S p ds = t_app T (sanitize wide KStep (path_text p)) ds;
    ag_empty : s_tuple S [] = t_app T (str "empty") [];
    ag_tuple ds d : s_tuple S (ds ++ [d]) = t_app T (str "pair") [d; s_tuple S ds];
    ag_first d : s_proj S 1 d = t_app T (str "fst") [d];
    ag_next i d : 1 <= i -> s_proj S (Datatypes.S i) d = s_proj S i (t_app T (str "snd") [d]);
    ag_find ns ss p q s t d : Forall2 (fun n s => csort n = Some s) ns ss -> (forall ds, p ds = q ds) -> (forall ds, s ds = t ds) ->
      s_find S ns p s d = t_find T ss q t d;
    ag_all ns ss p q : Forall2 (fun n s => csort n = Some s) ns ss -> (forall ds, p ds = q ds) -> s_all S ns p = t_all T ss q;
    ag_some ns ss p q : Forall2 (fun n s => csort n = Some s) ns ss -> (forall ds, p ds = q ds) -> s_some S ns p = t_some T ss q }.

  (** The inputs of the global macros; the dummies are no inputs. *)
  Definition global_inputs (p : path) : option (list text) :=
    match macros p with
    | Some (MGlobal l) => Some (map j_name (filter (fun v => if list_eq_dec ascii_dec (j_name v) (str "$dummy") then false else true) l))
    | _ => None
    end.

  (** The names of the variables of a term. *)
  Definition variable_of (t : jterm) (x : text) : Prop :=
    (exists v, sub (JVar v) t /\ x = j_name v) \/
    (exists p args ts l, sub (JMacro p args ts) t /\ global_inputs p = Some l /\ In x l).

  (** Functions taking a tuple are applied to a tuple, projections start at 1, the protocol macros have no arguments, and the
      names of the variables of the term stay apart. *)
  Record proper_term (t : jterm) : Prop := mkProper {
    pr_fun p args : sub (JApp (JFun p) args) t -> one_tuple (operators p) -> exists es, args = [JTuple es];
    pr_name p args : sub (JName p args) t -> one_tuple (names p) -> exists es, args = [JTuple es];
    pr_proj i b : sub (JProj i b) t -> 1 <= i;
    pr_macro p args ts : sub (JMacro p args ts) t -> macros p = Some MProtocol -> args = [];
    pr_vars x y : variable_of t x -> variable_of t y -> sanitize wide KVariable x = sanitize wide KVariable y -> x = y }.
End Agreement.
