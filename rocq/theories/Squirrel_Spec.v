(** What the names, the order lemmas and the output locations of the Squirrel front end should be. *)
From Coq Require Import List Arith Bool String Ascii.
From Verif Require Import Smt_Model Squirrel_Model.
Import ListNotations.
Local Open Scope list_scope.

(** ** Names *)

(** The namespaces of Squirrel symbols: functions and macros share one. *)
Definition same_space (k k' : skd) : Prop :=
  k = k' \/ (k = KFunction /\ k' = KMacro) \/ (k = KMacro /\ k' = KFunction).
(** The Squirrel symbols with a fixed translation, and the names they are translated to. *)
Definition special : list text :=
  map str ["&&"; "and"; "||"; "or"; "<=>"; "=>"; "="; "<>"; "<="; "<"; ">"; "not"; "true"; "false"; "empty"; "happens"; "pred"; "init";
           "pair"; "fst"; "snd"; "input"; "cond"; "output"; "exec"; "fail"; "if"]%string ++ [map ascii_of_nat [195; 184]].
Definition reserved : list text :=
  map str ["and"; "or"; "="; "=>"; "!="; "leq"; "lt"; "gt"; "not"; "true"; "false"; "empty"; "happens"; "pred"; "init"; "pair"; "fst"; "snd";
           "input"; "cond"; "msg"; "exec"; "fail"; "if"]%string.
(** A symbol of a Squirrel file: [$dummy], or no [;], [$] or [#] in it. *)
Definition symbol (s : text) : Prop :=
  s = str "$dummy" \/ (~ In ";"%char s /\ ~ In "$"%char s /\ ~ In "#"%char s).
Definition legal_path (p : path) : Prop := Forall symbol (p_npath p) /\ symbol (p_symb p).

(** The characters of a simple symbol of SMT-LIB (2.6, section 3.1). *)
Definition smt_char (c : ascii) : Prop :=
  let n := nat_of_ascii c in (48 <= n <= 57 \/ 65 <= n <= 90 \/ 97 <= n <= 122) \/ In c (list_ascii_of_string "~!@$%^&*_-+=<>.?/").
Definition ascii_only (s : text) : Prop := Forall (fun c => nat_of_ascii c < 128) s.
Definition alphanumeric (s : text) : Prop :=
  Forall (fun c => let n := nat_of_ascii c in 48 <= n <= 57 \/ 65 <= n <= 90 \/ 97 <= n <= 122) s.

(** ** Order of actions *)

Definition strict_prefix {A} (a b : list A) : Prop := exists x r, b = a ++ x :: r.
(** Same beginning, then the same parallel branch and different branches of a choice. *)
Definition diverge {A} (a b : list (item A)) : Prop :=
  exists p x y r s, a = p ++ x :: r /\ b = p ++ y :: s /\ i_par x = i_par y /\ i_sum x <> i_sum y.
(** The same, when the branches differ by their number. *)
Definition diverge_number {A} (a b : list (item A)) : Prop :=
  exists p x y r s, a = p ++ x :: r /\ b = p ++ y :: s /\ i_par x = i_par y /\ fst (i_sum x) <> fst (i_sum y).

(** The execution of an action for some values of its indices, in order. *)
Fixpoint run_action {V} (a : list (item (list jvar))) (vals : list V) : list (item (list V)) :=
  match a with
  | [] => []
  | i :: a' =>
      let p := List.length (snd (i_par i)) in let s := List.length (snd (i_sum i)) in
      mkItem (fst (i_par i), firstn p vals) (fst (i_sum i), firstn s (skipn p vals)) :: run_action a' (skipn (p + s) vals)
  end.
Definition item_vars (i : item (list jvar)) : list jvar := snd (i_par i) ++ snd (i_sum i).
(** The actions of a Squirrel file: the indices are the variables of the control flow, with distinct names. *)
Definition proper (a : action) : Prop :=
  a_indices a = flat_map item_vars (a_action a) /\ NoDup (map j_name (a_indices a)).
(** Index names: symbols other than [$dummy] and those with a fixed translation. *)
Definition index_name (s : text) : Prop := symbol s /\ s <> str "$dummy" /\ ~ In s special.

(** What a lemma says of the instances of two actions: [R] holds for every valuation of the bound names. *)
Definition says {V} (o : order) (R : list V -> list V -> Prop) : Prop :=
  forall v : text -> V, R (map v (snd (o_t1 o))) (map v (snd (o_t2 o))).
(** It says something of these instances. *)
Definition reaches {V} (o : order) (va vb : list V) : Prop :=
  exists v : text -> V, map v (snd (o_t1 o)) = va /\ map v (snd (o_t2 o)) = vb.
Definition closed_order (o : order) : Prop :=
  forall x, In x (snd (o_t1 o)) \/ In x (snd (o_t2 o)) -> In x (map fst (o_args o)).

(** Two elements of a list, the first before the second. *)
Definition before {A} (a b : A) (l : list A) : Prop := exists p q r, l = p ++ a :: q ++ b :: r.
