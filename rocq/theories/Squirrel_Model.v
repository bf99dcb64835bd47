(** The front end for Squirrel: names, control-flow order, output locations.
    Paths are relative to /repo/crates/cryptovampire/src/squirrel. Strings are lists of bytes (UTF-8). *)
From Coq Require Import List Arith Bool String Ascii.
From Verif Require Import Smt_Model.
Import ListNotations.
Local Open Scope list_scope.

Definition text_eqb (a b : text) : bool := if list_eq_dec ascii_dec a b then true else false.

(** What a conversion gives: a value, an error, a panic; [OFuel]: a loop needs more fuel. *)
Inductive outcome (A : Type) : Type := OOk (a : A) | OErr | OPanic | OFuel.
Arguments OOk {A}. Arguments OErr {A}. Arguments OPanic {A}. Arguments OFuel {A}.

(** ** Names *)

(** mod.rs 50-73 [SanitizeKind], its [Display]. *)
Inductive skd : Type := KVariable | KFunction | KStep | KMacro | KCell | KName | KSort.
Definition kind_text (k : skd) : text :=
  str (match k with
       | KVariable => "var_" | KFunction | KMacro => "fun_" | KStep => "step_" | KCell => "cell_" | KName => "name_" | KSort => "sort_"
       end).

(** converters/mod.rs 36-70 [REMMAPPED_FUNCTION]; the names are those of formula/function/builtin.rs. *)
Definition o_slash : text := [ascii_of_nat 195; ascii_of_nat 184].
Definition remapped : list (text * text) :=
  [(str "&&", str "and"); (str "and", str "and"); (str "||", str "or"); (str "or", str "or"); (str "<=>", str "=");
   (str "=>", str "=>"); (str "=", str "="); (str "<>", str "!="); (str "<=", str "leq"); (str "<", str "lt"); (str ">", str "gt");
   (str "not", str "not"); (str "true", str "true"); (str "false", str "false"); (str "empty", str "empty"); (o_slash, str "empty");
   (str "happens", str "happens"); (str "pred", str "pred"); (str "init", str "init"); (str "pair", str "pair"); (str "fst", str "fst");
   (str "snd", str "snd"); (str "input", str "input"); (str "cond", str "cond"); (str "output", str "msg"); (str "exec", str "exec");
   (str "fail", str "fail"); (str "if", str "if")].
(** A lookup in a hash map. *)
Fixpoint look {A} (l : list (text * A)) (s : text) : option A :=
  match l with [] => None | (k, v) :: l' => if text_eqb k s then Some v else look l' s end.

(** converters/mod.rs 160-172: base64 without padding over this alphabet (crate base64). *)
Definition alphabet : text := str "ABCDEFGHIJKLMNOPQRSTUVWXYZabcdefghijklmnopqrstuvwxyz0123456789#$".
Definition digit (n : nat) : ascii := nth n alphabet zero.
Definition byte (c : ascii) : nat := nat_of_ascii c.
Fixpoint base64 (l : text) : text :=
  match l with
  | [] => []
  | [a] => [digit (byte a / 4); digit (byte a mod 4 * 16)]
  | [a; b] => [digit (byte a / 4); digit (byte a mod 4 * 16 + byte b / 16); digit (byte b mod 16 * 4)]
  | a :: b :: c :: l' =>
      digit (byte a / 4) :: digit (byte a mod 4 * 16 + byte b / 16) :: digit (byte b mod 16 * 4 + byte c / 64) :: digit (byte c mod 64) :: base64 l'
  end.

(** [char::is_alphanumeric], on ASCII. *)
Definition in_range (a b : nat) (c : ascii) : bool := Nat.leb a (byte c) && Nat.leb (byte c) b.
Definition ascii_alnum (c : ascii) : bool := in_range 48 57 c || in_range 65 90 c || in_range 97 122 c.

(** json/mod.rs 6-9 and 73-84: the characters and the strings a symbol may have. *)
Definition dummy : text := str "$dummy".
Definition forbidden (c : ascii) : bool := existsb (Ascii.eqb c) (str ";$#").
Definition valid (s : text) : bool := text_eqb s dummy || negb (existsb forbidden s).

(** json/path.rs 28-34 [Path], 43-49 [to_str_ref] and 72-84. *)
Record path : Type := mkPath { p_npath : list text; p_symb : text }.
Definition separator : text := str "$#$".
Fixpoint join (sep : text) (l : list text) : text :=
  match l with [] => [] | [a] => a | a :: l' => a ++ sep ++ join sep l' end.
Definition path_text (p : path) : text :=
  match p_npath p with [] => p_symb p | l => join separator (l ++ [p_symb p]) end.

Section Names.
  (** [wide s]: the characters of [s] beyond ASCII are alphanumeric. *)
  Context (wide : text -> bool).

  (** [str_ref.chars().all(|s| s.is_alphanumeric())]. *)
  Definition alnum (s : text) : bool := forallb (fun c => ascii_alnum c || Nat.leb 128 (byte c)) s && wide s.

  (** converters/mod.rs 174-192 [sanitize]. *)
  Definition sanitize (k : skd) (s : text) : text :=
    match look remapped s with
    | Some t => t
    | None => kind_text k ++ (if alnum s then s else str "_base64_" ++ base64 s)
    end.

  (** ** Order of actions *)

  (** json/mod.rs 120-126 [Variable]; sorts are numbers. *)
  Record jvar : Type := mkJVar { j_name : text; j_sort : nat }.
  Definition jvar_eqb (a b : jvar) : bool := text_eqb (j_name a) (j_name b) && Nat.eqb (j_sort a) (j_sort b).
  (** json/action.rs 50-58 [Item], [AT]. *)
  Record item (A : Type) : Type := mkItem { i_par : nat * A; i_sum : nat * A }.
  Arguments mkItem {A}. Arguments i_par {A}. Arguments i_sum {A}.
  (** json/action.rs 60-78, what matters here. *)
  Record action : Type := mkAction { a_name : path; a_action : list (item (list jvar)); a_indices : list jvar; a_rest : nat }.

  Definition list_eqb {A} (eqb : A -> A -> bool) : list A -> list A -> bool :=
    fix go l l' := match l, l' with [], [] => true | a :: m, a' :: m' => eqb a a' && go m m' | _, _ => false end.
  Definition item_eqb {A} (eqb : A -> A -> bool) (a b : item A) : bool :=
    (Nat.eqb (fst (i_par a)) (fst (i_par b)) && eqb (snd (i_par a)) (snd (i_par b))) &&
    (Nat.eqb (fst (i_sum a)) (fst (i_sum b)) && eqb (snd (i_sum a)) (snd (i_sum b))).

  (** convert_order.rs 63-79 [partial_cmp]. *)
  Definition at_cmp {A} (eqb : A -> A -> bool) (a b : list (item A)) : option comparison :=
    if list_eqb (item_eqb eqb) a b then Some Eq
    else if forallb (fun p => item_eqb eqb (fst p) (snd p)) (combine a b)
    then if Nat.ltb (List.length a) (List.length b) then Some Lt else Some Gt
    else None.
  (** convert_order.rs 82-88 [depends]. *)
  Definition depends {A} (eqb : A -> A -> bool) (a b : list (item A)) : option bool :=
    match at_cmp eqb a b with Some Lt => Some true | Some Gt => Some false | _ => None end.

  (** parser/ast/order.rs [Order]: arguments, kind and two steps applied to variables. *)
  Inductive okind : Type := OLt | OIncompatible.
  Record order : Type := mkOrder { o_args : list (text * text); o_kind : okind; o_t1 : text * list text; o_t2 : text * list text }.

  (** [csort]: the conversion of the sorts (converters/ast_convertion.rs 78-104); [None]: an error. *)
  Context (csort : nat -> option text).
  Definition var_text (v : jvar) : text := sanitize KVariable (j_name v).
  Definition step_text (a : action) : text := sanitize KStep (path_text (a_name a)).
  Fixpoint typed_args (l : list jvar) : option (list (text * text)) :=
    match l with
    | [] => Some []
    | v :: l' => match csort (j_sort v), typed_args l' with Some s, Some r => Some ((var_text v, s) :: r) | _, _ => None end
    end.

  Definition var_list_eqb := list_eqb jvar_eqb.

  (** convert_order.rs 90-136 [mk_depends_lemma]. *)
  Definition depends_lemma (a b : action) : outcome (option order) :=
    match (match depends var_list_eqb (a_action a) (a_action b) with
           | None => None
           | Some true => Some (a, b)
           | Some false => Some (b, a)
           end) with
    | None => OOk None
    | Some (a, b) =>
        if Nat.ltb (List.length (a_indices b)) (List.length (a_indices a)) then OErr
        else match typed_args (a_indices b) with
             | None => OErr
             | Some args => OOk (Some (mkOrder args OLt (step_text a, map var_text (a_indices a)) (step_text b, map var_text (a_indices b))))
             end
    end.

  (** json/action.rs 128-147 [shape]. *)
  Definition shape (a : list (item (list jvar))) : list (item nat) :=
    map (fun i => mkItem (fst (i_par i), List.length (snd (i_par i))) (fst (i_sum i), List.length (snd (i_sum i)))) a.

  (** convert_order.rs 139-157 [mutex_commun_vars]. *)
  Fixpoint mutex_commun_vars (a b : list (item nat)) : option nat :=
    match a, b with
    | x :: a', y :: b' =>
        if item_eqb Nat.eqb x y then option_map (Nat.add (snd (i_par x) + snd (i_sum x))) (mutex_commun_vars a' b')
        else if (Nat.eqb (fst (i_par x)) (fst (i_par y)) && Nat.eqb (snd (i_par x)) (snd (i_par y))) &&
                negb (Nat.eqb (fst (i_sum x)) (fst (i_sum y)))
        then Some (snd (i_par x))
        else None
    | _, _ => None
    end.

  (** convert_order.rs 190-194: the renaming loop; [new_owned] validates the new name. *)
  Fixpoint rename_one (n : nat) (names : list text) (s : text) : outcome text :=
    match n with
    | O => OFuel
    | S n' =>
        if existsb (text_eqb s) names
        then let s' := s ++ str "_u" in if valid s' then rename_one n' names s' else OPanic
        else OOk s
    end.
  (** convert_order.rs 182-198. *)
  Fixpoint rename (n : nat) (names : list text) (l : list jvar) : outcome (list jvar) :=
    match l with
    | [] => OOk []
    | v :: l' =>
        match rename_one n names (j_name v) with
        | OOk s =>
            match rename n (s :: names) l' with
            | OOk r => OOk (mkJVar s (j_sort v) :: r)
            | OErr => OErr | OPanic => OPanic | OFuel => OFuel
            end
        | OErr => OErr | OPanic => OPanic | OFuel => OFuel
        end
    end.

  Definition action_eqb (a b : action) : bool :=
    (list_eqb text_eqb (p_npath (a_name a)) (p_npath (a_name b)) && text_eqb (p_symb (a_name a)) (p_symb (a_name b))) &&
    (list_eqb (item_eqb var_list_eqb) (a_action a) (a_action b) && var_list_eqb (a_indices a) (a_indices b)) && Nat.eqb (a_rest a) (a_rest b).

  (** convert_order.rs 159-234 [mk_mutex_lemma]; slices out of range panic. *)
  Definition mutex_lemma (n : nat) (a b : action) : outcome (option order) :=
    match mutex_commun_vars (shape (a_action a)) (shape (a_action b)) with
    | None => OOk None
    | Some i =>
        if (action_eqb a b && Nat.eqb (List.length (a_indices a)) i) then OPanic
        else if Nat.ltb (List.length (a_indices a)) i || Nat.ltb (List.length (a_indices b)) i then OPanic
        else match rename n (map j_name (a_indices a)) (skipn i (a_indices b)) with
             | OOk others =>
                 match typed_args (a_indices a ++ others) with
                 | None => OErr
                 | Some args =>
                     OOk (Some (mkOrder args OIncompatible (step_text a, map var_text (a_indices a))
                                  (step_text b, map var_text (firstn i (a_indices a) ++ others))))
                 end
             | OErr => OErr | OPanic => OPanic | OFuel => OFuel
             end
    end.

  (** convert_order.rs 36-46, for one pair. *)
  Definition pair_lemma (n : nat) (a b : action) : outcome (option order) :=
    match depends_lemma a b with OOk None => mutex_lemma n a b | r => r end.
  (** json/action.rs 110-112. *)
  Definition is_init (a : action) : bool := text_eqb (path_text (a_name a)) (str "init").
  (** [itertools::tuple_combinations]. *)
  Fixpoint combinations {A} (l : list A) : list (A * A) :=
    match l with [] => [] | a :: l' => map (pair a) l' ++ combinations l' end.
  (** convert_order.rs 28-47 [mk_depends_mutex_lemmas], consumed up to the first error (top_level_converter.rs 67-88). *)
  Fixpoint collect_orders (l : list (outcome (option order))) : outcome (list order) :=
    match l with
    | [] => OOk []
    | OOk o :: l' => match collect_orders l' with
                     | OOk r => OOk (match o with Some x => x :: r | None => r end)
                     | e => e
                     end
    | OErr :: _ => OErr | OPanic :: _ => OPanic | OFuel :: _ => OFuel
    end.
  Definition order_lemmas (n : nat) (l : list action) : outcome (list order) :=
    collect_orders (map (fun p => pair_lemma n (fst p) (snd p)) (combinations (filter (fun a => negb (is_init a)) l))).
End Names.
Arguments mkItem {A}. Arguments i_par {A}. Arguments i_sum {A}.

(** ** Output locations *)

(** mod.rs 26-47 [run_from_json]: the location is updated in place before each problem, and [run_from_ast] runs with it; [run]
    answers whether it succeeds, and the first error stops the iteration. The result lists the location each problem is run with. *)
Section Locations.
  Context {P : Type} (run : option (list text) -> P -> bool).
  Fixpoint run_all (i : nat) (location : option (list text)) (l : list P) : list (P * option (list text)) * bool :=
    match l with
    | [] => ([], true)
    | p :: l' =>
        let location' := option_map (fun d => d ++ [dec i]) location in
        if run location' p
        then let (r, ok) := run_all (S i) location' l' in ((p, location') :: r, ok)
        else ([(p, location')], false)
    end.
End Locations.
Definition run_from_json {P} run (location : option (list text)) (l : list P) := run_all run 0 location l.
