(** What the conversion of Squirrel terms should do. *)
From Coq Require Import List Arith Bool String Ascii Permutation Sorted.
From Verif Require Import Syntax_Model Smt_Model Squirrel_Model Utils_Model Utils_Spec Convert_Model.
Import ListNotations.
Local Open Scope list_scope.

(** The term of the system [s]: every [diff] is replaced by its alternative for [s]. *)
Fixpoint side (s : text) (t : jterm) {struct t} : jterm :=
  match t with
  | JApp f args => JApp (side s f) (map (side s) args)
  | JFun p => JFun p
  | JName p args => JName p (map (side s) args)
  | JMacro p args ts => JMacro p (map (side s) args) (side s ts)
  | JAction p args => JAction p (map (side s) args)
  | JVar v => JVar v
  | JLet x d b => JLet (side s x) (side s d) (side s b)
  | JTuple l => JTuple (map (side s) l)
  | JProj id b => JProj id (side s b)
  | JDiff l =>
      (fix pick l := match l with [] => JDiff [] | (k, u) :: l' => if list_eq_dec ascii_dec k s then side s u else pick l' end) l
  | JFind vars c a b => JFind (map (side s) vars) (side s c) (side s a) (side s b)
  | JQuant q vars b => JQuant q (map (side s) vars) (side s b)
  end.

(** Subterms. *)
Definition parts (t : jterm) : list jterm :=
  match t with
  | JApp f args => f :: args
  | JFun _ | JVar _ => []
  | JName _ args | JAction _ args => args
  | JMacro _ args ts => ts :: args
  | JLet x d b => [x; d; b]
  | JTuple l => l
  | JProj _ b => [b]
  | JDiff l => map snd l
  | JFind vars c a b => vars ++ [c; a; b]
  | JQuant _ vars b => vars ++ [b]
  end.
Inductive sub (u : jterm) : jterm -> Prop :=
| sub_refl : sub u u
| sub_step t c : In c (parts t) -> sub u c -> sub u t.

(** The lexicographic order of strings. *)
Inductive lex : text -> text -> Prop :=
| lex_nil c l : lex [] (c :: l)
| lex_head c d l m : nat_of_ascii c < nat_of_ascii d -> lex (c :: l) (d :: m)
| lex_tail c l m : lex l m -> lex (c :: l) (c :: m).

(** Every [diff] has one alternative for each of these systems. *)
Definition systems_of (systems : list text) (t : jterm) : Prop := forall l, sub (JDiff l) t -> Permutation (map fst l) systems.

(** The function takes one argument, of a tuple type. *)
Definition one_tuple (f : option jfun) : Prop := exists g ts, f = Some g /\ f_args g = [TTuple ts].
(** No [diff] is what a function of that kind is applied to. *)
Definition no_diff_tuple (names operators : path -> option jfun) (t : jterm) : Prop :=
  (forall p l args, sub (JApp (JFun p) (JDiff l :: args)) t -> ~ one_tuple (operators p)) /\
  (forall p l args, sub (JName p (JDiff l :: args)) t -> ~ one_tuple (names p)).

(** No [diff] below a [diff], in the place of a function or in the place of a bound variable. *)
Definition plain (t : jterm) : Prop :=
  (forall l u l', sub (JDiff l) t -> In u (map snd l) -> ~ sub (JDiff l') u) /\
  (forall l args, ~ sub (JApp (JDiff l) args) t) /\
  (forall q vars b l, sub (JQuant q vars b) t -> ~ In (JDiff l) vars) /\
  (forall vars c a b l, sub (JFind vars c a b) t -> ~ In (JDiff l) vars).

(** ** Tuples *)

(** A meaning of converted terms in which the projections invert the pairs, as the assertions of
    squirrel/converters/top_level_converter.rs 99-114 say. *)
Record pairs (D : Type) : Type := mkPairs {
  meaning : aterm -> D; pairing : D -> D -> D; first : D -> D; second : D -> D;
  means_pair a b : meaning (AApp (str "pair") [a; b]) = pairing (meaning a) (meaning b);
  means_fst a : meaning (AApp (str "fst") [a]) = first (meaning a);
  means_snd a : meaning (AApp (str "snd") [a]) = second (meaning a);
  first_pair x y : first (pairing x y) = x;
  second_pair x y : second (pairing x y) = y }.
Arguments meaning {D}.

(** ** Queries *)

(** A notion of satisfaction of converted formulas, under assignments of values to the variables. *)
Record satisfaction (E : Type) : Type := mkSat {
  sat : E -> aterm -> Prop; vary : list (text * text) -> E -> E -> Prop;
  sat_true e : sat e (AApp (str "true") []);
  sat_and e a b : sat e (AInfix Parser_Model.OAnd [a; b]) <-> sat e a /\ sat e b;
  sat_implies e a b : sat e (AInfix Parser_Model.OImplies [a; b]) <-> (sat e a -> sat e b);
  sat_forall e vs b : sat e (AQuant QForall vs b) <-> forall e', vary vs e e' -> sat e' b }.
Arguments sat {E}. Arguments vary {E}.

(** ** Arities *)

(** A function applied to [l], however it is written. *)
Inductive applies : aterm -> text -> list aterm -> Prop :=
| app_plain f l : applies (AApp f l) f l
| app_infix f o l : Parser_Infix_Model.get_operation (string_of_list_ascii f) = Some o -> applies (AInfix o l) f l
| app_if c l r : applies (AIte c l r) (str "if") [c; l; r].

Definition is_tuple_type (t : jtype) : bool := match t with TTuple _ => true | TPlain _ => false end.

(** ** Inputs *)

(** [let x_1 = d_1 in ... let x_n = d_n in b]. *)
Fixpoint lets (l : list ((text * text) * aterm)) (b : aterm) : aterm :=
  match l with [] => b | (x, d) :: l' => ALet x d (lets l' b) end.
(** The value the variable [x] is given by the [let]s, the innermost. *)
Fixpoint bound_to (x : text) (t : aterm) : option aterm :=
  match t with
  | ALet (y, _) d b => match bound_to x b with Some e => Some e | None => if list_eq_dec ascii_dec x y then Some d else None end
  | _ => None
  end.
