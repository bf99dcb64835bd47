(** What is expected of terms read back from the solver. *)
From Coq Require Import List NArith.
From Verif Require Import Syntax_Model Sort_Model Sort_Spec Readback_Model.
Import ListNotations.

(** The text between quotes. *)
Definition quoted (inner : chars) : chars := 39%N :: inner ++ [39%N].
Definition is_quoted (s : chars) : Prop := exists inner, s = quoted inner.
Definition ascii_text (s : chars) : Prop := Forall (fun c => (c < 128)%N) s.

(** No binder anywhere. *)
Inductive flat : tmp -> Prop :=
| fl_var v : flat (TVar v)
| fl_app h l : Forall flat l -> flat (TApp h l).

Section Known.
  Variable functions : chars -> option fsym.
  Variable kind : fsym -> sigkind.

  (** What the program cannot know: variables and applications of symbols it has not declared. *)
  Definition unknown (t : tmp) : Prop :=
    match t with TVar _ => True | TApp h _ => functions h = None | TBinder _ _ _ => False end.

  (** Nothing is bound, unknown applications being taken as they are. *)
  Inductive bindless : tmp -> Prop :=
  | bl_unknown t : unknown t -> bindless t
  | bl_app h g l : functions h = Some g -> Forall bindless l -> bindless (TApp h l)
  | bl_binder h a : bindless a -> bindless (TBinder h [] [a]).

  (** [f] is [t] with the unknown terms replaced according to [book]. *)
  Inductive reads (book : list (tmp * var)) : tmp -> formula -> Prop :=
  | rd_unknown t v : unknown t -> In (t, v) book -> reads book t (FVar v)
  | rd_app h g l fs : functions h = Some g -> Forall2 (reads book) l fs -> reads book (TApp h l) (FFun g fs).

  (** Different unknown terms, different variables; one variable for each unknown term. *)
  Definition one_to_one (book : list (tmp * var)) : Prop :=
    forall t v t' v', In (t, v) book -> In (t', v') book -> (t = t' <-> vid v = vid v').

  (** The solver's term is well sorted, [sigma] being the sorts of the unknown terms. *)
  Inductive used (sigma : tmp -> sort) : tmp -> sort -> Prop :=
  | us_unknown t s : unknown t -> same_sort REvaluated (sigma t) s -> used sigma t s
  | us_app h g l ss o s : functions h = Some g -> Forall2 (used sigma) l ss -> accepts (kind g) ss o ->
      same_sort REvaluated o s -> used sigma (TApp h l) s.

  (** The sorts of the unknown terms can be found: their places have a known sort ([true]). *)
  Variable is_tmp : fsym -> bool.
  Definition places (k : sigkind) (n : nat) : list bool :=
    match k with SgEq => [false; false] | SgSub _ => [true; false] | _ => repeat true n end.
  Inductive inferable : bool -> tmp -> Prop :=
  | if_unknown t : unknown t -> inferable true t
  | if_app h g l b : functions h = Some g -> is_tmp g = false -> (b = true \/ kind g <> SgIte) ->
      Forall2 inferable (places (kind g) (length l)) l -> inferable b (TApp h l).

  (** The number of arguments of a symbol; [None]: any. *)
  Definition arity (k : sigkind) : option nat :=
    match k with
    | SgFixed args _ => Some (length args)
    | SgBools => None
    | SgEq => Some 2
    | SgIte => Some 3
    | SgSub _ => Some 2
    end.
  (** Every application in a formula has a number of arguments that [ok] allows. *)
  Inductive arities (ok : nat -> nat -> Prop) : formula -> Prop :=
  | ar_var v : arities ok (FVar v)
  | ar_fun g fs : (forall n, arity (kind g) = Some n -> ok (length fs) n) -> Forall (arities ok) fs ->
      arities ok (FFun g fs)
  | ar_q q vs f : arities ok f -> arities ok (FQ q vs f).
  (** Same for the solver's terms. *)
  Inductive right_arity : tmp -> Prop :=
  | ra_unknown t : unknown t -> right_arity t
  | ra_app h g l : functions h = Some g -> (forall n, arity (kind g) = Some n -> length l = n) ->
      Forall right_arity l -> right_arity (TApp h l).
End Known.

(** Meaning of the solver's literals: the symbols denote operations, whether quoted or not. *)
Definition unquoted (s n : chars) : Prop := s = quoted n \/ (n = s /\ ~ is_quoted s /\ s <> [39%N]).
Section Meaning.
  Variable D : Type.
  Variable op : chars -> list D -> D.
  Variable equal : D -> D -> D.
  Variable negation : D -> D.
  Variable rho : chars -> D.

  Inductive xmeans : xterm -> D -> Prop :=
  | xm_var v : xmeans (XVar v) (rho v)
  | xm_app f n l ds : unquoted f n -> Forall2 xmeans l ds -> xmeans (XApp f l) (op n ds)
  | xm_defined d : xmeans (XDefined d) (op d []).
  Inductive ameans : xatom -> D -> Prop :=
  | am_pred f n l ds : unquoted f n -> Forall2 xmeans l ds -> ameans (XPred f l) (op n ds)
  | am_eq a b x y : xmeans a x -> xmeans b y -> ameans (XEq a b) (equal x y).
  Inductive lmeans : xlit -> D -> Prop :=
  | lm_pos a x : ameans a x -> lmeans (XPos a) x
  | lm_neg a x : ameans a x -> lmeans (XNeg a) (negation x)
  | lm_neq a b x y : xmeans a x -> xmeans b y -> lmeans (XNeq a b) (negation (equal x y)).

  (** Meaning of what is read. *)
  Fixpoint tmeaning (t : tmp) : D :=
    match t with
    | TVar v => rho v
    | TApp h l => op h (map tmeaning l)
    | TBinder h _ l => op h (map tmeaning l)
    end.
End Meaning.

(** The names that occur in a literal are ASCII texts. *)
Inductive xascii : xterm -> Prop :=
| xa_var v : xascii (XVar v)
| xa_app f l : ascii_text f -> Forall xascii l -> xascii (XApp f l)
| xa_defined d : xascii (XDefined d).
Definition aascii (a : xatom) : Prop :=
  match a with XPred f l => ascii_text f /\ Forall xascii l | XEq a b => xascii a /\ xascii b end.
Definition lascii (l : xlit) : Prop :=
  match l with XPos a | XNeg a => aascii a | XNeq a b => xascii a /\ xascii b end.
