(** Specification of the utility containers. *)
From Coq Require Import List Arith Bool.
From Verif Require Import Utils_Model.
Import ListNotations.

(** What a double-ended queue holding a list may answer: [(false, r)] is a call at the front, [(true, r)] at the back. *)
Inductive deque {T : Type} : list T -> list (bool * option T) -> list T -> Prop :=
| deque_done l : deque l [] l
| deque_front x l tr l' : deque l tr l' -> deque (x :: l) ((false, Some x) :: tr) l'
| deque_back x l tr l' : deque l tr l' -> deque (l ++ [x]) ((true, Some x) :: tr) l'
| deque_empty d tr l' : deque [] tr l' -> deque [] ((d, None) :: tr) l'.

(** An iterator state holding [l]: every history of calls succeeds, is a history of the queue, and leaves a state
    whose size hint is the number of elements left. *)
Definition is_deque {S T : Type} (next back : S -> option (option T * S)) (hint : S -> nat) (s : S) (l : list T) : Prop :=
  forall ops, exists rs s' l',
    calls next back ops s = Some (rs, s') /\ length rs = length ops /\
    deque l (combine ops rs) l' /\ hint s' = length l'.

(** The elements of a reference vector. *)
Definition vr_elems {T} (v : vecref T) : list T :=
  match v with VVec l | VRef l | VRefRef l => l | VSingle x => [x] | VEmpty => [] end.
Definition vc_elems {T} (v : vecref_clone T) : list T :=
  match v with CVecRef v => vr_elems v | CVec l => l | COwned x => [x] end.

(** [r] is the lexicographic verdict: fields compare equal up to the first that does not. *)
Inductive lexicographic : list (option comparison) -> option comparison -> Prop :=
| lex_end : lexicographic [] (Some Eq)
| lex_eq l r : lexicographic l r -> lexicographic (Some Eq :: l) r
| lex_decide c l : c <> Some Eq -> lexicographic (c :: l) c.

(** Extended naturals, as a relation. *)
Inductive inf_le : infinity -> infinity -> Prop :=
| ile_low x : inf_le LowInfinity x
| ile_high x : inf_le x HighInfinity
| ile_num a b : a <= b -> inf_le (Num a) (Num b).

(** All elements of a bag and of the bags below it. *)
Fixpoint bag_elems {U} (b : bag U) : list U :=
  match b with
  | Bag top lower => top ++ (fix go l := match l with [] => [] | b :: l' => bag_elems b ++ go l' end) lower
  end.

(** [x] covers [n] alternatives: it has a value for each. *)
Definition covers {U} (n : nat) (x : aoov U) : Prop :=
  match x with All l => length l = n | Any _ => True | One _ _ => False end.
