(** What solvers say. *)
From Coq Require Import List NArith ZArith String Ascii.
From Verif Require Import Runner_Model.
Import ListNotations.
Local Open Scope list_scope.

(** The last line of the output is the word [w], up to white space. *)
Definition says (w : string) (out : list N) : Prop :=
  exists before a b nl, out = before ++ a ++ map N_of_ascii (list_ascii_of_string w) ++ b ++ nl /\
    (before = [] \/ exists l, before = l ++ [10%N]) /\ (nl = [] \/ nl = [10%N]) /\
    Forall (fun c => white c = true /\ c <> 10%N) a /\ Forall (fun c => white c = true /\ c <> 10%N) b.

(** The text occurs in the output. *)
Definition mentions (w : string) (out : list N) : Prop := exists a b, out = a ++ map N_of_ascii (list_ascii_of_string w) ++ b.

(** ** Rounds *)

(** The outputs are searched for instances one after the other. *)
Inductive searched {P} (discover : nat -> P -> list N -> option P) : list (nat * list N) -> P -> P -> Prop :=
| searched_nil p : searched discover [] p p
| searched_cons i t l p p' q : discover i p t = Some p' -> searched discover l p' q -> searched discover ((i, t) :: l) p q.
(** Rounds [i] to [j - 1] timed out; they turned the problem [p] into [q]. *)
Inductive timed_out {P} (round : nat -> P -> verdict) (discover : nat -> P -> list N -> option P) : nat -> P -> nat -> P -> Prop :=
| timed_out_nil i p : timed_out round discover i p i p
| timed_out_cons i p l p' j q : round i p = VTimeout l -> searched discover l p p' -> timed_out round discover (S i) p' j q ->
    timed_out round discover i p j q.

(** What a solver answers when it is left alone. *)
Definition answers (k : kind) (p : plan) (a : answer) : Prop :=
  match p with
  | PPanic => False
  | PFail | PBroken => a = AErr
  | PExit rc out => match k with Vampire => a = vampire_result rc out | Z3 => a = z3_result rc out end
  end.
Definition conclusive (a : answer) : Prop := a = ASat \/ a = AUnsat \/ a = AErr.
