(** What the cryptographic axioms should say, and what their searches should look at. *)
From Coq Require Import List Arith Bool.
From Verif Require Import Syntax_Model Traversal_Spec Semantics_Spec Order_Spec.
Import ListNotations.

(** ** Unforgeability *)
Section Values.
  Context (M : structure).
  (** The bitstring of a message; the message made of a name. *)
  Definition value (d : D M) : D M := fint M (Feval SMessage) [d].
  Definition named (k : D M) : D M := fint M (Fcast SMessage) [k].
  (** [verify(first, second, third)] succeeds. *)
  Definition accepts (verify : nat) (a b c : D M) : Prop := tholds M (Feval SCondition) [fint M (Fuser verify) [a; b; c]].

  (** [accepted sigma m k]: the signature [sigma] of [m] is accepted under the name [k]. Then the message is one for which a signature
      occurs in the message or in the signature, unless the key occurs there or leaks. *)
  Definition unforgeable (signed : D M -> D M -> D M) (accepted : D M -> D M -> D M -> Prop) (main key split : nat) : Prop :=
    forall sigma m k, dom M SMessage sigma -> dom M SMessage m -> dom M SName k -> accepted sigma m k ->
    ~ (forall u, dom M SMessage u -> value u = value m ->
         ~ (tholds M (Fsubterm main) [signed u (named k); m] \/ tholds M (Fsubterm main) [signed u (named k); sigma] \/
            tholds M (Fsubterm key) [k; m] \/ tholds M (Fsubterm key) [k; sigma] \/ tholds M (Fuser split) [k])).
  Definition uf_unforgeable (mac verify : nat) : nat -> nat -> nat -> Prop :=
    unforgeable (fun u k => fint M (Fuser mac) [u; k]) (fun sigma m k => accepts verify sigma m (named k)).
  Definition euf_unforgeable (sign verify pk : nat) : nat -> nat -> nat -> Prop :=
    unforgeable (fun u k => fint M (Fuser sign) [u; k]) (fun sigma m k => accepts verify sigma m (fint M (Fuser pk) [named k])).
  (** An honest signature is accepted. *)
  Definition uf_correct (mac verify : nat) : Prop :=
    forall m k, dom M SMessage m -> dom M SMessage k -> accepts verify (fint M (Fuser mac) [m; k]) m k.
End Values.

(** ** Checks: the subterms that compare [s] with a signature of [m] under the name [k] *)
Inductive uf_checks (mac verify : nat) (hmac : bool) : formula -> formula -> formula -> formula -> Prop :=
| ch_verify m s k : uf_checks mac verify hmac (FFun (Fuser verify) [s; m; FFun (Fcast SMessage) [k]]) m s k
| ch_eq_left m s k : hmac = true ->
    uf_checks mac verify hmac (FFun (Fb CEq) [FFun (Fuser mac) [m; FFun (Fcast SMessage) [k]]; s]) m s k
| ch_eq_right m s k : hmac = true ->
    uf_checks mac verify hmac (FFun (Fb CEq) [s; FFun (Fuser mac) [m; FFun (Fcast SMessage) [k]]]) m s k
| ch_ev_left m s k : hmac = true ->
    uf_checks mac verify hmac (FFun (Fb CEq) [FFun (Feval SMessage) [FFun (Fuser mac) [m; FFun (Fcast SMessage) [k]]]; FFun (Feval SMessage) [s]]) m s k
| ch_ev_right m s k : hmac = true ->
    uf_checks mac verify hmac (FFun (Fb CEq) [FFun (Feval SMessage) [s]; FFun (Feval SMessage) [FFun (Fuser mac) [m; FFun (Fcast SMessage) [k]]]]) m s k
| ch_ta_left m s k : hmac = true ->
    uf_checks mac verify hmac (FFun (Fta TEq) [FFun (Fuser mac) [m; FFun (Fcast SMessage) [k]]; s]) m s k
| ch_ta_right m s k : hmac = true ->
    uf_checks mac verify hmac (FFun (Fta TEq) [s; FFun (Fuser mac) [m; FFun (Fcast SMessage) [k]]]) m s k.
Inductive euf_checks (verify pk : nat) : formula -> formula -> formula -> formula -> Prop :=
| ch_pk m s k : euf_checks verify pk (FFun (Fuser verify) [s; m; FFun (Fuser pk) [FFun (Fcast SMessage) [k]]]) m s k.

(** ** Where a key may stand *)
(** [uses s n i]: the function [s] of [n] arguments takes a key as argument number [i]. *)
Definition uf_uses (mac verify : nat) (s : fsym) (n i : nat) : Prop := s = Fuser mac /\ n = 2 /\ i = 1 \/ s = Fuser verify /\ n = 3 /\ i = 2.
Definition euf_uses (sign pk : nat) (s : fsym) (n i : nat) : Prop := s = Fuser sign /\ n = 2 /\ i = 1 \/ s = Fuser pk /\ n = 1 /\ i = 0.
Definition ctxt_uses (enc dec : nat) (s : fsym) (n i : nat) : Prop := s = Fuser dec /\ n = 2 /\ i = 1 \/ s = Fuser enc /\ n = 3 /\ i = 2.
Definition rand_uses (enc : nat) (s : fsym) (n i : nat) : Prop := s = Fuser enc /\ n = 3 /\ i = 1.
(** The child number [i] of [f] is a name in the position of a key. *)
Definition key_position (uses : fsym -> nat -> nat -> Prop) (f : formula) (i : nat) : Prop :=
  exists s args l, f = FFun s args /\ uses s (length args) i /\ nth_error args i = Some (FFun (Fcast SMessage) l).
(** The position [p] of [f] is at or below such a name. *)
Definition under_key (uses : fsym -> nat -> nat -> Prop) (f : formula) (p : list nat) : Prop :=
  exists p1 i p2 g, p = p1 ++ i :: p2 /\ at_path f p1 g /\ key_position uses g i.

(** ** Equalities with a mac *)
Definition is_equality (s : fsym) : Prop := s = Fb CEq \/ s = Fta TEq.
Definition is_mac (mac : nat) (f : formula) : Prop := exists args, f = FFun (Fuser mac) args.
(** The position holds an equality between a mac and another term. *)
Definition one_sided (mac : nat) (f : formula) (p : list nat) : Prop :=
  exists s l r, at_path f p (FFun s [l; r]) /\ is_equality s /\ (is_mac mac l /\ ~ is_mac mac r \/ ~ is_mac mac l /\ is_mac mac r).
(** The position holds a mac that is compared directly. *)
Definition compared (mac verify : nat) (hmac : bool) (f : formula) (p : list nat) : Prop :=
  exists q i g s args, p = q ++ [i] /\ at_path f p g /\ is_mac mac g /\ at_path f q (FFun s args) /\
    (hmac = true /\ is_equality s /\ length args = 2 \/ s = Fuser verify /\ length args = 3 /\ i = 0).

(** ** Encryptions *)
(** [t] is an encryption of [m] with randomness [r] and key [k]. *)
Definition is_enc (enc : nat) (t m r k : formula) : Prop := t = FFun (Fuser enc) [m; r; k].
(** Decryption inverts encryption. *)
Definition decrypts (M : structure) (enc dec : nat) : Prop :=
  forall m r k, dom M SMessage m -> dom M SMessage r -> dom M SMessage k ->
    value M m = value M (fint M (Fuser dec) [fint M (Fuser enc) [m; r; k]; k]).
(** Every application of the function to a variable as argument number [i] is to a variable of sort [s]. *)
Definition argument_sorted (f : formula) (h : fsym) (i : nat) (s : sort) : Prop :=
  forall p args v, at_path f p (FFun h args) -> nth_error args i = Some (FVar v) -> vsort v = s.

(** The environment satisfies the equations of a unifier. *)
Definition solves (M : structure) (rho : env M) (u : list (nat * formula) * list (nat * formula)) : Prop :=
  forall i t, In (i, t) (fst u ++ snd u) -> rho i = eval t rho.
