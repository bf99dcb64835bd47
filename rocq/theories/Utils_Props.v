(** C59-C63, C67, C68. *)
From Coq Require Import List Arith Bool Permutation.
From Verif Require Import Utils_Model Utils_Spec Utils_Proofs.
Import ListNotations.

(** C59. With [n] alternatives, every value common to all or given for each of the [n]: combining succeeds, covers the
    [n] alternatives, and alternative [i] of the result is the list of the alternatives [i]. *)
Theorem C59_transpose_pointwise : forall U n (args : list (aoov U)), Forall (covers n) args -> exists r,
    transpose_iter args = Some r /\ covers n r /\
    forall i, i < n -> exists l, aget r i = Some l /\ Forall2 (fun x y => aget x i = Some y) args l.
Proof. exact @transpose_pointwise. Qed.
Print Assumptions C59_transpose_pointwise.

(** A family of options: it is there when all its members are, and its members are those. *)
Theorem C59_options : forall U (x : aoov (option U)),
    (forall r, atranspose x = Some r -> shape_of r = shape_of x /\ forall i, aget x i = option_map Some (aget r i)) /\
    (atranspose x = None <-> exists i, aget x i = Some None).
Proof. exact @atranspose_spec. Qed.
Print Assumptions C59_options.

(** It succeeds for no other list without a single alternative: sizes that differ are refused. *)
Theorem C59_transpose_sizes : forall U (args : list (aoov U)) r,
    transpose_iter args = Some r -> exists n, Forall (covers n) args.
Proof. exact @transpose_sizes. Qed.
Print Assumptions C59_transpose_sizes.

Theorem C59_bind_pointwise : forall U U2 n (x : aoov U) (f : U -> option (aoov U2)),
    covers n x -> (forall u, exists r, f u = Some r /\ covers n r) -> exists r,
    abind x f = Some r /\ covers n r /\
    forall i u, i < n -> aget x i = Some u -> exists y, f u = Some y /\ aget r i = aget y i.
Proof. exact @bind_pointwise. Qed.
Print Assumptions C59_bind_pointwise.

(** A value known for a single alternative cannot be combined with anything, not even with itself alone: panic. *)
Theorem C59_single_alternative_refuted : forall U (args : list (aoov U)),
    (exists i u, In (One i u) args) -> transpose_iter args = None.
Proof. exact @transpose_one_panics. Qed.
Print Assumptions C59_single_alternative_refuted.

Example C59_example :
  Forall (covers 2) [All [1; 2]; Any 7; All [3; 4]] /\
  transpose_iter [All [1; 2]; Any 7; All [3; 4]] = Some (All [[1; 7; 3]; [2; 7; 4]]) /\
  transpose_iter [One 0 1; One 0 2] = None.
Proof. repeat split; repeat constructor. Qed.

(** C60. Iterating (by reference or by value, from both ends) goes through the elements, and [get i] is the [i]-th. *)
Theorem C60_iter_get : forall T (v : vecref T),
    is_deque iv_next iv_next_back iv_size_hint (vr_iter v) (vr_elems v) /\
    is_deque iv_next iv_next_back iv_size_hint (vr_into_iter v) (vr_elems v) /\
    (forall i, vr_get v i = nth_error (vr_elems v) i).
Proof. exact @c60_iter. Qed.
Print Assumptions C60_iter_get.

Theorem C60_clone_iter_get : forall T (v : vecref_clone T),
    is_deque iv_next iv_next_back iv_size_hint (vc_iter v) (vc_elems v) /\
    is_deque ic_next ic_next_back ic_size_hint (vc_into_iter v) (vc_elems v) /\
    (forall i, vc_get v i = nth_error (vc_elems v) i).
Proof. exact @c60_clone_iter. Qed.
Print Assumptions C60_clone_iter_get.

(** [len] and [is_empty] are right except for the single-element representation. *)
Theorem C60_len_partial : forall T (v : vecref T), (forall x, v <> VSingle x) ->
    vr_len v = length (vr_elems v) /\ (vr_is_empty v = true <-> vr_elems v = []).
Proof. exact @c60_len. Qed.
Print Assumptions C60_len_partial.

Theorem C60_clone_len_partial : forall T (v : vecref_clone T), (forall x, v <> CVecRef (VSingle x)) ->
    vc_len v = length (vc_elems v) /\ (vc_is_empty v = true <-> vc_elems v = []).
Proof. exact @c60_clone_len. Qed.
Print Assumptions C60_clone_len_partial.

(** A single element has length 0 and is reported empty. *)
Theorem C60_len_refuted : forall T (x : T),
    vr_len (VSingle x) = 0 /\ vr_is_empty (VSingle x) = true /\ vr_get (VSingle x) 0 = Some x.
Proof. exact (fun T x => conj eq_refl (conj eq_refl eq_refl)). Qed.
Print Assumptions C60_len_refuted.

Example C60_example :
  calls iv_next iv_next_back [false; true; true; false] (vr_into_iter (VVec [1; 2; 3]))
  = Some ([Some 1; Some 3; Some 2; None], IOwnedVec ArcEmpty).
Proof. reflexivity. Qed.

(** C61. *)
Theorem C61_arc_iter_deque : forall T (data : list T) (it : arc_iter T), (it = arc_from data \/ it = arc_from_ref data) ->
    is_deque arc_next arc_next_back arc_size_hint it data /\
    (forall ops rs it', calls arc_next arc_next_back ops it = Some (rs, it') ->
       deque data (combine ops rs) (arc_collect it')).
Proof. exact @c61. Qed.
Print Assumptions C61_arc_iter_deque.

Example C61_example :
  calls arc_next arc_next_back [true; false; true; true] (arc_from_ref [1; 2; 3]) = Some ([Some 3; Some 1; Some 2; None], ArcEmpty).
Proof. reflexivity. Qed.

(** C62. With comparable fields the verdict is lexicographic. *)
Theorem C62_lexicographic_partial : forall f1 fields, Forall (fun f => f <> None) (f1 :: fields) ->
    lexicographic (f1 :: fields) (partial_order f1 fields).
Proof. exact partial_order_lex. Qed.
Print Assumptions C62_lexicographic_partial.

(** One incomparable field anywhere makes the verdict [None], even after a decisive field. *)
Theorem C62_incomparable_absorbs : forall f1 fields, In None (f1 :: fields) -> partial_order f1 fields = None.
Proof. exact partial_order_none. Qed.
Print Assumptions C62_incomparable_absorbs.

Theorem C62_lexicographic_refuted : exists f1 fields r,
    lexicographic (f1 :: fields) r /\ partial_order f1 fields <> r.
Proof. exact partial_order_not_lex. Qed.
Print Assumptions C62_lexicographic_refuted.

Theorem C62_infinity_total_order :
  (forall x y, match inf_cmp x y with
               | Eq => x = y | Lt => inf_le x y /\ x <> y | Gt => inf_le y x /\ x <> y end) /\
  (forall x, inf_le x x) /\ (forall x y z, inf_le x y -> inf_le y z -> inf_le x z) /\
  (forall x y, inf_le x y -> inf_le y x -> x = y) /\ (forall x y, inf_le x y \/ inf_le y x) /\
  (forall lo hi x, range_contains lo hi x = true <-> inf_le lo x /\ inf_le x hi).
Proof. exact c62_infinity. Qed.
Print Assumptions C62_infinity_total_order.

(** Sorting two elements of a total preorder orders them and loses none. *)
Theorem C62_sort2 : forall A (cmp : A -> A -> option comparison) (le : A -> A -> Prop),
    (forall a b, cmp a b = Some Lt -> le a b) ->
    (forall a b, cmp a b <> Some Lt -> le b a) ->
    forall a b, let (x, y) := sort2 cmp a b in le x y /\ Permutation [a; b] [x; y].
Proof. exact @sort2_spec. Qed.
Print Assumptions C62_sort2.

Example C62_example :
  partial_order (Some Eq) [Some Gt; Some Lt] = Some Gt /\ partial_order (Some Lt) [None] = None /\
  range_contains (Num 2) HighInfinity (Num 5) = true /\ sort2 (fun a b => Some (Nat.compare a b)) 4 2 = (2, 4).
Proof. repeat split. Qed.

(** C63. *)
Theorem C63_bag_iter : forall U (b : bag U), exists n out,
    (forall m, n <= m -> bag_collect m (bag_start b) = Some out) /\ Permutation out (bag_elems b).
Proof. exact @c63. Qed.
Print Assumptions C63_bag_iter.

Theorem C63_bag_iter_fused : forall U fuel (it it' : @bag_iter U), bag_next fuel it = Some (None, it') ->
    forall m, bag_next (S m) it' = Some (None, it').
Proof. exact @bag_fused. Qed.
Print Assumptions C63_bag_iter_fused.

Example C63_example :
  bag_collect 20 (bag_start (Bag [1] [Bag [2; 3] [Bag [] []]; Bag [4] [Bag [5] []]])) = Some [1; 4; 5; 2; 3].
Proof. reflexivity. Qed.

(** C67. Laws of the alternatives as a computation: right identity always, left identity unless the continuation
    selects one alternative, associativity whenever both sides return. *)
Theorem C67_right_identity : forall U (x : aoov U), abind x (fun u => Some (apure u)) = Some x.
Proof. exact @bind_right. Qed.
Print Assumptions C67_right_identity.

Theorem C67_left_identity_partial : forall U U2 (u : U) (f : U -> option (aoov U2)) y,
    f u = Some y -> (forall i z, y <> One i z) -> abind (apure u) f = Some y.
Proof. exact @bind_left. Qed.
Print Assumptions C67_left_identity_partial.

Theorem C67_left_identity_refuted : exists (u : nat) (f : nat -> option (aoov nat)), abind (apure u) f <> f u.
Proof. exact bind_left_fails. Qed.
Print Assumptions C67_left_identity_refuted.

Theorem C67_associative : forall U V W (x : aoov U) (f : U -> option (aoov V)) (g : V -> option (aoov W)) y z w,
    abind x f = Some y -> abind y g = Some z ->
    abind x (fun u => match f u with None => None | Some v => abind v g end) = Some w -> z = w.
Proof. exact @abind_assoc. Qed.
Print Assumptions C67_associative.

Example C67_example :
  abind (All [1; 2]) (fun u => Some (All [u; u + 10])) = Some (All [1; 12]) /\
  abind (All [1; 12]) (fun v => Some (Any (v * 2))) = Some (All [2; 24]) /\
  abind (All [1; 2]) (fun u => abind (All [u; u + 10]) (fun v => Some (Any (v * 2)))) = Some (All [2; 24]).
Proof. repeat split. Qed.

(** C68. *)
Theorem C68_collect_exact : forall U n (items arr : list U),
    (collect_exact n items = inl arr <-> length items = n /\ arr = items) /\
    (collect_exact n items = inr TooMany <-> n < length items) /\
    (collect_exact n items = inr NotEnough <-> length items < n).
Proof. exact @collect_exact_spec. Qed.
Print Assumptions C68_collect_exact.

Theorem C68_collect_fallible_partial : forall U E n (us : list U),
    collect_exact_result (E:=E) n (map inl us) =
    match collect_exact n us with inl a => inl (inl a) | inr e => inr e end.
Proof. exact @collect_exact_result_ok. Qed.
Print Assumptions C68_collect_fallible_partial.

(** In general: of the items the first [n] count. If these have an error, the first is the answer, unless a good item comes after it; if they have none and
    are enough, they are the answer, unless a good item comes after them. *)
Theorem C68_fallible_partial : forall U E n (us : list U) (rest : list (U + E)),
    (length us = n -> (forall u, ~ In (inl u) rest) -> collect_exact_result n (map inl us ++ rest) = inl (inl us)) /\
    (length us = n -> (exists u, In (inl u) rest) -> collect_exact_result n (map inl us ++ rest) = inr TooMany) /\
    (forall e, length us < n -> (forall u, ~ In (inl u) rest) -> collect_exact_result n (map inl us ++ inr e :: rest) = inl (inr e)) /\
    (forall e, length us < n -> (exists u, In (inl u) rest) -> collect_exact_result n (map inl us ++ inr e :: rest) = inr TooMany).
Proof. exact @collect_fallible. Qed.
Print Assumptions C68_fallible_partial.

(** An error followed by another item of the right number is reported as "too many"; a trailing error is accepted. *)
Theorem C68_collect_fallible_refuted :
  collect_exact_result 2 [inr 7; inl 1] = inr TooMany /\ collect_exact_result 1 [inl 1; inr 7] = inl (inl [1]).
Proof. exact collect_exact_result_bad. Qed.
Print Assumptions C68_collect_fallible_refuted.

Example C68_example : collect_exact 2 [5; 6] = inl [5; 6] /\ collect_exact 2 [5; 6; 7] = inr TooMany.
Proof. split; reflexivity. Qed.
