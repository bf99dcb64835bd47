(** Containers and comparisons of crates/utils, and the bag of crates/indistinguishability.
    References are identified with the values they point to. [None] stands for a panic unless said otherwise. *)
From Coq Require Import List Arith Bool.
Import ListNotations.

(** A slice iterator of the standard library: the list of remaining elements. *)
Section Slice.
  Context {T : Type}.
  Definition slice_next (l : list T) : option T * list T :=
    match l with [] => (None, []) | x :: l' => (Some x, l') end.
  Fixpoint slice_next_back (l : list T) : option T * list T :=
    match l with
    | [] => (None, [])
    | x :: l' => match slice_next_back l' with
                 | (None, _) => (Some x, [])
                 | (Some y, l'') => (Some y, x :: l'')
                 end
    end.
End Slice.

(** ** crates/utils/src/arc_into_iter.rs *)
Section Arc.
  Context {T : Type}.

  (** arc_into_iter.rs 4-11. *)
  Inductive arc_iter : Type :=
  | ArcEmpty
  | ArcIter (data : list T) (index end_ : nat).

  (** 22-36 [next]. *)
  Definition arc_next (it : arc_iter) : option (option T * arc_iter) :=
    match it with
    | ArcEmpty => Some (None, ArcEmpty)
    | ArcIter data index end_ =>
        if negb (Nat.eqb index end_) then
          match nth_error data index with
          | None => None
          | Some e => Some (Some e, ArcIter data (index + 1) end_)
          end
        else Some (None, ArcEmpty)
    end.

  (** 70-84 [next_back]; [*end -= 1] underflows (panics in the subsequent access) at 0. *)
  Definition arc_next_back (it : arc_iter) : option (option T * arc_iter) :=
    match it with
    | ArcEmpty => Some (None, ArcEmpty)
    | ArcIter data index end_ =>
        if negb (Nat.eqb index end_) then
          match end_ with
          | O => None
          | S e => match nth_error data e with
                   | None => None
                   | Some x => Some (Some x, ArcIter data index e)
                   end
          end
        else Some (None, ArcEmpty)
    end.

  (** 38-50 [size_hint]: both components are the same number. *)
  Definition arc_size_hint (it : arc_iter) : nat :=
    match it with ArcEmpty => 0 | ArcIter _ index end_ => end_ - index end.

  (** 52-62 [collect]: the slice [index..end]. *)
  Definition arc_collect (it : arc_iter) : list T :=
    match it with ArcEmpty => [] | ArcIter data index end_ => firstn (end_ - index) (skipn index data) end.

  (** 87-95 [From<Arc<[T]>>]; 97-123 [From<&Arc<[T]>>], [From<[T; N]>]. *)
  Definition arc_from (data : list T) : arc_iter := ArcIter data 0 (length data).
  Definition arc_from_ref (data : list T) : arc_iter :=
    if Nat.eqb (length data) 0 then ArcEmpty else ArcIter data 0 (length data).
End Arc.
Arguments arc_iter : clear implicits.

(** ** crates/utils/src/vecref.rs *)
Section VecRef.
  Context {T : Type}.

  (** vecref.rs 19-25. *)
  Inductive vecref : Type :=
  | VVec (l : list T)
  | VRef (l : list T)
  | VRefRef (l : list T)
  | VSingle (x : T)
  | VEmpty.

  (** 34-42 [len], 44-46 [is_empty], 48-56 [get]. *)
  Definition vr_len (v : vecref) : nat :=
    match v with
    | VVec l | VRef l | VRefRef l => length l
    | VSingle _ => 0
    | VEmpty => 0
    end.
  Definition vr_is_empty (v : vecref) : bool := Nat.eqb (vr_len v) 0.
  Definition vr_get (v : vecref) (i : nat) : option T :=
    match v with
    | VVec l | VRef l | VRefRef l => nth_error l i
    | VSingle e => if Nat.eqb i 0 then Some e else None
    | VEmpty => None
    end.

  (** 125-131 [IterVecRef]. *)
  Inductive iter_vecref : Type :=
  | IOwnedVec (it : arc_iter T)
  | IVec (l : list T)
  | IRef (l : list T)
  | ISingle (x : T)
  | IEmpty.

  (** 97-105 [(&v).into_iter()], which is [iter]; 113-121 [v.into_iter()]. *)
  Definition vr_iter (v : vecref) : iter_vecref :=
    match v with
    | VVec l => IRef l
    | VRef l => IVec l
    | VRefRef l => IRef l
    | VSingle e => ISingle e
    | VEmpty => IEmpty
    end.
  Definition vr_into_iter (v : vecref) : iter_vecref :=
    match v with
    | VVec l => IOwnedVec (arc_from l)
    | VRef l => IVec l
    | VRefRef l => IRef l
    | VSingle e => ISingle e
    | VEmpty => IEmpty
    end.

  (** 136-148 [next]. *)
  Definition iv_next (it : iter_vecref) : option (option T * iter_vecref) :=
    match it with
    | IOwnedVec a => match arc_next a with None => None | Some (x, a') => Some (x, IOwnedVec a') end
    | IVec l => let (x, l') := slice_next l in Some (x, IVec l')
    | IRef l => let (x, l') := slice_next l in Some (x, IRef l')
    | ISingle e => Some (Some e, IEmpty)
    | IEmpty => Some (None, IEmpty)
    end.

  (** 179-187 [next_back]. *)
  Definition iv_next_back (it : iter_vecref) : option (option T * iter_vecref) :=
    match it with
    | IOwnedVec a => match arc_next_back a with None => None | Some (x, a') => Some (x, IOwnedVec a') end
    | IVec l => let (x, l') := slice_next_back l in Some (x, IVec l')
    | IRef l => let (x, l') := slice_next_back l in Some (x, IRef l')
    | ISingle _ => iv_next it
    | IEmpty => Some (None, IEmpty)
    end.

  (** 150-158 [size_hint]. *)
  Definition iv_size_hint (it : iter_vecref) : nat :=
    match it with
    | IOwnedVec a => arc_size_hint a
    | IVec l | IRef l => length l
    | ISingle _ => 1
    | IEmpty => 0
    end.

  (** 253-260 [VecRefClone]; 263-278 [len], [is_empty], [get]. *)
  Inductive vecref_clone : Type :=
  | CVecRef (v : vecref)
  | CVec (l : list T)
  | COwned (x : T).
  Definition vc_len (v : vecref_clone) : nat :=
    match v with CVecRef x => vr_len x | CVec l => length l | COwned _ => 1 end.
  Definition vc_is_empty (v : vecref_clone) : bool :=
    match v with CVecRef x => vr_is_empty x | CVec l => Nat.eqb (length l) 0 | COwned _ => false end.
  Definition vc_get (v : vecref_clone) (i : nat) : option T :=
    match v with
    | CVecRef x => vr_get x i
    | CVec l => nth_error l i
    | COwned x => if Nat.eqb i 0 then Some x else None
    end.

  (** 304-310 [(&v).into_iter()]. *)
  Definition vc_iter (v : vecref_clone) : iter_vecref :=
    match v with
    | CVecRef x => vr_iter x
    | CVec l => vr_iter (VRef l)
    | COwned x => vr_iter (VSingle x)
    end.

  (** 328-335 [IntoIterVecRefClone]; 318-324 [v.into_iter()]; 352-364 [next]; 366-372; 391-397. *)
  Inductive into_iter_clone : Type :=
  | JVecRef (it : iter_vecref)
  | JVec (it : arc_iter T)
  | JOne (x : T).
  Definition vc_into_iter (v : vecref_clone) : into_iter_clone :=
    match v with
    | CVecRef x => JVecRef (vr_into_iter x)
    | CVec l => JVec (arc_from l)
    | COwned x => JOne x
    end.
  Definition ic_next (it : into_iter_clone) : option (option T * into_iter_clone) :=
    match it with
    | JVecRef a => match iv_next a with None => None | Some (x, a') => Some (x, JVecRef a') end
    | JVec a => match arc_next a with None => None | Some (x, a') => Some (x, JVec a') end
    | JOne x => Some (Some x, JVecRef IEmpty)
    end.
  Definition ic_next_back (it : into_iter_clone) : option (option T * into_iter_clone) :=
    match it with
    | JVecRef a => match iv_next_back a with None => None | Some (x, a') => Some (x, JVecRef a') end
    | JVec a => match arc_next_back a with None => None | Some (x, a') => Some (x, JVec a') end
    | JOne _ => ic_next it
    end.
  Definition ic_size_hint (it : into_iter_clone) : nat :=
    match it with JVecRef a => iv_size_hint a | JVec a => arc_size_hint a | JOne _ => 1 end.
End VecRef.
Arguments vecref : clear implicits.
Arguments iter_vecref : clear implicits.
Arguments vecref_clone : clear implicits.
Arguments into_iter_clone : clear implicits.

(** A history of calls on an iterator: [false] is [next], [true] is [next_back]. *)
Section Calls.
  Context {S T : Type}.
  Variables next back : S -> option (option T * S).
  Fixpoint calls (ops : list bool) (s : S) : option (list (option T) * S) :=
    match ops with
    | [] => Some ([], s)
    | o :: ops' =>
        match (if o then back else next) s with
        | None => None
        | Some (r, s') => match calls ops' s' with None => None | Some (rs, s'') => Some (r :: rs, s'') end
        end
    end.
End Calls.

(** ** Comparisons *)

(** [Ordering::then]. *)
Definition then_ (a b : comparison) : comparison := match a with Eq => b | _ => a end.

(** crates/utils/src/fast_partial_cmp.rs 4-12: the fields' own verdicts, in the order of the fields. *)
Fixpoint pc_fold (acc : option comparison) (fields : list (option comparison)) : option comparison :=
  match fields with
  | [] => acc
  | no :: rest =>
      pc_fold (match acc with
               | None => None
               | Some o => match no with None => None | Some nno => Some (then_ o nno) end
               end) rest
  end.
Definition partial_order (field1 : option comparison) (fields : list (option comparison)) : option comparison :=
  pc_fold field1 fields.

(** crates/utils/src/infinity.rs 3-8: the derived [Ord] compares the position of the variant, then the content. *)
Inductive infinity : Type := LowInfinity | Num (n : nat) | HighInfinity.
Definition inf_rank (x : infinity) : nat := match x with LowInfinity => 0 | Num _ => 1 | HighInfinity => 2 end.
Definition inf_cmp (x y : infinity) : comparison :=
  match x, y with
  | Num a, Num b => Nat.compare a b
  | _, _ => Nat.compare (inf_rank x) (inf_rank y)
  end.

(** [RangeInclusive::contains] as used by the arity checks. *)
Definition inf_leb (x y : infinity) : bool := match inf_cmp x y with Gt => false | _ => true end.
Definition range_contains (lo hi x : infinity) : bool := inf_leb lo x && inf_leb x hi.

(** crates/utils/src/ord_util.rs 18-27 [sort_by]; 4-15 [sort]. *)
Definition sort_by {A} (f : A -> A -> bool) (a b : A) : A * A := if f a b then (a, b) else (b, a).
Definition sort2 {A} (cmp : A -> A -> option comparison) (a b : A) : A * A :=
  sort_by (fun a b => match cmp a b with Some Lt => true | _ => false end) a b.

(** ** Bags: crates/indistinguishability/src/mutils/mod.rs *)
Section Bag.
  Context {U : Type}.
  (** 8-15. *)
  Inductive bag : Type := Bag (top : list U) (lower : list bag).
  (** 23-27 [BagIter]; the last element of the vector [pile] is the head of the list. *)
  Definition bag_iter : Type := list U * list bag.
  (** 32-44 [next]; the outer [None] is running out of fuel. *)
  Fixpoint bag_next (fuel : nat) (it : bag_iter) : option (option U * bag_iter) :=
    match fuel with
    | O => None
    | S n =>
        let (current, pile) := it in
        match current with
        | x :: current' => Some (Some x, (current', pile))
        | [] => match pile with
                | [] => Some (None, ([], []))
                | Bag top lower :: pile' => bag_next n (top, rev lower ++ pile')
                end
        end
    end.
  (** 48-53 [iter]. *)
  Definition bag_start (b : bag) : bag_iter := match b with Bag top lower => (top, rev lower) end.
  (** What a [for] loop sees. *)
  Fixpoint bag_collect (fuel : nat) (it : bag_iter) : option (list U) :=
    match fuel with
    | O => None
    | S n => match bag_next fuel it with
             | None => None
             | Some (None, _) => Some []
             | Some (Some x, it') => match bag_collect n it' with None => None | Some l => Some (x :: l) end
             end
    end.
End Bag.
Arguments bag : clear implicits.

(** ** Alternatives: crates/utils/src/all_or_one.rs *)
(** [mapM] with panics. *)
Fixpoint mapO {A B} (f : A -> option B) (l : list A) : option (list B) :=
  match l with
  | [] => Some []
  | a :: l' => match f a with
               | None => None
               | Some b => match mapO f l' with None => None | Some bs => Some (b :: bs) end
               end
  end.

(** all_or_one.rs 13-17, 19, 21. *)
Inductive aoo (U V : Type) : Type :=
| All (l : V)
| Any (x : U)
| One (i : nat) (x : U).
Arguments All {U V}. Arguments Any {U V}. Arguments One {U V}.
Definition shape : Type := aoo unit nat.
Definition aoov (U : Type) : Type := aoo U (list U).

(** 24-48 [try_merge]: [None] is the answer [None]. *)
Definition try_merge (a b : shape) : option shape :=
  match a, b with
  | One i _, One j _ => if Nat.eqb i j then Some (One i tt) else None
  | One _ _, _ => None
  | _, One _ _ => None
  | All i, All j => if Nat.eqb i j then Some (All i) else None
  | All i, Any _ => Some (All i)
  | Any _, All i => Some (All i)
  | Any _, Any _ => Some (Any tt)
  end.

(** 79-85 [shape], 100-107 [get], 136-146 [map], 155-162 [owned_get] ([None]: panic). *)
Definition shape_of {U} (x : aoov U) : shape :=
  match x with All l => All (length l) | Any _ => Any tt | One i _ => One i tt end.
Definition aget {U} (x : aoov U) (i : nat) : option U :=
  match x with All l => nth_error l i | Any x => Some x | One j x => if Nat.eqb i j then Some x else None end.
Definition amap {U U2} (f : U -> U2) (x : aoov U) : aoov U2 :=
  match x with All l => All (map f l) | Any x => Any (f x) | One i x => One i (f x) end.
Definition owned_get {U} (x : aoov U) (i : nat) : option U := aget x i.

(** The fold of lines 199-202; [merge] (50-52) unwraps. *)
Fixpoint merge_all (acc : shape) (l : list shape) : option shape :=
  match l with
  | [] => Some acc
  | s :: l' => match try_merge acc s with None => None | Some a => merge_all a l' end
  end.

(** 197-215 [transpose_iter]. *)
Definition transpose_iter {U} (args : list (aoov U)) : option (aoov (list U)) :=
  match merge_all (Any tt) (map shape_of args) with
  | None => None
  | Some (All size) =>
      match mapO (fun i => mapO (fun x => aget x i) args) (seq 0 size) with
      | None => None
      | Some l => Some (All l)
      end
  | Some (Any _) => match mapO (fun x => owned_get x 0) args with None => None | Some l => Some (Any l) end
  | Some (One i _) => match mapO (fun x => owned_get x i) args with None => None | Some l => Some (One i l) end
  end.

(** 165-180 [monad_continue], which is [bind] (274-276); 270-272 [pure]. [f] may panic. *)
Definition apure {U} (x : U) : aoov U := Any x.
Definition abind {U U2} (x : aoov U) (f : U -> option (aoov U2)) : option (aoov U2) :=
  match x with
  | All l =>
      match mapO (fun p => match f (snd p) with None => None | Some y => owned_get y (fst p) end)
                 (combine (seq 0 (length l)) l) with
      | None => None
      | Some l' => Some (All l')
      end
  | Any e => match f e with
             | None => None
             | Some (One _ _) => None
             | Some r => Some r
             end
  | One i e => match f e with
               | None => None
               | Some y => match owned_get y i with None => None | Some z => Some (One i z) end
               end
  end.

(** 218-230 [transpose] for options: [None] is the answer [None]. *)
Definition atranspose {U} (x : aoov (option U)) : option (aoov U) :=
  match x with
  | All l => match mapO (fun o => o) l with None => None | Some l' => Some (All l') end
  | Any (Some a) => Some (Any a)
  | One i (Some a) => Some (One i a)
  | _ => None
  end.

(** ** Fixed-size collection: crates/utils/src/iter_array.rs *)
Inductive wrong_length : Type := TooMany | NotEnough.

(** 62-71 and 49-55: [collect_array_exact] of plain items; the result is the array or the error. *)
Definition collect_exact {U} (n : nat) (items : list U) : list U + wrong_length :=
  let arr := firstn n items in
  if Nat.eqb (length arr) n
  then match skipn n items with [] => inl arr | _ :: _ => inr TooMany end
  else inr NotEnough.

(** 78-91 and 49-55: fallible items. [take(n).collect::<Result<Vec<_>, _>>] stops at the first error, having consumed
    it; the left-over is what remains, without the errors. *)
Fixpoint take_collect {U E} (n : nat) (items : list (U + E)) : (list U + E) * list (U + E) :=
  match n, items with
  | O, _ => (inl [], items)
  | S n', [] => (inl [], [])
  | S n', inr e :: rest => (inr e, rest)
  | S n', inl u :: rest =>
      match take_collect n' rest with
      | (inl us, rem) => (inl (u :: us), rem)
      | (inr e, rem) => (inr e, rem)
      end
  end.
Definition oks {U E} (l : list (U + E)) : list U :=
  flat_map (fun x => match x with inl u => [u] | inr _ => [] end) l.
Definition collect_exact_result {U E} (n : nat) (items : list (U + E)) : (list U + E) + wrong_length :=
  let '(vec, rem) := take_collect n items in
  let finish arr := match oks rem with [] => inl arr | _ :: _ => inr TooMany end in
  match vec with
  | inr e => finish (inr e)
  | inl us => if Nat.eqb (length us) n then finish (inl us) else inr NotEnough
  end.
