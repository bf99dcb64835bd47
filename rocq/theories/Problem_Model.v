(** Problems: their declarations (problem/problem/mod.rs), the iteration over lemmas (problem/problem/pbl_iterator.rs, lib.rs) and the
    construction of a protocol (problem/protocol.rs). *)
From Coq Require Import List Arith Bool.
From Verif Require Import Syntax_Model.
Import ListNotations.

(** ** Lemmas *)

(** problem/problem/mod.rs 38-62, the fields that the iteration changes. *)
Record problem : Type := mkProblem { pb_assertions : list formula; pb_lemmas : list formula; pb_query : formula }.
(** pbl_iterator.rs 7-14. *)
Inductive istate : Type := NoLemma | Done | WithLemma.
Record piter : Type := mkIter { it_pbl : problem; it_state : istate }.

(** pbl_iterator.rs 98-113 [new]. *)
Definition pbl_new (p : problem) (with_lemmas : bool) : piter :=
  if with_lemmas then mkIter (mkProblem (pb_assertions p) (pb_lemmas p ++ [pb_query p]) TRUE) WithLemma else mkIter p NoLemma.
(** pbl_iterator.rs 56-75 [next]. *)
Definition pbl_next (it : piter) : option problem * piter :=
  match it_state it with
  | Done => (None, it)
  | NoLemma => (Some (it_pbl it), mkIter (it_pbl it) Done)
  | WithLemma =>
      match pb_lemmas (it_pbl it) with
      | nq :: l => let p := mkProblem (pb_assertions (it_pbl it) ++ [pb_query (it_pbl it)]) l nq in (Some p, mkIter p WithLemma)
      | [] => (None, mkIter (it_pbl it) Done)
      end
  end.
(** pbl_iterator.rs 81-83 [len]. *)
Definition pbl_len (it : piter) : nat := List.length (pb_lemmas (it_pbl it)).
(** pbl_iterator.rs 96-98 [assert_one]. *)
Definition assert_one (it : piter) : bool := match it_state it with NoLemma => true | _ => false end.

(** lib.rs 106-118 [auto_run]: run every problem, in order, and stop at the first error; [None]: the fuel ran out. [X]: what a run may
    change, the other fields of the problem (runners.rs 84-89) and the world. *)
Section AutoRun.
  Context {X R E : Type} (run : X -> problem -> X * (R + E)).
  Fixpoint auto_run (fuel : nat) (x : X) (it : piter) : option (list R + E) :=
    match fuel with
    | 0 => None
    | S fuel' =>
        match pbl_next it with
        | (None, _) => Some (inl [])
        | (Some p, it') =>
            match run x p with
            | (_, inr e) => Some (inr e)
            | (x', inl r) =>
                match auto_run fuel' x' it' with
                | Some (inl rs) => Some (inl (r :: rs))
                | o => o
                end
            end
        end
    end.
End AutoRun.

(** ** Declarations *)
Section Declarations.
  (** [F]: functions; sorts are numbered in their order. *)
  Context {F : Type} (builtin always_datatype term_algebra : F -> bool) (outsort : F -> option nat) (symbolic : bool).
  (** formula/file_descriptior/declare.rs 9-29; destructors are left out. *)
  Inductive declaration : Type :=
  | DSort (s : nat)
  | DAlias (from to : nat)
  | DDataTypes (l : list (nat * list F))
  | DFun (f : F)
  | DSubterm (f : F) (comm : list F).

  (** [datatypes.entry(s).or_default().push(f)] on a map in the order of its keys. *)
  Fixpoint add_constructor (s : nat) (f : F) (m : list (nat * list F)) : list (nat * list F) :=
    match m with
    | [] => [(s, [f])]
    | (k, l) :: m' =>
        if s =? k then (k, l ++ [f]) :: m' else if s <? k then (s, [f]) :: (k, l) :: m' else (k, l) :: add_constructor s f m'
    end.
  (** mod.rs 195-209. *)
  Fixpoint partition_functions (fs : list F) (m : list (nat * list F)) (free : list F) : option (list (nat * list F) * list F) :=
    match fs with
    | [] => Some (m, free)
    | f :: fs' =>
        if builtin f then partition_functions fs' m free
        else if always_datatype f || (term_algebra f && symbolic) then
          match outsort f with Some s => partition_functions fs' (add_constructor s f m) free | None => None end
        else partition_functions fs' m (free ++ [f])
    end.
  (** mod.rs 183-218 for sorts [ss], with [keep] the two filters. *)
  Definition declare (keep : nat -> bool) (ss : list nat) (fs : list F) : option (list declaration) :=
    match partition_functions fs [] [] with
    | Some (m, free) => Some (map DSort (filter keep ss) ++ map DFun free ++ [DDataTypes m])
    | None => None
    end.
  (** mod.rs 258 [declarations.sort()], a stable sort. *)
  Fixpoint insert_decl (le : declaration -> declaration -> bool) (d : declaration) (l : list declaration) : list declaration :=
    match l with [] => [d] | e :: l' => if le d e then d :: l else e :: insert_decl le d l' end.
  Fixpoint sort_decls (le : declaration -> declaration -> bool) (l : list declaration) : list declaration :=
    match l with [] => [] | d :: l' => insert_decl le d (sort_decls le l') end.
End Declarations.
Arguments declaration : clear implicits.

(** ** Protocols *)
Section Protocol.
  Context {S : Type} (is_init : S -> bool).
  (** [position]. *)
  Fixpoint position (l : list S) : option nat :=
    match l with [] => None | s :: l' => if is_init s then Some 0 else option_map Datatypes.S (position l') end.
  (** [swap(0, i)]; [None]: an index out of bounds. *)
  Definition swap0 (i : nat) (l : list S) : option (list S) :=
    match i, l with
    | 0, _ :: _ => Some l
    | Datatypes.S j, a :: l' => match nth_error l' j with Some b => Some (b :: firstn j l' ++ a :: skipn (Datatypes.S j) l') | None => None end
    | _, [] => None
    end.
  (** protocol.rs 50-76 [new], the steps; [None]: a panic. *)
  Definition protocol_steps (l : list S) : option (list S) := match position l with Some i => swap0 i l | None => None end.
  (** protocol.rs 166-169; [None]: a panic. *)
  Definition steps_without_init (l : list S) : option (list S) := match l with _ :: l' => Some l' | [] => None end.
End Protocol.
