(** The container: allocation, initialisation and reading of definitions, and names.
    Paths are relative to /repo/crates/cryptovampire/src/container. *)
From Coq Require Import List Arith Bool Ascii String.
From Verif Require Import Squirrel_Model Smt_Model.
Import ListNotations.
Local Open Scope list_scope.

(** container.rs 28-33: the four lists of definitions. *)
Inductive bin : Type := BSort | BFunction | BStep | BCell.

Section Container.
  (** The definitions, and their names ([RefNamed::name_ref]). *)
  Variable V : Type.
  Variable name_of : V -> text.

  (** The memory: every definition ever allocated with the list it belongs to, [None] while it is not initialised; a
      pointer is a position. Nothing is freed while the container lives (container.rs 79-91). [counter] is the static
      [UNIQUE_FUNCTIONS] (105). *)
  Record store : Type := mkStore { cells : list (bin * option V); counter : nat }.
  Definition value (st : store) (r : nat) : option V :=
    match nth_error (cells st) r with Some (_, v) => v | None => None end.

  Fixpoint write (l : list (bin * option V)) (r : nat) (v : V) : list (bin * option V) :=
    match l, r with
    | [], _ => []
    | (b, _) :: l', 0 => (b, Some v) :: l'
    | c :: l', S r' => c :: write l' r' v
    end.

  (** container.rs 45-57, allocator.rs 39-45 [allocate_pointee]. *)
  Definition allocate (st : store) (b : bin) (v : option V) : store * nat :=
    (mkStore (cells st ++ [(b, v)]) (counter st), List.length (cells st)).
  (** contained.rs 57-75 [initialize_with], allocator.rs 158-169 [initialize]; [false]: [AlreadyInitialized]. *)
  Definition initialize (st : store) (r : nat) (v : V) : store * bool :=
    match value st r with
    | None => (mkStore (write (cells st) r v) (counter st), true)
    | Some _ => (st, false)
    end.
  (** container.rs 109-112 [find_free_function_name]: [AtomicU16::fetch_add] wraps around. *)
  Definition free_name (st : store) (base : text) : store * text :=
    (mkStore (cells st) (Nat.modulo (S (counter st)) (2 ^ 16)), str "_" ++ dec (counter st) ++ str "$" ++ base).
  (** container.rs 118-153 [name_hash_set]. *)
  Definition name_set (st : store) : list text :=
    flat_map (fun c => match snd c with Some v => [name_of v] | None => [] end) (cells st).
  (** container.rs 114-116 [is_name_available]. *)
  Definition is_name_available (st : store) (n : text) : bool := existsb (text_eqb n) (name_set st).

  (** container.rs 155-163 [get_function_hash_map]: the functions then the built-in ones, later entries replacing
      earlier ones; [None]: the name of a function that is not initialised is read, a panic. *)
  Fixpoint function_entries (l : list (bin * option V)) (r : nat) : option (list (text * nat)) :=
    match l with
    | [] => Some []
    | (BFunction, Some v) :: l' => option_map (cons (name_of v, r)) (function_entries l' (S r))
    | (BFunction, None) :: _ => None
    | _ :: l' => function_entries l' (S r)
    end.
  Definition function_map (st : store) (builtins : list (text * nat)) : option (text -> option nat) :=
    option_map (fun es n => option_map snd (find (fun e => text_eqb (fst e) n) (List.rev (es ++ builtins))))
               (function_entries (cells st) 0).

  (** Clients of the container. *)
  Inductive prog (A : Type) : Type :=
  | Ret (a : A)
  | Alloc (b : bin) (v : option V) (k : nat -> prog A)
  | Init (r : nat) (v : V) (k : bool -> prog A)
  | Read (r : nat) (k : option V -> prog A)
  | Fresh (base : text) (k : text -> prog A).
  Arguments Ret {A}. Arguments Alloc {A}. Arguments Init {A}. Arguments Read {A}. Arguments Fresh {A}.

  Fixpoint bind {A B} (p : prog A) (f : A -> prog B) : prog B :=
    match p with
    | Ret a => f a
    | Alloc b v k => Alloc b v (fun r => bind (k r) f)
    | Init r v k => Init r v (fun x => bind (k x) f)
    | Read r k => Read r (fun x => bind (k x) f)
    | Fresh n k => Fresh n (fun x => bind (k x) f)
    end.

  (** What can be observed: every operation with its answer. *)
  Inductive event : Type :=
  | EAlloc (r : nat) (v : option V)
  | EInit (r : nat) (v : V) (ok : bool)
  | ERead (r : nat) (v : option V)
  | EFresh (n : text).

  Fixpoint run {A} (p : prog A) (st : store) : list event * (A * store) :=
    match p with
    | Ret a => ([], (a, st))
    | Alloc b v k => let (st', r) := allocate st b v in let (es, x) := run (k r) st' in (EAlloc r v :: es, x)
    | Init r v k => let (st', ok) := initialize st r v in let (es, x) := run (k ok) st' in (EInit r v ok :: es, x)
    | Read r k => let (es, x) := run (k (value st r)) st in (ERead r (value st r) :: es, x)
    | Fresh base k => let (st', n) := free_name st base in let (es, x) := run (k n) st' in (EFresh n :: es, x)
    end.

  (** allocator.rs 103-122 [try_alloc_cyclic_with_residual] for one definition ([f] returns its content, or an error;
      the residual is part of what [f] does), 71-101 [alloc_cyclic] and [alloc_cyclic_with_residual]. *)
  Inductive cyclic_result (A : Type) : Type := CDone (a : A) | CFailed | CAlready | CPanic.
  Arguments CDone {A}. Arguments CFailed {A}. Arguments CAlready {A}. Arguments CPanic {A}.
  Definition cyclic1 (b : bin) (f : nat -> prog (option V)) : prog (cyclic_result nat) :=
    Alloc b None (fun r =>
      bind (f r) (fun c =>
        match c with
        | None => Ret CFailed
        | Some v => Init r v (fun ok => Ret (if ok then CDone r else CAlready))
        end)).
  (** Same for a pair: allocator.rs 187-230. *)
  Definition cyclic2 (b1 b2 : bin) (f : nat -> nat -> prog (option (V * V))) : prog (cyclic_result (nat * nat)) :=
    Alloc b1 None (fun r1 => Alloc b2 None (fun r2 =>
      bind (f r1 r2) (fun c =>
        match c with
        | None => Ret CFailed
        | Some (v1, v2) =>
            Init r1 v1 (fun ok1 => if ok1 then Init r2 v2 (fun ok2 => Ret (if ok2 then CDone (r1, r2) else CAlready))
                                   else Ret CAlready)
        end))).

  (** allocator.rs 55-63 [alloc_mulitple_uninit]. *)
  Fixpoint allocs {A} (b : bin) (n : nat) (k : list nat -> prog A) : prog A :=
    match n with 0 => k [] | S n' => Alloc b None (fun r => allocs b n' (fun rs => k (r :: rs))) end.
  (** allocator.rs 140-143: [zip_eq] panics at the end of the shorter side; [try_for_each] stops at the first error. *)
  Fixpoint inits (rs : list nat) (vs : list V) (done : list nat) : prog (cyclic_result (list nat)) :=
    match rs, vs with
    | [], [] => Ret (CDone done)
    | r :: rs', v :: vs' => Init r v (fun ok => if ok then inits rs' vs' done else Ret CAlready)
    | _, _ => Ret CPanic
    end.
  (** allocator.rs 124-150 [try_alloc_mulitple_cyclic_with_residual]. *)
  Definition cyclics (b : bin) (n : nat) (f : list nat -> prog (option (list V))) : prog (cyclic_result (list nat)) :=
    allocs b n (fun rs => bind (f rs) (fun c => match c with None => Ret CFailed | Some vs => inits rs vs rs end)).
End Container.
Arguments Ret {V A}. Arguments Alloc {V A}. Arguments Init {V A}. Arguments Read {V A}. Arguments Fresh {V A}.
Arguments CDone {A}. Arguments CFailed {A}. Arguments CAlready {A}. Arguments CPanic {A}.
Arguments mkStore {V}. Arguments EAlloc {V}. Arguments EInit {V}. Arguments ERead {V}. Arguments EFresh {V}.
