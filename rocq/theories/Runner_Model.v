(** The automatic runner. Paths are relative to /repo/crates/cryptovampire/src/runner. Files, command lines, logging and the
    texts of errors are left out. *)
From Coq Require Import List Arith Bool NArith ZArith String Ascii.
Import ListNotations.
Local Open Scope list_scope.

(** ** Output of a solver *)

(** Rust strings: lists of code points. *)
Definition chars := list N.
Definition lit (s : string) : chars := map N_of_ascii (list_ascii_of_string s).

(** [char::is_whitespace]: the Unicode property. *)
Definition white (c : N) : bool :=
  (N.leb 9 c && N.leb c 13) || N.eqb c 32 || N.eqb c 133 || N.eqb c 160 || N.eqb c 5760 || (N.leb 8192 c && N.leb c 8202) ||
  N.eqb c 8232 || N.eqb c 8233 || N.eqb c 8239 || N.eqb c 8287 || N.eqb c 12288.
(** [str::trim]. *)
Fixpoint trim_start (l : chars) : chars := match l with c :: l' => if white c then trim_start l' else l | [] => [] end.
Definition trim (l : chars) : chars := rev (trim_start (rev (trim_start l))).
(** [str::lines]: [split_inclusive('\n')], then the end of the line is removed. *)
Fixpoint split_inclusive (l : chars) : list chars :=
  match l with
  | [] => []
  | c :: l' => if N.eqb c 10 then [c] :: split_inclusive l'
               else match split_inclusive l' with [] => [[c]] | p :: ps => (c :: p) :: ps end
  end.
Definition strip_end (p : chars) : chars :=
  match rev p with
  | c :: r => if N.eqb c 10 then match r with d :: r' => if N.eqb d 13 then rev r' else rev r | [] => [] end else p
  | [] => p
  end.
Definition lines (l : chars) : list chars := map strip_end (split_inclusive l).
(** [Iterator::last]. *)
Fixpoint last_opt {A} (l : list A) : option A := match l with [] => None | [a] => Some a | _ :: l' => last_opt l' end.
Definition chars_eqb (a b : chars) : bool := if list_eq_dec N.eq_dec a b then true else false.

(** runner.rs 22-27 [RunnerOut] and errors. *)
Inductive answer : Type := ASat | AUnsat | ATimeout (out : chars) | AOther | AErr.

(** runners.rs 36-40: the two kinds of solvers. *)
Inductive kind : Type := Vampire | Z3.
(** vampire.rs 207-209, z3.rs 107-109. *)
Definition killable (k : kind) : bool := match k with Vampire => false | Z3 => true end.
(** runners.rs 81-82. *)
Definition discoverer (k : kind) : bool := match k with Vampire => true | Z3 => false end.

(** vampire.rs 172-184; the exit code is [None] when a signal ended the process (runner_helper.rs 51-54). *)
Definition vampire_result (rc : option Z) (out : chars) : answer :=
  match rc with
  | Some 0%Z => AUnsat
  | Some 1%Z => ATimeout out
  | Some _ => AErr
  | None => AOther
  end.
(** z3.rs 82-101. The text of a timeout is dropped. *)
Definition z3_result (rc : option Z) (out : chars) : answer :=
  match rc with
  | Some 0%Z =>
      match last_opt (lines out) with
      | None => AErr
      | Some l =>
          let l := trim l in
          if chars_eqb l (lit "unsat") then AUnsat else if chars_eqb l (lit "sat") then ASat
          else if chars_eqb l (lit "timeout") then ATimeout [] else AOther
      end
  | Some _ => AErr
  | None => AOther
  end.
Definition result (k : kind) : option Z -> chars -> answer := match k with Vampire => vampire_result | Z3 => z3_result end.

(** ** One round *)

(** What a thread will do when it is not disturbed: panic while it writes the file, fail before the process is spawned or when it is,
    spawn a process and fail before it ends (runner_helper.rs 34-45), or read the whole output and the exit code. *)
Inductive plan : Type := PPanic | PFail | PBroken | PExit (rc : option Z) (out : chars).

(** A thread: before the process is spawned, between the spawning and the sending of the process (runners.rs 170-171), waiting for the
    process, finished, panicked. *)
Inductive thread : Type := TInit | TSpawned | TWaiting | TDone | TPanicked.
Inductive process : Type := NoProcess | Running | Exited | Killed.
(** runners.rs 228-256: what a round finds. *)
Inductive verdict : Type := VSat | VUnsat | VTimeout (l : list (nat * chars)) | VErr | VPanic.
(** The main thread: the loop over the results (228-256) with the outputs to analyse; [killall] (272-295) reading the first channel, then
    the second; waiting for the threads; the end. The booleans say whether a kill failed. *)
Inductive main : Type :=
| MLoop (l : list (nat * chars))
| MKill1 (v : verdict) (e : bool)
| MKill2 (v : verdict) (e : bool)
| MJoin (v : verdict) (e : bool)
| MDone (v : verdict).

Record state : Type := mkState {
  threads : nat -> thread; processes : nat -> process; finished : list (nat * answer);
  queue1 : list nat; queue2 : list nat; mainth : main }.

Definition set {A} (f : nat -> A) (i : nat) (a : A) : nat -> A := fun j => if Nat.eqb j i then a else f j.
(** [kill] and [wait] on a process (297-303); one that has ended is not touched. *)
Definition killed (p : process) : process := match p with Running => Killed | p => p end.
(** The thread still has the senders of its process: [spawn_killable_child] (169-178) and [spawn_unkillable_child] drop both. *)
Definition holds_sender (t : thread) : bool := match t with TInit | TSpawned => true | _ => false end.
Definition ended (t : thread) : bool := match t with TDone | TPanicked => true | _ => false end.
(** The receiver of the channel for this kind is gone. *)
Definition closed (b : bool) (m : main) : bool :=
  match m with MLoop _ | MKill1 _ _ => false | MKill2 _ _ => b | MJoin _ _ | MDone _ => true end.

Section Round.
  (** [n] solvers, their kinds and what they do; which processes cannot be killed. *)
  Context (n : nat) (kinds : nat -> kind) (plans : nat -> plan) (kill_fails : nat -> bool).

  (** Lines 228-253: one result. *)
  Definition receive (l : list (nat * chars)) (i : nat) (a : answer) : main :=
    match a with
    | ASat => MKill1 VSat false
    | AUnsat => MKill1 VUnsat false
    | ATimeout t => if discoverer (kinds i) then MLoop (l ++ [(i, t)]) else MLoop l
    | AErr => MKill1 VErr false
    | AOther => MLoop l
    end.
  (** What a thread finds when its process has ended. *)
  Definition found (i : nat) (p : process) : answer :=
    match p, plans i with
    | Killed, _ => result (kinds i) None []
    | _, PExit rc out => result (kinds i) rc out
    | _, _ => AErr
    end.
  Definition panicked (s : state) : bool := existsb (fun i => match threads s i with TPanicked => true | _ => false end) (seq 0 n).

  Inductive step (s : state) : state -> Prop :=
  | s_panic i : i < n -> threads s i = TInit -> plans i = PPanic ->
      step s (mkState (set (threads s) i TPanicked) (processes s) (finished s) (queue1 s) (queue2 s) (mainth s))
  | s_fail i : i < n -> threads s i = TInit -> plans i = PFail ->
      step s (mkState (set (threads s) i TDone) (processes s) (finished s ++ [(i, AErr)]) (queue1 s) (queue2 s) (mainth s))
  | s_spawn i : i < n -> threads s i = TInit -> plans i <> PPanic -> plans i <> PFail ->
      step s (mkState (set (threads s) i TSpawned) (set (processes s) i Running) (finished s) (queue1 s) (queue2 s) (mainth s))
  | s_send i : i < n -> threads s i = TSpawned -> closed (killable (kinds i)) (mainth s) = false ->
      step s (mkState (set (threads s) i TWaiting) (processes s) (finished s)
                (if killable (kinds i) then queue1 s ++ [i] else queue1 s) (if killable (kinds i) then queue2 s else queue2 s ++ [i]) (mainth s))
  | s_send_fail i : i < n -> threads s i = TSpawned -> closed (killable (kinds i)) (mainth s) = true ->
      step s (mkState (set (threads s) i TDone) (if kill_fails i then processes s else set (processes s) i (killed (processes s i)))
                (finished s ++ [(i, AErr)]) (queue1 s) (queue2 s) (mainth s))
  | s_exit i : i < n -> processes s i = Running ->
      step s (mkState (threads s) (set (processes s) i Exited) (finished s) (queue1 s) (queue2 s) (mainth s))
  | s_answer i : i < n -> threads s i = TWaiting -> processes s i <> Running ->
      step s (mkState (set (threads s) i TDone) (processes s) (finished s ++ [(i, found i (processes s i))]) (queue1 s) (queue2 s) (mainth s))
  | s_broken i : i < n -> threads s i = TWaiting -> plans i = PBroken ->
      step s (mkState (set (threads s) i TDone) (processes s) (finished s ++ [(i, AErr)]) (queue1 s) (queue2 s) (mainth s))
  | s_receive l i a q : mainth s = MLoop l -> finished s = (i, a) :: q ->
      step s (mkState (threads s) (processes s) q (queue1 s) (queue2 s) (receive l i a))
  | s_no_more l : mainth s = MLoop l -> finished s = [] -> (forall i, i < n -> ended (threads s i) = true) ->
      step s (mkState (threads s) (processes s) (finished s) (queue1 s) (queue2 s) (MKill1 (VTimeout l) false))
  | s_kill1 v e i q : mainth s = MKill1 v e -> queue1 s = i :: q ->
      step s (mkState (threads s) (if kill_fails i then processes s else set (processes s) i (killed (processes s i)))
                (finished s) q (queue2 s) (MKill1 v (e || kill_fails i)))
  | s_kill2 v e i q : mainth s = MKill2 v e -> queue2 s = i :: q ->
      step s (mkState (threads s) (if kill_fails i then processes s else set (processes s) i (killed (processes s i)))
                (finished s) (queue1 s) q (MKill2 v (e || kill_fails i)))
  | s_next v e : mainth s = MKill1 v e -> queue1 s = [] -> (forall i, i < n -> holds_sender (threads s i) = false) ->
      step s (mkState (threads s) (processes s) (finished s) (queue1 s) (queue2 s) (MKill2 v e))
  | s_join v e : mainth s = MKill2 v e -> queue2 s = [] -> (forall i, i < n -> holds_sender (threads s i) = false) ->
      step s (mkState (threads s) (processes s) (finished s) (queue1 s) (queue2 s) (MJoin v e))
  | s_done v e : mainth s = MJoin v e -> (forall i, i < n -> ended (threads s i) = true) ->
      step s (mkState (threads s) (processes s) (finished s) (queue1 s) (queue2 s)
                (MDone (if panicked s then VPanic else if e then VErr else v))).

  (** Lines 199-223. *)
  Definition start : state := mkState (fun _ => TInit) (fun _ => NoProcess) [] [] [] (MLoop []).
  Inductive reachable : state -> Prop :=
  | r_start : reachable start
  | r_step s s' : reachable s -> step s s' -> reachable s'.
End Round.

(** ** All rounds *)

Inductive reply : Type := Proved (tries : nat) | RanOut (n : nat) | Disproved | Failed | Panicked | NothingToDo.

Section Rounds.
  (** The problem; what a round finds on it; the search for instances (vampire.rs 217-250), [None]: an error. *)
  Context {P : Type} (round : nat -> P -> verdict) (discover : nat -> P -> chars -> option P).

  (** runners.rs 259-264. *)
  Fixpoint discover_all (l : list (nat * chars)) (p : P) : option P :=
    match l with [] => Some p | (i, t) :: l' => match discover i p t with Some p' => discover_all l' p' | None => None end end.
  (** runners.rs 84-95: rounds [i], [i + 1], ..., [k] of them. The result: reply and problem. *)
  Fixpoint rounds (n k i : nat) (p : P) : reply * P :=
    match k with
    | 0 => (RanOut n, p)
    | S k' =>
        match round i p with
        | VUnsat => (Proved i, p)
        | VTimeout l => match discover_all l p with Some p' => rounds n k' (S i) p' | None => (Failed, p) end
        | VSat => (Disproved, p)
        | VErr => (Failed, p)
        | VPanic => (Panicked, p)
        end
    end.
  (** runners.rs 66-97 [autorun], lib.rs 113: 0 is no limit, which is [u32::MAX]. *)
  Definition limit (num_retry : nat) : nat := if Nat.eqb num_retry 0 then N.to_nat 4294967295 else num_retry.
  Definition autorun (solvers : nat) (num_retry : nat) (p : P) : reply * P :=
    if Nat.eqb solvers 0 then (NothingToDo, p) else rounds (limit num_retry) (limit num_retry) 1 p.
End Rounds.
