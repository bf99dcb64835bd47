(** What it means to report an error at its place. *)
From Coq Require Import List Arith Bool.
From Verif Require Import Location_Model.
Import ListNotations.

(** A byte that starts a character. *)
Definition starts (b : nat) : Prop := b < 128 \/ 192 <= b.
(** Offset [i] is between two characters of [s]. *)
Definition between (s : bytes) (i : nat) : Prop := i <= List.length s /\ forall b, 0 < i -> nth_error s i = Some b -> starts b.
(** The places that pest gives: [i..j] and [i] between characters of the source. *)
Definition in_source (l : ast_location) (id : nat) (s : bytes) : Prop :=
  match l with
  | ASpan sp => sp_id sp = id /\ sp_input sp = s /\ sp_start sp <= sp_end sp /\ between s (sp_start sp) /\ between s (sp_end sp)
  | APosition p => po_id p = id /\ po_input p = s /\ between s (po_pos p)
  | ANothing => True
  end.
(** Offset [i] of [s] is on line [line], column [col]: after the last line break before it, as many characters. *)
Definition place (s : bytes) (i line col : nat) : Prop :=
  exists before last, firstn i s = before ++ last /\ ~ In 10 last /\ (before = [] \/ exists b, before = b ++ [10]) /\
    line = S (count_occ Nat.eq_dec before 10) /\ col = S (List.length (filter (fun b => (b <? 128) || (192 <=? b)) last)).
(** [t] contains [err]. *)
Definition mentions (t err : bytes) : Prop := exists a b, t = a ++ err ++ b.
(** The offset where a location starts. *)
Definition offset (l : ast_location) : option nat := match l with ASpan sp => Some (sp_start sp) | APosition p => Some (po_pos p) | ANothing => None end.
(** An error at offset [i] of [s] is reported there, with its message. *)
Definition reported_at (o : output) (s : bytes) (i : nat) (err : bytes) : Prop :=
  match o with Report line col m => place s i line col /\ mentions m err | _ => False end.
(** The message is there, wherever the error is reported. *)
Definition tells (o : output) (err : bytes) : Prop :=
  match o with Report _ _ m => mentions m err | Printed t => mentions t err | Panicked => False end.
