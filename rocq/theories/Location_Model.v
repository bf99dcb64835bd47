(** Where errors are reported: parser/location.rs and error/location/*.rs.
    Texts are lists of bytes. Of the library pest, [Span], [Position] and the line and column of the start of a report are modelled as documented
    (pest 2.7, span.rs and position.rs); the rest of its report (the copy of the line, the underlining, the end of the span) is left out. *)
From Coq Require Import List Arith Bool String Ascii.
Import ListNotations.

Definition bytes : Type := list nat.
Fixpoint lit (s : string) : bytes := match s with EmptyString => [] | String c s' => nat_of_ascii c :: lit s' end.

(** ** Rust's [str] *)
(** A byte that continues a character. *)
Definition continues (b : nat) : bool := (128 <=? b) && (b <? 192).
(** [str::is_char_boundary]. *)
Definition boundary (s : bytes) (i : nat) : bool :=
  (i =? 0) || match nth_error s i with Some b => negb (continues b) | None => i =? List.length s end.
(** [str::get(start..end)] and [str::get(start..)]. *)
Definition get (s : bytes) (i j : nat) : option bytes :=
  if (i <=? j) && boundary s i && boundary s j then Some (firstn (j - i) (skipn i s)) else None.
Definition get_from (s : bytes) (i : nat) : option bytes := if boundary s i then Some (skipn i s) else None.

(** ** pest *)
(** A place in a source; [sp_id]: the address of the source, which equality looks at instead of its content. *)
Record span : Type := mkSpan { sp_id : nat; sp_input : bytes; sp_start : nat; sp_end : nat }.
Record position : Type := mkPosition { po_id : nat; po_input : bytes; po_pos : nat }.
Definition span_new (id : nat) (s : bytes) (i j : nat) : option span := match get s i j with Some _ => Some (mkSpan id s i j) | None => None end.
Definition position_new (id : nat) (s : bytes) (i : nat) : option position := match get_from s i with Some _ => Some (mkPosition id s i) | None => None end.
(** [Span::as_str]. *)
Definition as_str (sp : span) : bytes := firstn (sp_end sp - sp_start sp) (skipn (sp_start sp) (sp_input sp)).
(** [p.span(p)]. *)
Definition span_of (p : position) : span := mkSpan (po_id p) (po_input p) (po_pos p) (po_pos p).
(** [Position::line_col], on the bytes before the position. *)
Fixpoint line_col (l : bytes) (line col : nat) : nat * nat :=
  match l with
  | [] => (line, col)
  | c :: l' =>
      if c =? 10 then line_col l' (S line) 1
      else if c =? 13 then match l' with
        | d :: l'' => if d =? 10 then line_col l'' (S line) 1 else line_col l' line (S col)
        | [] => (line, S col)
        end
      else if continues c then line_col l' line col else line_col l' line (S col)
  end.

(** ** What is kept of a place *)
(** parser/location.rs 112-122 [PestLocation], [PestKind]. *)
Inductive pest_kind : Type := PkSpan (i j : nat) | PkPosition (i : nat).
(** error/location/location.rs 5 [Location]: the implementations of [Locate]. *)
Inductive location : Type :=
| LPest (str : bytes) (kind : pest_kind)      (* parser/location.rs 112-116 *)
| LSpan (str : bytes) (i j : nat)             (* error/location/pest.rs 7-12 [SpanLocation] *)
| LText (str : bytes)                         (* error/location/str.rs 5-41 *)
| LUnit.                                      (* error/location/empty.rs 3-21 *)
(** parser/location.rs 164-174 and 176-183. *)
Definition pest_of_span (sp : span) : location := LPest (as_str sp) (PkSpan (sp_start sp) (sp_end sp)).
Definition pest_of_position (p : position) : location := LPest (as_str (span_of p)) (PkPosition (po_pos p)).
(** error/location/pest.rs 37-46 [provide]. *)
Definition provide_span (sp : span) : location := LSpan (as_str sp) (sp_start sp) (sp_end sp).
(** parser/location.rs 51-58 [InnerAstLocationHelper]. *)
Inductive ast_location : Type := ASpan (sp : span) | APosition (p : position) | ANothing.
(** parser/location.rs 29-38 [as_location]. *)
Definition as_location (l : ast_location) : location :=
  match l with ASpan sp => pest_of_span sp | APosition p => pest_of_position p | ANothing => LUnit end.
(** parser/location.rs 60-71 [help_provide], error/location/empty.rs 35-39. *)
Definition help_provide (l : ast_location) (str : bytes) : location :=
  match l with ASpan sp => pest_of_span sp | APosition p => pest_of_position p | ANothing => LText str end.
(** parser/location.rs 185-187 [all], 40-42: the start of the file. *)
Definition all_file (id : nat) (s : bytes) : option position := position_new id s 0.

(** ** Printing *)
Inductive output : Type :=
| Report (line col : nat) (message : bytes)   (* pest's report *)
| Printed (t : bytes)
| Panicked.
Definition newline : bytes := [10].
(** error/location/empty.rs 11-15, error/location/str.rs 14-18, error/location/pest.rs 22-24. *)
Definition backtrace_lines (b : option bytes) : bytes := match b with Some b => lit "backtrace:" ++ newline ++ b ++ newline | None => [] end.
Section Fmt.
  (** How numbers are written. *)
  Context (dec : nat -> bytes).
  (** parser/location.rs 141-146: the file, line and column are those of location.rs itself. *)
  Context (here : bytes).
  Definition no_span (err str : bytes) (i j : nat) : bytes :=
    lit "!!! FAILED TO BUILD SPAN !!!" ++ newline ++ lit "This should not happen, please report" ++ newline ++ lit "around " ++ here ++ newline ++
    lit "start=" ++ dec i ++ newline ++ lit "end=" ++ dec j ++ newline ++ lit "----error----" ++ newline ++ err ++ newline ++ lit "----" ++ newline ++
    lit "----original's span's content:" ++ newline ++ str.
  (** [new_from_span] and [new_from_pos] of pest. *)
  Definition report (s : bytes) (i : nat) (message : bytes) : output := let lc := line_col (firstn i s) 1 1 in Report (fst lc) (snd lc) message.
  (** [location_fmt]: parser/location.rs 124-157, error/location/pest.rs 14-31, error/location/str.rs 6-19, error/location/empty.rs 4-16. *)
  Definition location_fmt (l : location) (err : bytes) (backtrace : option bytes) : output :=
    match l with
    | LPest str kind =>
        let message := err ++ match backtrace with Some b => newline ++ lit "from:" ++ newline ++ b ++ newline | None => [] end in
        match kind with
        | PkSpan i j => match span_new 0 str i j with Some sp => report (sp_input sp) (sp_start sp) message | None => Printed (no_span err str i j) end
        | PkPosition i => match position_new 0 str i with Some p => report (po_input p) (po_pos p) message | None => Panicked end
        end
    | LSpan str i j =>
        let message := lit "error: " ++ err ++ newline ++ backtrace_lines backtrace in
        match span_new 0 str i j with Some sp => report (sp_input sp) (sp_start sp) message | None => Panicked end
    | LText str => Printed (lit "error!" ++ newline ++ err ++ newline ++ lit "at: " ++ str ++ newline ++ backtrace_lines backtrace)
    | LUnit => Printed (lit "error!" ++ newline ++ err ++ newline ++ backtrace_lines backtrace)
    end.
End Fmt.

(** ** Order *)
(** pest: equality of spans and of positions compares addresses, not contents. *)
Definition span_eqb (a b : span) : bool := (sp_id a =? sp_id b) && (sp_start a =? sp_start b) && (sp_end a =? sp_end b).
Definition position_eqb (a b : position) : bool := (po_id a =? po_id b) && (po_pos a =? po_pos b).
(** parser/location.rs 51: the derived equality. *)
Definition ast_eqb (a b : ast_location) : bool :=
  match a, b with ASpan s, ASpan t => span_eqb s t | APosition p, APosition q => position_eqb p q | ANothing, ANothing => true | _, _ => false end.
(** [str]'s order. *)
Fixpoint bytes_cmp (a b : bytes) : comparison :=
  match a, b with
  | [], [] => Eq
  | [], _ :: _ => Lt
  | _ :: _, [] => Gt
  | x :: a', y :: b' => match Nat.compare x y with Eq => bytes_cmp a' b' | c => c end
  end.
Definition then_ (a b : comparison) : comparison := match a with Eq => b | _ => a end.
(** parser/location.rs 73-82 [int]. *)
Definition int (l : ast_location) : nat := match l with ASpan _ => 0 | APosition _ => 1 | ANothing => 3 end.
(** parser/location.rs 90-110 [cmp]. *)
Definition ast_cmp (a b : ast_location) : comparison :=
  match a, b with
  | ASpan s, ASpan t => then_ (then_ (bytes_cmp (as_str s) (as_str t)) (Nat.compare (sp_start s) (sp_start t))) (Nat.compare (sp_end s) (sp_end t))
  | APosition p, APosition q =>
      let s := span_of p in let t := span_of q in then_ (bytes_cmp (as_str s) (as_str t)) (Nat.compare (sp_start s) (sp_start t))
  | x, y => Nat.compare (int x) (int y)
  end.
