(** Reading the solver's terms back: literals of the solver's output, and their conversion to formulas.
    Paths are relative to /repo/crates/cryptovampire/src. *)
From Coq Require Import List NArith Bool Ascii String.
From Verif Require Import Syntax_Model Sort_Model Squirrel_Model.
From Verif Require Runner_Model.
Import ListNotations.
Local Open Scope list_scope.

(** A Rust [String] as its sequence of characters. *)
Notation chars := Runner_Model.chars.
Notation lit := Runner_Model.lit.
Definition chars_eqb (a b : chars) : bool := if list_eq_dec N.eq_dec a b then true else false.

(** formula/base_formula/mod.rs 11-22 [BaseFormula], tmp_formula.rs 26 [TmpFormula]. *)
Inductive tmp : Type :=
| TBinder (head : chars) (vars : list chars) (args : list tmp)
| TApp (head : chars) (args : list tmp)
| TVar (v : chars).

(** The derived [PartialEq]. *)
Fixpoint tmp_eqb (a b : tmp) {struct a} : bool :=
  let fix all (l m : list tmp) {struct l} : bool :=
    match l, m with
    | [], [] => true
    | x :: l', y :: m' => tmp_eqb x y && all l' m'
    | _, _ => false
    end in
  match a, b with
  | TBinder h v l, TBinder h' v' l' =>
      chars_eqb h h' && (if list_eq_dec (list_eq_dec N.eq_dec) v v' then true else false) && all l l'
  | TApp h l, TApp h' l' => chars_eqb h h' && all l l'
  | TVar v, TVar v' => chars_eqb v v'
  | _, _ => false
  end.

(** tmp_formula.rs 170-173 [TmpOrStr]. *)
Inductive key : Type := KTmp (t : tmp) | KStr (s : chars).
Definition key_eqb (a b : key) : bool :=
  match a, b with
  | KTmp t, KTmp t' => tmp_eqb t t'
  | KStr s, KStr s' => chars_eqb s s'
  | _, _ => false
  end.

(** tmp_formula.rs 168 [VarHashMap]: a map, as a list without repeated keys; [tput] is [HashMap::insert]. *)
Definition table : Type := list (key * var).
Fixpoint tget (tb : table) (k : key) : option var :=
  match tb with
  | [] => None
  | (k', v) :: tb' => if key_eqb k' k then Some v else tget tb' k
  end.
Fixpoint tput (tb : table) (k : key) (v : var) : table :=
  match tb with
  | [] => [(k, v)]
  | (k', v') :: tb' => if key_eqb k' k then (k', v) :: tb' else (k', v') :: tput tb' k v
  end.

(** tmp_formula.rs 177-207 [to_rich_formula_variable]; [uvar] is [u32] (formula/variable.rs 16), a failed
    [try_into().unwrap()] is a panic. The [debug_assert] is not run in release mode. *)
Definition new_var (h : heap) (tb : table) (k : key) (e : proxy) : heap * table * outcome var :=
  match as_option h e with
  | Some s =>
      if N.ltb (N.of_nat (List.length tb)) 4294967296
      then let v := mkVar (List.length tb) s in (h, tput tb k v, OOk v)
      else (h, tb, OPanic)
  | None => (h, tb, OErr)
  end.
Definition to_var (h : heap) (tb : table) (k : key) (e : proxy) : heap * table * outcome var :=
  match tget tb k with
  | Some v =>
      match expects h e (vsort v) REvaluated with
      | None => (h, tb, OPanic)
      | Some (h', Ok _) => (h', tb, OOk v)
      | Some (h', Err _) => new_var h' tb k e
      end
  | None => new_var h tb k e
  end.

Definition lift_var (x : heap * table * outcome var) : heap * table * outcome formula :=
  match x with
  | (h, tb, OOk v) => (h, tb, OOk (FVar v))
  | (h, tb, OErr) => (h, tb, OErr)
  | (h, tb, OPanic) => (h, tb, OPanic)
  | (h, tb, OFuel) => (h, tb, OFuel)
  end.

(** tmp_formula.rs 121-130: the variables of a binder, each at a new unknown sort. *)
Fixpoint binder_vars (h : heap) (tb : table) (vs : list chars) : heap * table * outcome (list var) :=
  match vs with
  | [] => (h, tb, OOk [])
  | v :: vs' =>
      let (h1, p) := new_proxy h in
      match to_var h1 tb (KStr v) p with
      | (h2, tb2, OOk x) =>
          match binder_vars h2 tb2 vs' with
          | (h3, tb3, OOk xs) => (h3, tb3, OOk (x :: xs))
          | r => r
          end
      | (h2, tb2, OErr) => (h2, tb2, OErr)
      | (h2, tb2, OPanic) => (h2, tb2, OPanic)
      | (h2, tb2, OFuel) => (h2, tb2, OFuel)
      end
  end.

(** tmp_formula.rs 135-139. *)
Definition binder_of (head : chars) : option quant :=
  if chars_eqb head (lit "exists") then Some QExists
  else if chars_eqb head (lit "forall") then Some QForall
  else None.

Section Convert.
  (** The known functions (container.rs 155-162), and for each its signature and whether it is temporary. *)
  Variable functions : chars -> option fsym.
  Variable kind : fsym -> sigkind.
  Variable is_tmp : fsym -> bool.

  (** tmp_formula.rs 46-64 [to_rich_formula], 66-103 [convert_app], 106-151 [convert_binder], 158-167
      [convert_variable]. The table and the sorts of the placeholders are threaded through, also past errors. The
      loop of 84-95 over [zip_longest]: an argument without a sort is an error, a sort without an argument ends
      the loop. *)
  Fixpoint to_rich (t : tmp) (h : heap) (tb : table) (e : proxy) {struct t} : heap * table * outcome formula :=
    let fix conv_args (l : list tmp) (ss : list proxy) (rep : option proxy) (h : heap) (tb : table) {struct l}
        : heap * table * outcome (list formula) :=
      match l with
      | [] => (h, tb, OOk [])
      | a :: l' =>
          match (match ss with p :: _ => Some p | [] => rep end) with
          | None => (h, tb, OErr)
          | Some p =>
              match to_rich a h tb p with
              | (h1, tb1, OOk f) =>
                  match conv_args l' (tl ss) rep h1 tb1 with
                  | (h2, tb2, OOk fs) => (h2, tb2, OOk (f :: fs))
                  | r => r
                  end
              | (h1, tb1, OErr) => (h1, tb1, OErr)
              | (h1, tb1, OPanic) => (h1, tb1, OPanic)
              | (h1, tb1, OFuel) => (h1, tb1, OFuel)
              end
          end
      end in
    match t with
    | TVar _ => lift_var (to_var h tb (KTmp t) e)
    | TApp head args =>
        match functions head with
        | None => lift_var (to_var h tb (KTmp t) e)
        | Some g =>
            if is_tmp g then (h, tb, OErr)
            else
              let (h1, sg) := signature h (kind g) in
              match unify h1 (sout sg) e REvaluated with
              | None => (h1, tb, OPanic)
              | Some (h2, Err _) => (h2, tb, OErr)
              | Some (h2, Ok _) =>
                  match conv_args args (sargs sg) (srep sg) h2 tb with
                  | (h3, tb3, OOk fs) => (h3, tb3, OOk (FFun g fs))
                  | (h3, tb3, OErr) => (h3, tb3, OErr)
                  | (h3, tb3, OPanic) => (h3, tb3, OPanic)
                  | (h3, tb3, OFuel) => (h3, tb3, OFuel)
                  end
              end
        end
    | TBinder head vars args =>
        match unify h e (PStatic SBool) REvaluated with
        | None => (h, tb, OPanic)
        | Some (h1, Err _) => (h1, tb, OErr)
        | Some (h1, Ok _) =>
            match binder_vars h1 tb vars with
            | (h2, tb2, OOk vs) =>
                match binder_of head with
                | None => (h2, tb2, OErr)
                | Some q =>
                    match args with
                    | [a] =>
                        match to_rich a h2 tb2 (PStatic SBool) with
                        | (h3, _, OOk f) => (h3, tb2, OOk (FQ q vs f))
                        | (h3, _, r) => (h3, tb2, r)
                        end
                    | _ => (h2, tb2, OErr)
                    end
                end
            | (h2, tb2, OErr) => (h2, tb2, OErr)
            | (h2, tb2, OPanic) => (h2, tb2, OPanic)
            | (h2, tb2, OFuel) => (h2, tb2, OFuel)
            end
        end
    end.

  (** Successive conversions sharing a table, each with its expected sort ([None]: [SortProxy::default()]). *)
  Fixpoint read_all (l : list (tmp * option sort)) (h : heap) (tb : table) : list (outcome formula) :=
    match l with
    | [] => []
    | (t, s) :: l' =>
        let (h1, e) := match s with Some s => (h, PStatic s) | None => new_proxy h end in
        match to_rich t h1 tb e with
        | (h2, tb2, r) => r :: read_all l' h2 tb2
        end
    end.

  (** runner/searcher.rs 77-81: every literal gets a new table and an unknown sort. *)
  Definition read_one (t : tmp) : outcome formula :=
    match to_rich t (fst (new_proxy [])) [] (snd (new_proxy [])) with (_, _, r) => r end.
End Convert.

(** ** Literals of the solver *)

(** The terms and literals of the [tptp] crate, without the wrappers around them: an application also stands for a
    constant (no arguments), [XDefined] for numbers and distinct objects. Names are as printed, quotes included. *)
Inductive xterm : Type :=
| XVar (v : chars)
| XApp (f : chars) (args : list xterm)
| XDefined (d : chars).
Inductive xatom : Type := XPred (p : chars) (args : list xterm) | XEq (a b : xterm).
Inductive xlit : Type := XPos (a : xatom) | XNeg (a : xatom) | XNeq (a b : xterm).

(** The number of bytes of a character in UTF-8. *)
Definition utf8_len (c : N) : N :=
  if N.ltb c 128 then 1 else if N.ltb c 2048 then 2 else if N.ltb c 65536 then 3 else 4.
Definition byte_len (s : chars) : N := fold_right (fun c n => (utf8_len c + n)%N) 0%N s.

(** runner/tptp.rs 38-45 [trim_quotes]. [str.len() - 2] is in bytes, and wraps around in release mode; [take] counts
    characters. *)
Definition quote : N := 39%N.
Definition wrapping_sub (a b : N) : N := if N.leb b a then (a - b)%N else (18446744073709551616 + a - b)%N.
Definition trim_quotes (s : chars) : chars :=
  match s with
  | c :: rest =>
      if N.eqb c quote && N.eqb (List.last s 0%N) quote
      then List.firstn (N.to_nat (N.min (wrapping_sub (byte_len s) 2) (N.of_nat (List.length rest)))) rest
      else s
  | [] => s
  end.

(** tptp.rs 58-72, 88-90, 119-130, 141-155. *)
Fixpoint term_of (x : xterm) : tmp :=
  match x with
  | XVar v => TVar v
  | XApp f args => TApp (trim_quotes f) (map term_of args)
  | XDefined d => TApp d []
  end.
Definition atom_of (a : xatom) : tmp :=
  match a with
  | XPred p args => TApp (trim_quotes p) (map term_of args)
  | XEq a b => TApp (lit "=") [term_of a; term_of b]
  end.
(** tptp.rs 97-117. *)
Definition literal_of (l : xlit) : tmp :=
  match l with
  | XPos a => atom_of a
  | XNeg a => TApp (lit "ta$not") [atom_of a]
  | XNeq a b => TApp (lit "not") [TApp (lit "=") [term_of a; term_of b]]
  end.
