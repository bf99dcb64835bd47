(** Internal formulas of CryptoVampire: sorts, variables, function symbols, formulas.
    Paths are relative to /repo/crates/cryptovampire/src unless they start with crates/. *)
From Coq Require Import List Arith Bool.
Import ListNotations.

(** formula/sort/mod.rs 31-37 [InnerSort], formula/sort/builtins.rs 8-19.
    [SUserSym i]/[SUserEval i] are the two halves of [UserEvaluatable] number [i];
    [SIndex i] is the [i]-th user index sort. Sorts are compared by pointer in the code;
    here two sorts are the same iff they are built the same way. *)
Inductive sort : Type :=
| SBool | SCondition | SMessage | SBitstring
| SUserSym (i : nat) | SUserEval (i : nat)
| SIndex (i : nat)
| SName | SStep.

Definition sort_eq_dec (a b : sort) : {a = b} + {a <> b}.
Proof. decide equality; apply Nat.eq_dec. Defined.

Definition sort_eqb (a b : sort) : bool := if sort_eq_dec a b then true else false.

(** formula/variable.rs 16-23: [uvar] is [u32]; here ids are unbounded (overflow is not modelled). *)
Record var : Type := mkVar { vid : nat; vsort : sort }.

(** formula/variable.rs 30-47 [PartialEq for Variable] in a release build: only ids are compared
    (the debug build additionally panics when the sorts differ). *)
Definition var_eqb (a b : var) : bool := Nat.eqb (vid a) (vid b).

(** formula/variable.rs 73-82 [Add<uvar> for Variable]. *)
Definition var_add (v : var) (k : nat) : var := mkVar (vid v + k) (vsort v).

(** formula/function/inner/booleans.rs 15-23 and 92 : evaluated connectives and equality. *)
Inductive conn : Type := CTrue | CFalse | CAnd | COr | CNot | CImplies | CEq.

(** formula/function/inner/term_algebra/connective.rs: symbolic connectives, plus the symbolic
    if-then-else (term_algebra/if_then_else.rs). *)
Inductive taconn : Type := TTrue | TFalse | TAnd | TOr | TNot | TImplies | TIff | TEq | TIte.

(** formula/function/inner/term_algebra/step_macro.rs: the step macros. *)
Inductive macro : Type := MCondition | MMessage | MInput | MExec.

(** formula/function/inner/mod.rs [InnerFunction]: one constructor per family of symbols.
    The code compares symbols by pointer, i.e. by identity, which the indices stand for. *)
Inductive fsym : Type :=
| Fb (c : conn)
| Fite
| Flt | Fgt | Fleq | Fhappens
| Fta (c : taconn)
| Feval (s : sort)
| Fstep (i : nat)
| Fpred
| Fcell (i : nat)
| Fmacro (m : macro)
| Fname (i : nat)
| Fcast (s : sort)
| Fquant (i : nat)
| Fuser (i : nat)
| Fuser_eval (i : nat)
| Fsubterm (i : nat)
| Ftmp (i : nat)
| Fskolem (i : nat).

Definition conn_eq_dec (a b : conn) : {a = b} + {a <> b}.
Proof. decide equality. Defined.
Definition taconn_eq_dec (a b : taconn) : {a = b} + {a <> b}.
Proof. decide equality. Defined.
Definition macro_eq_dec (a b : macro) : {a = b} + {a <> b}.
Proof. decide equality. Defined.
Definition fsym_eq_dec (a b : fsym) : {a = b} + {a <> b}.
Proof.
  decide equality;
    first [apply conn_eq_dec | apply taconn_eq_dec | apply macro_eq_dec
          | apply sort_eq_dec | apply Nat.eq_dec].
Defined.
Definition fsym_eqb (a b : fsym) : bool := if fsym_eq_dec a b then true else false.

(** formula/quantifier.rs 16-26. *)
Inductive quant : Type := QExists | QForall.

(** formula/formula/formula.rs 30-34 [RichFormula] (the [Arc]s are invisible). *)
Inductive formula : Type :=
| FVar (v : var)
| FFun (f : fsym) (args : list formula)
| FQ (q : quant) (vs : list var) (body : formula).

(** formula/formula/formula.rs 255-266: no quantifier node for an empty list. *)
Definition mk_forall (vs : list var) (f : formula) : formula :=
  match vs with [] => f | _ => FQ QForall vs f end.
(** formula/formula/formula.rs 268-279. *)
Definition mk_exists (vs : list var) (f : formula) : formula :=
  match vs with [] => f | _ => FQ QExists vs f end.
(** formula/formula/formula.rs 281-294, 194-224 : [meq], [ands], [ors], [&], [|], [!], [>>]. *)
Definition meq (a b : formula) : formula := FFun (Fb CEq) [a; b].
Definition ands (l : list formula) : formula := FFun (Fb CAnd) l.
Definition ors (l : list formula) : formula := FFun (Fb COr) l.
Definition fand (a b : formula) : formula := FFun (Fb CAnd) [a; b].
Definition for_ (a b : formula) : formula := FFun (Fb COr) [a; b].
Definition fnot (a : formula) : formula := FFun (Fb CNot) [a].
Definition fimp (a b : formula) : formula := FFun (Fb CImplies) [a; b].

(** formula/function/builtin.rs 66-70: [TRUE], [TRUE_ARC]. *)
Definition TRUE : formula := FFun (Fb CTrue) [].
(** formula/function/builtin.rs 72-73: [FALSE]; the code really uses [TRUE_F] as its head. *)
Definition FALSE : formula := FFun (Fb CTrue) [].
