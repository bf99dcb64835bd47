(** Interpretations of the terms, and what the rules derive. *)
From Coq Require Import List String.
From Verif Require Import Rewrite_Model.
Import ListNotations.

Section Interpretation.
  Variable D : Type.
  Variable I : op -> list D -> D.
  (** The conditions that hold. *)
  Variable holds : D -> bool.

  (** The basic equations of the cryptographic primitives. *)
  Record basic : Prop := mkBasic {
    b_p1 : forall a b, I OP1 [I OTuple [a; b]] = a;
    b_p2 : forall a b, I OP2 [I OTuple [a; b]] = b;
    b_dec : forall m r k, I ODec [I OEnc [m; r; I OPk [k]]; k] = m;
    b_ite : forall c a b, I OIte [c; a; b] = if holds c then a else b;
    b_true : holds (I OTrue []) = true;
    b_false : holds (I OFalse []) = false;
    b_eq : forall a, I OEq [a; a] = I OTrue [];
    b_neq : forall a b, a <> b -> I OEq [a; b] = I OFalse [];
    b_eq_only : forall a b, holds (I OEq [a; b]) = true -> a = b;
    b_nonce : forall x, I OLength [I ONonce [x]] = I OEta [];
    b_zeroes : forall x, I OLength [I OZeroes [I OLength [x]]] = I OLength [x] }.

  Fixpoint pvalue (s : pvar -> D) (p : pat) : D :=
    match p with PV x => s x | PF f l => I f (map (pvalue s) l) end.
  Fixpoint value (t : term) : D := match t with T f l => I f (map value l) end.
  Definition valid (r : rule) : Prop := forall s, pvalue s (lhs r) = pvalue s (rhs r).
End Interpretation.

(** What an e-graph may identify, given rules: equalities of instances, closed under congruence. *)
Inductive derivable (rules : list rule) : term -> term -> Prop :=
| d_rule r s : In r rules -> derivable rules (inst s (lhs r)) (inst s (rhs r))
| d_refl t : derivable rules t t
| d_sym a b : derivable rules a b -> derivable rules b a
| d_trans a b c : derivable rules a b -> derivable rules b c -> derivable rules a c
| d_cong f l m : Forall2 (derivable rules) l m -> derivable rules (T f l) (T f m).

(** An interpretation of the basic equations with many values. *)
Inductive val : Type :=
| VAtom (f : op) | VPair (a b : val) | VPk (k : val) | VEnc (m r k : val) | VNonce (x : val)
| VEta | VLen (x : val) | VZeroes (l : val) | VTrue | VFalse.

Definition val_eq_dec (a b : val) : {a = b} + {a <> b}.
Proof. repeat decide equality. Defined.
Definition length_of (x : val) : val :=
  match x with
  | VNonce _ => VEta
  | VZeroes (VLen y) => VLen y
  | VZeroes VEta => VEta
  | x => VLen x
  end.
Definition is_true (c : val) : bool := match c with VTrue => true | _ => false end.
Definition example_I (f : op) (l : list val) : val :=
  match f, l with
  | OTuple, [a; b] => VPair a b
  | OP1, [VPair a _] => a
  | OP2, [VPair _ b] => b
  | OPk, [k] => VPk k
  | OEnc, [m; r; VPk k] => VEnc m r k
  | ODec, [VEnc m _ k; k'] => if val_eq_dec k k' then m else VAtom ODec
  | OIte, [c; a; b] => if is_true c then a else b
  | OTrue, [] => VTrue
  | OFalse, [] => VFalse
  | OEq, [a; b] => if val_eq_dec a b then VTrue else VFalse
  | ONonce, [x] => VNonce x
  | OLength, [x] => length_of x
  | OZeroes, [x] => VZeroes x
  | OEta, [] => VEta
  | f, _ => VAtom f
  end.
