(** Induction principle and decidability for formulas. *)
From Coq Require Import List Arith Bool Lia.
From Verif Require Import Syntax_Model.
Import ListNotations.

Section FormulaInd.
  Variable P : formula -> Prop.
  Hypothesis HVar : forall v, P (FVar v).
  Hypothesis HFun : forall f args, Forall P args -> P (FFun f args).
  Hypothesis HQ : forall q vs b, P b -> P (FQ q vs b).

  Fixpoint formula_ind' (f : formula) : P f :=
    match f with
    | FVar v => HVar v
    | FFun s args =>
        HFun s args ((fix go (l : list formula) : Forall P l :=
                        match l with
                        | [] => Forall_nil P
                        | a :: l' => Forall_cons a (formula_ind' a) (go l')
                        end) args)
    | FQ q vs b => HQ q vs b (formula_ind' b)
    end.
End FormulaInd.

Definition var_eq_dec (a b : var) : {a = b} + {a <> b}.
Proof. decide equality; [apply sort_eq_dec | apply Nat.eq_dec]. Defined.

Definition quant_eq_dec (a b : quant) : {a = b} + {a <> b}.
Proof. decide equality. Defined.

Fixpoint formula_eq_dec (a b : formula) {struct a} : {a = b} + {a <> b}.
Proof.
  destruct a, b; try (right; discriminate).
  - destruct (var_eq_dec v v0); [left|right]; congruence.
  - destruct (fsym_eq_dec f f0); [|right; congruence].
    destruct (list_eq_dec formula_eq_dec args args0); [left|right]; congruence.
  - destruct (quant_eq_dec q q0); [|right; congruence].
    destruct (list_eq_dec var_eq_dec vs vs0); [|right; congruence].
    destruct (formula_eq_dec a b); [left|right]; congruence.
Defined.

Lemma fsym_eqb_eq a b : fsym_eqb a b = true <-> a = b.
Proof. unfold fsym_eqb; destruct (fsym_eq_dec a b); split; congruence. Qed.

Lemma sort_eqb_eq a b : sort_eqb a b = true <-> a = b.
Proof. unfold sort_eqb; destruct (sort_eq_dec a b); split; congruence. Qed.

Lemma var_eqb_eq a b : var_eqb a b = true <-> vid a = vid b.
Proof. apply Nat.eqb_eq. Qed.

(** Number of nodes; used as fuel. *)
Fixpoint fsize (f : formula) : nat :=
  match f with
  | FVar _ => 1
  | FFun _ args => S ((fix go l := match l with [] => 0 | a :: l' => fsize a + go l' end) args)
  | FQ _ _ b => S (fsize b)
  end.

Definition fsizes (l : list formula) : nat := list_sum (map fsize l).

Lemma fsize_fun f args : fsize (FFun f args) = S (fsizes args).
Proof.
  cbn; f_equal. induction args as [|a l IH]; cbn; [reflexivity|].
  unfold fsizes in *; cbn. rewrite IH; reflexivity.
Qed.

Lemma fsize_pos f : 1 <= fsize f.
Proof. destruct f; cbn; lia. Qed.
