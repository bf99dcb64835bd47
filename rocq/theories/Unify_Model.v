(** formula/manipulation/unifier.rs *)
From Coq Require Import List Arith Bool.
From Verif Require Import Syntax_Model Subst_Model.
Import ListNotations.

(** [RichFormula]'s derived [==] (formula.rs 29) against a variable: variables compare by id. *)
Definition is_same_var (v : var) (r : formula) : bool :=
  match r with FVar w => var_eqb v w | _ => false end.

(** The two substitutions under construction: [left_p], [right_p]. *)
Definition ustate : Type := list (nat * formula) * list (nat * formula).

(** [all] over zipped arguments, threading the state; stops at the first [false]. *)
Fixpoint all_args (aux : formula -> formula -> ustate -> option (bool * ustate))
         (l r : list formula) (st : ustate) : option (bool * ustate) :=
  match l, r with
  | a :: l', b :: r' =>
      match aux a b st with
      | None => None
      | Some (true, st') => all_args aux l' r' st'
      | Some (false, st') => Some (false, st')
      end
  | _, _ => Some (true, st)
  end.

(** unifier.rs 122-178 [aux]; [None] means that the recursion is deeper than the fuel. *)
Fixpoint aux (fuel : nat) (left right : formula) (st : ustate) {struct fuel} : option (bool * ustate) :=
  match fuel with
  | O => None
  | S n =>
      let (lp, rp) := st in
      match left, right with
      | FVar v, _ =>
          if (match right with FVar vr => var_eqb v vr | _ => false end) then Some (true, st)    (* 129 *)
          else match maybe_get lp (vid v) with                                                   (* 130 *)
               | Some (FVar v2) =>                                                               (* 131 *)
                   match right with
                   | FVar v3 =>
                       if var_eqb v2 v3 then Some (true, st)                                     (* 133 *)
                       else match maybe_get rp (vid v3) with
                            | Some r => Some (is_same_var v2 r, st)                              (* 134-135 *)
                            | None => Some (true, (lp, mv_add rp (vid v3) (FVar v2)))            (* 137-138 *)
                            end
                   | _ => Some (false, st)                                                       (* 142 *)
                   end
               | Some nl => aux n nl right st                                                    (* 144 *)
               | None => Some (true, (mv_add lp (vid v) right, rp))                              (* 145-148 *)
               end
      | _, FVar v =>
          match maybe_get rp (vid v) with                                                        (* 150 *)
          | Some (FVar _) => Some (false, st)                      (* 151-163: [left] is not a variable here *)
          | Some nl => aux n nl right st                                                         (* 164 *)
          | None => Some (true, (lp, mv_add rp (vid v) left))                                    (* 165-168 *)
          end
      | FFun fl al, FFun fr ar =>
          if fsym_eqb fl fr && Nat.eqb (length al) (length ar)
          then all_args (aux n) al ar st                                                         (* 170-175 *)
          else Some (false, st)
      | _, _ => Some (false, st)                                                                 (* 176 *)
      end
  end.

(** unifier.rs 121, 180-190 [mgu]: the outer option is the fuel, the inner one the answer. *)
Definition mgu (fuel : nat) (left right : formula) : option (option ustate) :=
  match aux fuel left right ([], []) with
  | None => None
  | Some (true, st) => Some (Some st)
  | Some (false, _) => Some None
  end.

(** unifier.rs 39-67 [as_equalities]; [get_sort] (sorted.rs) is left abstract, [None] when it fails.
    The result is [None] for an error. *)
Definition as_equalities (get_sort : formula -> option sort) (u : ustate) : option (list formula) :=
  let (l, r) := u in
  if existsb (fun i => existsb (Nat.eqb i) (map fst l)) (map fst r) then None
  else mapM (fun p => match get_sort (snd p) with
                      | Some s => Some (meq (FVar (mkVar (fst p) s)) (snd p))
                      | None => None
                      end) (l ++ r).
