(** Pushing evaluations towards the leaves: problem/general_assertions/assertion_preprocessor.rs.
    Paths are relative to /repo/crates/cryptovampire/src. *)
From Coq Require Import List Arith Bool.
From Verif Require Import Syntax_Model Subst_Model Sort_Model Evaluate_Model.
Import ListNotations.

(** formula/function/inner/base_function.rs 19-33, term_algebra/connective.rs 66-77 and 100-110, term_algebra/mod.rs 25-50:
    [maybe_get_evaluated]; every other function answers [None]. *)
Definition maybe_evaluated (f : fsym) : option fsym :=
  match f with
  | Fuser i => Some (Fuser_eval i)
  | Fta TEq => Some (Fb CEq)
  | Fta TAnd => Some (Fb CAnd)
  | Fta TOr => Some (Fb COr)
  | Fta TNot => Some (Fb CNot)
  | Fta TImplies => Some (Fb CImplies)
  | Fta TIff => Some (Fb CEq)
  | Fta TTrue => Some (Fb CTrue)
  | Fta TFalse => Some (Fb CFalse)
  | _ => None
  end.

Section Propagate.
  (** Output sorts, sorts with an evaluation function, the symbolic quantifiers by index. *)
  Context (osort : fsym -> option sort) (evs : list sort) (table : nat -> option quantifier).

  (** assertion_preprocessor.rs 58-117 [preprocess_after_eval]; [None]: the fuel is exhausted or the code panics
      ([unreachable!] on a first-order quantifier, [get_sort] of a term without sort, [FrozenSubst::new_from] on lists of
      different lengths, a substitution that panics). *)
  Fixpoint after_eval (n : nat) (f : formula) : option formula :=
    match n with
    | O => None
    | S n' =>
        match f with
        | FVar v =>
            match maybe_evaluated_sort (vsort v) with
            | Some s => Some (FVar (mkVar (vid v) s))
            | None => ev osort evs f
            end
        | FFun h args =>
            match maybe_evaluated h with
            | Some g => option_map (FFun g) (mapM (after_eval n') args)
            | None =>
                match (match h with Fquant k => table k | _ => None end) with
                | Some q =>
                    match qt_inner q with
                    | IFind _ _ _ => ev osort evs f
                    | IForall c | IExists c =>
                        match frozen_new (map vid (qt_bound q)) args with
                        | None => None
                        | Some s =>
                            match sapply s c with
                            | None => None
                            | Some c' =>
                                option_map (FQ (match qt_inner q with IForall _ => QForall | _ => QExists end) (qt_free q))
                                  (after_eval n' c')
                            end
                        end
                    end
                | None => ev osort evs f
                end
            end
        | FQ _ _ _ => None
        end
    end.

  (** assertion_preprocessor.rs 26-56 [preprocess_before_eval]; the flag is [Cow::Owned].  The arguments of the new node are the
      old ones: line 44 iterates over [args], not [n_args]. *)
  Fixpoint before_eval (n : nat) (f : formula) : option (bool * formula) :=
    match f with
    | FVar _ => Some (false, f)
    | FFun (Feval _) args =>
        match args with
        | a :: _ => option_map (pair true) (after_eval n a)
        | [] => None
        end
    | FFun h args =>
        option_map (fun l : list (bool * formula) => (existsb fst l, FFun h args))
          ((fix go (l : list formula) : option (list (bool * formula)) :=
              match l with
              | [] => Some []
              | a :: l' => match before_eval n a, go l' with Some x, Some xs => Some (x :: xs) | _, _ => None end
              end) args)
    | FQ q vs b =>
        option_map (fun x : bool * formula => if fst x then (true, FQ q vs (snd x)) else (false, f)) (before_eval n b)
    end.

  (** assertion_preprocessor.rs 19-24. *)
  Definition propagate_evaluate (n : nat) (f : formula) : option formula := option_map snd (before_eval n f).
End Propagate.
