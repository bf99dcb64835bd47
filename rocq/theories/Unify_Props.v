(** C08, C09. *)
From Coq Require Import List Arith Bool Lia.
From Verif Require Import Syntax_Model Traversal_Spec Semantics_Spec Subst_Model Unify_Model Unify_Spec Unify_Proofs.
Import ListNotations.

(** C08. The equations of a returned unifier imply, in every structure, that the two terms are equal. *)
Theorem C08_unifier_sound : forall fuel l r u, mgu fuel l r = Some (Some u) ->
    forall (M : structure) (rho : env M),
      (forall i t, In (i, t) (fst u ++ snd u) -> rho i = eval t rho) -> eval l rho = eval r rho.
Proof. exact mgu_sound. Qed.
Print Assumptions C08_unifier_sound.

(** The same for the formula built from the unifier by [as_equalities]. *)
Theorem C08_equalities_sound : forall fuel l r u get_sort eqs,
    mgu fuel l r = Some (Some u) -> as_equalities get_sort u = Some eqs ->
    forall (M : structure) (rho : env M), holds (ands eqs) rho -> eval (M:=M) l rho = eval r rho.
Proof. exact mgu_equalities_sound. Qed.
Print Assumptions C08_equalities_sound.

(** f(x1, k(x2)) against f(g(x3), x4). *)
Example C08_example :
  let l := f2 (mv 1) (FFun (Fuser 11) [mv 2]) in let r := f2 (FFun (Fuser 12) [mv 3]) (mv 4) in
  mgu 10 l r = Some (Some ([(1, FFun (Fuser 12) [mv 3])], [(4, FFun (Fuser 11) [mv 2])])) /\
  as_equalities (fun _ => Some SMessage) ([(1, FFun (Fuser 12) [mv 3])], [(4, FFun (Fuser 11) [mv 2])])
  = Some [meq (mv 1) (FFun (Fuser 12) [mv 3]); meq (mv 4) (FFun (Fuser 11) [mv 2])].
Proof. split; reflexivity. Qed.

(** C09. Never misses a match, on terms in which no variable is repeated, variables apart. *)
Theorem C09_linear_complete_partial : forall l r, linear l -> linear r -> vars_apart l r ->
    exists n ans, (forall m, n <= m -> mgu m l r = Some ans) /\ (unifiable l r -> ans <> None).
Proof. exact mgu_linear. Qed.
Print Assumptions C09_linear_complete_partial.

(** ... and when the right-hand term has no variable (any left-hand term). *)
Theorem C09_ground_right_complete_partial : forall l r, no_vars r ->
    exists n ans, (forall m, n <= m -> mgu m l r = Some ans) /\ (unifiable l r -> ans <> None).
Proof. exact mgu_ground_right. Qed.
Print Assumptions C09_ground_right_complete_partial.

(** An answer, when there is one, does not exclude any common instance. *)
Theorem C09_most_general_partial : forall fuel l r u s g,
    mgu fuel l r = Some (Some u) -> inst s l g -> inst s r g ->
    forall i t, In (i, t) (fst u ++ snd u) -> inst s t (s i).
Proof. exact mgu_general. Qed.
Print Assumptions C09_most_general_partial.

(** Repeated variable on the right: unifiable, and the search never ends (line 164). *)
Theorem C09_terminates_refuted : exists l r, unifiable l r /\ forall fuel, mgu fuel l r = None.
Proof. exact (ex_intro _ _ (ex_intro _ _ (conj diverging_pair_unifiable mgu_diverges))). Qed.
Print Assumptions C09_terminates_refuted.

(** Repeated variable on the left: unifiable, and the search answers no. *)
Theorem C09_complete_refuted : exists l r, unifiable l r /\ forall fuel, 3 <= fuel -> mgu fuel l r = Some None.
Proof. exact (ex_intro _ _ (ex_intro _ _ (conj missed_unifiable missed_none))). Qed.
Print Assumptions C09_complete_refuted.

(** A repeated variable on the left, a ground term on the right. *)
Example C09_example :
  mgu 10 (f2 (mv 1) (mv 1)) (f2 (cst 0) (cst 0)) = Some (Some ([(1, cst 0)], [])) /\
  mgu 10 (f2 (mv 1) (mv 1)) (f2 (cst 0) (cst 1)) = Some None /\
  unifiable (f2 (mv 1) (mv 1)) (f2 (cst 0) (cst 0)) /\ linear (f2 (mv 1) (mv 2)).
Proof.
  split; [reflexivity|split; [reflexivity|split]].
  - exists (fun _ => G (Fuser 0) []), (G (Fuser 10) [G (Fuser 0) []; G (Fuser 0) []]).
    split; constructor; repeat constructor; apply (inst_var (fun _ => G (Fuser 0) []) (mkVar 1 SMessage)).
  - intros p p' v v' H H' E.
    inversion H as [|s l i q a g Hi Ha|]; subst. inversion H' as [|s' l' i' q' a' g' Hi' Ha'|]; subst.
    destruct i as [|[|[|?]]]; cbn in Hi; try discriminate; injection Hi as <-; inversion Ha; subst;
      destruct i' as [|[|[|?]]]; cbn in Hi'; try discriminate; injection Hi' as <-; inversion Ha'; subst;
      cbn in E; try reflexivity; lia.
Qed.
