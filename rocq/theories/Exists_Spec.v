(** What merging disjuncts should mean. *)
From Coq Require Import List.
From Verif Require Import Syntax_Model Semantics_Spec Exists_Model.
Import ListNotations.

(** The disjunction, each disjunct under its own existential. *)
Definition disjunction (ds : list disjunct) : formula := ors (map (fun d => mk_exists (fst d) (snd d)) ds).
(** No id bound with two sorts by one disjunct. *)
Definition one_sort (vs : list var) : Prop := forall v w, In v vs -> In w vs -> vid v = vid w -> v = w.
(** A variable bound by some disjunct is not free in another one that does not bind it. *)
Definition no_clash (ds : list disjunct) : Prop :=
  forall d e v, In d ds -> In e ds -> In v (fst e) -> occurs_free (vid v) (snd d) -> In (vid v) (map vid (fst d)).
