(** C01, C02, C03. *)
From Coq Require Import List Arith Bool.
From Verif Require Import Syntax_Model Traversal_Model Traversal_Spec Traversal_Proofs.
Import ListNotations.

(** C01. The free-variable iterator stops, and its output lists, without repetition or omission, the variable
    leaves of [f] that are not below a quantifier binding their id. *)
Theorem C01_free_vars_exact : forall f : formula,
  exists n out, (forall m, n <= m -> free_vars m f = Some out) /\
    enumerates f (fun p g v => g = FVar v /\ ~ binds_above f p (vid v)) out.
Proof. exact free_vars_exact. Qed.
Print Assumptions C01_free_vars_exact.

(** forall x1. f(x1, exists x2. g(x1, x2), x2): only the last leaf is free. *)
Example C01_example :
  let x i := mkVar i SMessage in
  free_vars 100
    (FQ QForall [x 1] (FFun (Fuser 0)
       [FVar (x 1); FQ QExists [x 2] (FFun (Fuser 1) [FVar (x 1); FVar (x 2)]); FVar (x 2)]))
  = Some [x 2].
Proof. reflexivity. Qed.

(** C02. The used-variable iterator stops and lists every variable leaf once. *)
Theorem C02_used_vars_exact : forall f : formula,
  exists n out, (forall m, n <= m -> used_vars m f = Some out) /\
    enumerates f (fun _ g v => g = FVar v) out.
Proof. exact used_vars_exact. Qed.
Print Assumptions C02_used_vars_exact.

Example C02_example :
  let x i := mkVar i SMessage in
  used_vars 100
    (FQ QForall [x 1] (FFun (Fuser 0) [FVar (x 1); FQ QExists [x 2] (FVar (x 3)); FVar (x 2); FVar (x 1)]))
  = Some [x 1; x 2; x 3; x 1].
Proof. reflexivity. Qed.

(** C03. Both iterators stop; the [k]-th term yielded is the subterm at the [k]-th position of an enumeration
    of all positions without repetition, and the [k]-th depth yielded is the length of that position. *)
Theorem C03_all_terms_depths_exact : forall f : formula,
  exists n ts ds ps,
    (forall m, n <= m -> all_terms m f = Some ts /\ depths m f = Some ds) /\
    NoDup ps /\
    Forall2 (fun p g => at_path f p g) ps ts /\
    ds = map (@length nat) ps /\
    (forall p g, at_path f p g -> In p ps).
Proof. exact all_depth_exact. Qed.
Print Assumptions C03_all_terms_depths_exact.

Example C03_example :
  let x i := FVar (mkVar i SMessage) in
  let g := FFun (Fuser 1) [x 1] in
  let f := FFun (Fuser 0) [g; x 2] in
  all_terms 100 f = Some [x 2; x 1; g; f] /\ depths 100 f = Some [1; 2; 1; 0].
Proof. split; reflexivity. Qed.
