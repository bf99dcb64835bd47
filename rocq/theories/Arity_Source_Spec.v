(** The signatures of the functions of a file. *)
From Coq Require Import List Arith Bool.
From Verif Require Import Syntax_Model Sort_Model Parser_Model Source_Model Assumption_Model Arity_Spec.
From Verif Require Evaluate_Model File_Model.
Import ListNotations.

(** The numbers of arguments that a declaration allows. *)
Definition allows (k : sigkind) (n : nat) : Prop :=
  match k with SgFixed ss _ => n = length ss | SgBools => True | SgEq | SgSub _ => n = 2 | SgIte => n = 3 end.

Definition declared_symbol (f : fsym) : Prop := match f with Fuser _ | Fname _ | Fstep _ | Fcell _ => True | _ => False end.

(** [sig] and [funs] are those of a file: builtin functions are known with their numbers of arguments; declared functions are listed with their
    declarations, and quantifiers are functions of their free variables. *)
Record signatures (bf : list (name * fcache)) (d : denv) (qs : list tquant) (sig : fsym -> option (list sort * sort)) (funs : list fsym) : Prop := mkSignatures {
  sg_builtins : forall x fc, In (x, fc) bf -> fc_step fc = None /\ forall n, allows (fc_kind fc) n -> takes sig funs (fc_sym fc) n;
  sg_declared : forall x e ss o, In (x, e) (d_funs d) -> declared_symbol (fc_sym (entry_cache e)) -> fc_kind (entry_cache e) = SgFixed ss o ->
    In (fc_sym (entry_cache e)) funs /\ sig (fc_sym (entry_cache e)) = Some (ss, o);
  sg_quantifiers : forall i q, nth_error qs i = Some q -> exists o, sig (Fquant i) = Some (map vsort (tf q), o);
  sg_listed : forall f ins out, In f funs -> sig f = Some (ins, out) -> takes sig funs f (length ins)
}.

(** An assumption of a file, once its functions are known to be user functions. *)
Inductive same_assumption : passumption -> assumption -> Prop :=
| sa_uf m v h : same_assumption (PUf (Fuser m) (Fuser v) h) (AUf m v h)
| sa_euf s v p : same_assumption (PEuf (Fuser s) (Fuser v) (Fuser p)) (AEuf s v p)
| sa_ctxt e c f : same_assumption (PCtxt (Fuser e) (Fuser c) (Fuser f)) (ACtxt e c f)
| sa_nonce : same_assumption PNonce ANonce
| sa_cell : same_assumption PCell ACell
| sa_unfolding a b : same_assumption (PUnfolding a b) (AUnfolding a b).
