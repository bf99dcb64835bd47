From Coq Require Import List NArith Lia Ascii String.
From Verif Require Import Syntax_Model Sort_Model Sort_Spec Squirrel_Model Readback_Model Readback_Spec Readback_Proofs.
Import ListNotations.
Local Open Scope list_scope.

(** C49. Terms that are well sorted for common sorts [sigma] of the unknown terms, converted one after the other with
    a shared table: there is one numbering of the unknown terms, one-to-one, that explains all the results. A failure
    is only possible when a sort cannot be inferred, a panic when there are 2^32 unknown terms. *)
Theorem C49_distinct_partial : forall functions kind is_tmp sigma l,
    Forall (fun te => exists s, used functions kind sigma (fst te) s /\
                                forall s', snd te = Some s' -> same_sort REvaluated s' s) l ->
    exists book, one_to_one book /\
      (forall t v, In (t, v) book -> unknown functions t /\ same_sort REvaluated (sigma t) (vsort v)) /\
      Forall2 (fun te r => match r with
                           | OOk f => reads functions book (fst te) f
                           | OErr => ~ inferable functions kind is_tmp
                                         (match snd te with Some _ => true | None => false end) (fst te)
                           | OPanic => (4294967296 <= N.of_nat (List.length book))%N
                           | OFuel => False
                           end) l (read_all functions kind is_tmp l [] []).
Proof. exact c49_distinct. Qed.
Print Assumptions C49_distinct_partial.

(** Same for the literals of the solver, each with its own table, as the program does. *)
Theorem C49_literal : forall functions kind is_tmp sigma x s f,
    used functions kind sigma (literal_of x) s -> read_one functions kind is_tmp (literal_of x) = OOk f ->
    exists book, one_to_one book /\
      (forall t v, In (t, v) book -> unknown functions t /\ same_sort REvaluated (sigma t) (vsort v)) /\
      reads functions book (literal_of x) f.
Proof. exact c49_literal. Qed.
Print Assumptions C49_literal.

(** Literals have no binders, and a term that binds a variable is always refused. *)
Theorem C49_no_binder : (forall x, flat (literal_of x)) /\
    forall functions kind is_tmp l,
      Forall2 (fun te r => forall f, r = OOk f -> bindless functions (fst te)) l (read_all functions kind is_tmp l [] []).
Proof. exact (conj literal_flat c49_bindless). Qed.
Print Assumptions C49_no_binder.

(** Without common sorts: the unknown [X] met at two sorts in two literals, and then another unknown [Y]. *)
Definition ex_functions (c : chars) : option fsym :=
  if chars_eqb c (lit "p") then Some (Fuser 0) else if chars_eqb c (lit "q") then Some (Fuser 1)
  else if chars_eqb c (lit "mac") then Some (Fuser 2) else if chars_eqb c (lit "=") then Some (Fb CEq)
  else if chars_eqb c (lit "ite") then Some Fite else None.
Definition ex_kind (g : fsym) : sigkind :=
  match g with
  | Fuser 0 => SgFixed [SMessage] SBool
  | Fuser 1 => SgFixed [SIndex 0; SIndex 0] SBool
  | Fuser 2 => SgFixed [SMessage; SMessage] SMessage
  | Fb CEq => SgEq
  | Fite => SgIte
  | _ => SgFixed [] SBool
  end.
Definition ex_tmp (g : fsym) : bool := match g with Ftmp _ => true | _ => false end.
Definition X := TVar (lit "X0").
Definition Y := TVar (lit "X1").

Theorem C49_distinct_refuted : exists functions kind is_tmp l,
    (forall te, In te l -> exists sigma, used functions kind sigma (fst te) SBool) /\
    exists f g args, read_all functions kind is_tmp l [] [] = [OOk f; OOk (FFun g args)] /\
      map fst l = [TApp (lit "p") [X]; TApp (lit "q") [X; Y]] /\ X <> Y /\
      exists v, args = [FVar v; FVar v].
Proof.
  exists ex_functions, ex_kind, ex_tmp, [(TApp (lit "p") [X], Some SBool); (TApp (lit "q") [X; Y], Some SBool)]. split.
  - intros te [<-|[<-|[]]].
    + exists (fun _ => SMessage). eapply us_app with (ss := [SMessage]); [reflexivity| |apply ac_fixed|left; reflexivity].
      repeat constructor.
    + exists (fun _ => SIndex 0).
      eapply us_app with (ss := [SIndex 0; SIndex 0]); [reflexivity| |apply ac_fixed|left; reflexivity].
      repeat constructor.
  - do 3 eexists. split; [reflexivity|]. split; [reflexivity|]. split; [discriminate|]. eexists. reflexivity.
Qed.
Print Assumptions C49_distinct_refuted.

(** [mac(X0,sk(X1)) = mac(X1,X0)], where [sk] is unknown. *)
Example C49_example :
  let sk := TApp (lit "sk") [Y] in
  let t := TApp (lit "=") [TApp (lit "mac") [X; sk]; TApp (lit "mac") [Y; X]] in
  used ex_functions ex_kind (fun _ => SBitstring) t SBool /\ inferable ex_functions ex_kind ex_tmp false t /\
  read_one ex_functions ex_kind ex_tmp t =
    OOk (FFun (Fb CEq) [FFun (Fuser 2) [FVar (mkVar 0 SMessage); FVar (mkVar 1 SMessage)];
                        FFun (Fuser 2) [FVar (mkVar 2 SMessage); FVar (mkVar 0 SMessage)]]).
Proof.
  cbv zeta. split; [|split; [|reflexivity]].
  - eapply us_app with (ss := [SMessage; SMessage]); [reflexivity| |apply ac_eq|left; reflexivity].
    constructor; [|constructor; [|constructor]];
      (eapply us_app with (ss := [SMessage; SMessage]); [reflexivity| |apply ac_fixed|left; reflexivity]);
      (constructor; [|constructor; [|constructor]]);
      (apply us_unknown; [exact I || reflexivity|right; split; [reflexivity|right; constructor]]).
  - eapply if_app; [reflexivity|reflexivity|right; discriminate|]. cbn.
    constructor; [|constructor; [|constructor]];
      (eapply if_app; [reflexivity|reflexivity|right; discriminate|]); cbn;
      (constructor; [|constructor; [|constructor]]); apply if_unknown; exact I || reflexivity.
Qed.

(** C50. Never more arguments than the signature has, whatever the terms... *)
Theorem C50_no_more_partial : forall functions kind is_tmp l,
    Forall (fun r => forall f, r = OOk f -> arities kind le f) (read_all functions kind is_tmp l [] []).
Proof. exact (fun functions kind is_tmp l => read_all_arities functions kind is_tmp l [] []). Qed.
Print Assumptions C50_no_more_partial.

(** ...and exactly as many when the solver's terms have. *)
Theorem C50_exact_partial : forall functions kind is_tmp l,
    Forall (fun te => right_arity functions kind (fst te)) l ->
    Forall (fun r => forall f, r = OOk f -> arities kind eq f) (read_all functions kind is_tmp l [] []).
Proof. exact (fun functions kind is_tmp l H => read_all_exact functions kind is_tmp l H [] []). Qed.
Print Assumptions C50_exact_partial.

(** But missing arguments are accepted. *)
Theorem C50_refuted : exists functions kind is_tmp t g fs,
    read_one functions kind is_tmp t = OOk (FFun g fs) /\ arity (kind g) = Some 2 /\ List.length fs = 0.
Proof.
  exists ex_functions, ex_kind, ex_tmp, (TApp (lit "mac") []). do 2 eexists. split; [reflexivity|]. split; reflexivity.
Qed.
Print Assumptions C50_refuted.

Example C50_example :
  read_all ex_functions ex_kind ex_tmp
    [(TApp (lit "mac") [X; Y; X], None); (TApp (lit "mac") [X; Y], None); (TApp (lit "mac") [X], None)] [] [] =
  [OErr; OOk (FFun (Fuser 2) [FVar (mkVar 0 SMessage); FVar (mkVar 1 SMessage)]);
   OOk (FFun (Fuser 2) [FVar (mkVar 0 SMessage)])] /\
  right_arity ex_functions ex_kind (TApp (lit "mac") [X; Y]).
Proof.
  split; [reflexivity|]. eapply ra_app; [reflexivity|cbn; congruence|]. repeat constructor.
Qed.

(** C51. Names in ASCII are unquoted exactly. *)
Theorem C51_unquote_partial : forall inner, ascii_text inner -> trim_quotes (quoted inner) = inner.
Proof. exact trim_ascii. Qed.
Print Assumptions C51_unquote_partial.

Theorem C51_unquoted : forall s, ~ is_quoted s -> s <> [39%N] -> trim_quotes s = s.
Proof. exact trim_other. Qed.
Print Assumptions C51_unquoted.

(** All other names keep the closing quote; a lone quote disappears. *)
Theorem C51_unquote_refuted : (forall inner, ~ ascii_text inner -> trim_quotes (quoted inner) = inner ++ [39%N]) /\
    trim_quotes [39%N] = [].
Proof. exact (conj trim_wide eq_refl). Qed.
Print Assumptions C51_unquote_refuted.

Example C51_example :
  trim_quotes (lit "'ta$not'") = lit "ta$not" /\ trim_quotes (lit "ta$not") = lit "ta$not" /\
  trim_quotes (lit "don't") = lit "don't" /\ trim_quotes (quoted [233%N; 97%N]) = [233%N; 97%N; 39%N].
Proof. repeat split; reflexivity. Qed.

(** ** C83: literals mean what the solver printed *)

(** In every structure where both negations are the negation and [=] is equality. *)
Theorem C83_literal_partial : forall D op equal negation rho x d,
    (forall x y, op (lit "=") [x; y] = equal x y) -> (forall x, op (lit "not") [x] = negation x) ->
    (forall x, op (lit "ta$not") [x] = negation x) ->
    lascii x -> lmeans D op equal negation rho x d -> tmeaning D op rho (literal_of x) = d.
Proof. intros D op equal negation rho x d H1 H2 H3. apply literal_meaning; assumption. Qed.
Print Assumptions C83_literal_partial.

(** Not for other names (C51): the quoted name of one character above 127. *)
Theorem C83_refuted : exists x, forall D op equal negation rho, exists a b,
    lmeans D op equal negation rho x (op a []) /\ tmeaning D op rho (literal_of x) = op b [] /\ a <> b.
Proof.
  exists (XPos (XPred (quoted [233%N]) [])). intros D op equal negation rho. exists [233%N], [233%N; 39%N].
  split; [|split; [reflexivity|discriminate]]. apply lm_pos, am_pred; [left; reflexivity|constructor].
Qed.
Print Assumptions C83_refuted.

Definition ex_eq (x y : nat) : nat := if Nat.eqb x y then 1 else 0.
Definition ex_neg (x : nat) : nat := 1 - x.
Definition ex_op (h : chars) (l : list nat) : nat :=
  match l with
  | [x; y] => if chars_eqb h (lit "=") then ex_eq x y else 2 * x + y
  | [x] => if chars_eqb h (lit "f") then S x else ex_neg x
  | _ => 0
  end.
Definition ex_rho (v : chars) : nat := if chars_eqb v (lit "X0") then 3 else 0.
Definition ex_lit : xlit :=
  XNeq (XApp (lit "'f'") [XVar (lit "X0")]) (XApp (lit "pair") [XVar (lit "X1"); XVar (lit "X0")]).
Example C83_example : lascii ex_lit /\ lmeans nat ex_op ex_eq ex_neg ex_rho ex_lit 1 /\ tmeaning nat ex_op ex_rho (literal_of ex_lit) = 1.
Proof.
  split; [|split; [|reflexivity]].
  - split; repeat constructor.
  - change 1 with (ex_neg (ex_eq (ex_op (lit "f") [ex_rho (lit "X0")]) (ex_op (lit "pair") [ex_rho (lit "X1"); ex_rho (lit "X0")]))).
    apply lm_neq; apply xm_app.
    + left. reflexivity.
    + repeat constructor.
    + right. split; [reflexivity|]. split; [intros [i E]; discriminate E|discriminate].
    + repeat constructor.
Qed.
