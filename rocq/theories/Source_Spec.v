(** What the declarations of a file mean, written from the list of items alone. *)
From Coq Require Import List Arith Bool.
From Verif Require Import Syntax_Model Traversal_Spec Semantics_Spec Sort_Model Order_Model Macro_Model Parser_Model Parser_Spec Source_Model.
Import ListNotations.

(** The names that the items of a file declare. *)
Definition types_of (l : list item) : list name := flat_map (fun i => match i with IType n => [n] | _ => [] end) l.
Definition names_of (l : list item) : list name :=
  flat_map (fun i => match i with IFun n _ _ | ICell n _ _ => [n] | IStep a => [sa_name a] | _ => [] end) l.
Definition macros_of (l : list item) : list name := flat_map (fun i => match i with ILet n _ _ => [n] | _ => [] end) l.
Definition asserts_of (l : list item) : list term := flat_map (fun i => match i with IAssert t => [t] | _ => [] end) l.
Definition lemmas_of (l : list item) : list term := flat_map (fun i => match i with ILemma t => [t] | _ => [] end) l.
Definition queries_of (l : list item) : list term := flat_map (fun i => match i with IQuery t => [t] | _ => [] end) l.
Definition orders_of (l : list item) : list order := flat_map (fun i => match i with IOrder o => [o] | _ => [] end) l.
Definition cryptos_of (l : list item) : list crypto_ast := flat_map (fun i => match i with ICrypto c => [c] | _ => [] end) l.

(** The types that an item refers to; the one of the contents of a cell is not among them, see [C97_cell_type_refuted]. *)
Definition types_used (i : item) : list name :=
  match i with
  | IFun _ args out => out :: args
  | ICell _ args _ => args
  | IStep a => map snd (sa_params a)
  | ILet _ params _ => map snd params
  | _ => []
  end.

(** The sorts and functions that are there before the file is read; the name [init] is left to the file. *)
Record builtins (bs : list (name * sort)) (bf : list (name * fcache)) (kw : list name) : Prop := mkBuiltins {
  bi_sorts : NoDup (map fst bs);
  bi_kinds : forall x s, In (x, s) bs -> In s [SBool; SCondition; SMessage; SBitstring; SStep; SName];
  bi_funs : NoDup (map fst bf);
  bi_init : ~ In 6 (map fst bf) /\ ~ In 6 kw
}.

(** A file whose names are declared once, whose types exist, with one query and an initial step without parameters;
    functions give messages, booleans, names or steps. *)
Record well_declared (bs : list (name * sort)) (bf : list (name * fcache)) (kw : list name) (l : list item) : Prop := mkWellDeclared {
  wd_types : NoDup (types_of l) /\ forall x, In x (types_of l) -> ~ In x (map fst bs);
  wd_names : NoDup (names_of l) /\ forall x, In x (names_of l) -> ~ In x (map fst bf) /\ ~ In x kw;
  wd_macros : NoDup (macros_of l);
  wd_used : forall i x, In i l -> In x (types_used i) -> In x (map fst bs) \/ In x (types_of l);
  wd_results : forall n args out, In (IFun n args out) l -> exists s, In (out, s) bs /\ In s [SBool; SCondition; SMessage; SName; SStep];
  wd_init : In 6 (names_of l) -> exists a, In (IStep a) l /\ sa_name a = 6 /\ sa_params a = [];
  wd_query : exists q, queries_of l = [q]
}.

(** A user function never returns a boolean of the logic. *)
Definition cond_of (s : sort) : sort := match s with SBool => SCondition | _ => s end.

(** The function that an item declares under a name, given the sorts of the types. *)
Definition describes (srt : name -> option sort) (i : item) (x : name) (fc : fcache) : Prop :=
  match i with
  | IFun n args out => x = n /\ exists k ss o, srt out = Some o /\ map srt args = map Some ss /\
      (o = SName /\ fc = mkFc (Fname k) (SgFixed (map cond_of ss) SName) (Some SMessage) None \/
       o <> SName /\ fc = mkFc (Fuser k) (SgFixed (map cond_of ss) (cond_of o)) None None)
  | ICell n args _ => x = n /\ exists k ss, map srt args = map Some ss /\ fc = mkFc (Fcell k) (SgFixed (ss ++ [SStep]) SMessage) None None
  | IStep a => x = sa_name a /\ exists k ss ps, map srt (map snd (sa_params a)) = map Some ss /\ map fst ps = map fst (sa_params a) /\ map snd ps = ss /\
      fc = mkFc (Fstep k) (SgFixed ss SStep) None (Some (mkStep ps (sa_msg a) (sa_cond a)))
  | _ => False
  end.
(** The macro that an item declares. *)
Definition describes_macro (srt : name -> option sort) (i : item) (x : name) (m : macro_cache) : Prop :=
  match i with
  | ILet n params body => x = n /\ map fst (mc_args m) = map fst params /\ map srt (map snd params) = map Some (map snd (mc_args m)) /\ mc_body m = body
  | _ => False
  end.
(** The initial step of a file that declares none: no message, always enabled. *)
Definition default_init : item := IStep (mkStepAst 6 [] (TVar 8) (TVar 7) []).
Definition completed (l : list item) : list item := if in_dec Nat.eq_dec 6 (names_of l) then l else l ++ [default_init].

(** What reading the declarations of a file gives. *)
Record declared (bs : list (name * sort)) (bf : list (name * fcache)) (l : list item) (so : source) : Prop := mkDeclared {
  de_types : forall x s, e_sorts (penv_of (so_env so)) x = Some s ->
    In (x, s) bs \/ In x (types_of l) /\ exists k, s = SIndex k;
  de_types_distinct : forall x y s, In x (types_of l) -> In y (types_of l) -> e_sorts (penv_of (so_env so)) x = Some s ->
    e_sorts (penv_of (so_env so)) y = Some s -> x = y;
  de_types_all : forall x, In x (map fst bs) \/ In x (types_of l) -> e_sorts (penv_of (so_env so)) x <> None;
  de_builtin : forall x fc, In (x, fc) bf -> e_functions (penv_of (so_env so)) x = Some fc;
  de_funs : forall i x fc, In i (completed l) -> In x (names_of [i]) -> e_functions (penv_of (so_env so)) x = Some fc ->
    describes (e_sorts (penv_of (so_env so))) i x fc;
  de_funs_all : forall x, e_functions (penv_of (so_env so)) x <> None <-> In x (map fst bf) \/ In x (names_of (completed l));
  de_distinct : forall x y fc fc', In x (names_of (completed l)) -> In y (names_of (completed l)) ->
    e_functions (penv_of (so_env so)) x = Some fc -> e_functions (penv_of (so_env so)) y = Some fc' -> fc_sym fc = fc_sym fc' -> x = y;
  de_macros : forall i x m, In i l -> In x (macros_of [i]) -> e_macros (penv_of (so_env so)) x = Some m ->
    describes_macro (e_sorts (penv_of (so_env so))) i x m;
  de_macros_all : forall x, e_macros (penv_of (so_env so)) x <> None <-> In x (macros_of l);
  de_items : so_asserts so = asserts_of l /\ so_lemmas so = lemmas_of l /\ so_orders so = orders_of l /\ so_crypto so = cryptos_of l /\ queries_of l = [so_query so]
}.

(** ** Steps *)
(** The scope in which a step is read: its parameters, [in] for its input, and the fresh variables of an assignment. *)
Definition in_step {M : structure} (j : nat) (st : step_cache) (fresh : list (name * sort)) (vals fvals : list (D M)) : scope M :=
  bind_names (fun _ => None) (st_args st ++ [(5, SMessage)] ++ fresh) (vals ++ [app (Fmacro MInput) [app (Fstep j) vals]] ++ fvals).
(** [f] is [t] read in a step: its variables are those of [vs] and [fs], it binds no variable of theirs and means what
    [t] says. *)
Record read_in (env : penv) (qs : list tquant) (j : nat) (st : step_cache) (fresh : list (name * sort)) (vs fs : list var) (t : term) (f : formula) : Prop := mkReadIn {
  ri_free : forall i, occurs_free i f -> In i (map vid (vs ++ fs));
  ri_binds : forall i, binds i f -> ~ In i (map vid (vs ++ fs));
  ri_means : e_shadowing env = false -> counted env t -> NoDup (map fst (st_args st) ++ [5]) ->
    forall (M : structure) qsem mval, unfolds env qsem mval -> extensional M qsem -> respects qsem qs -> forall rho : Semantics_Spec.env M,
      eval f rho = value env qsem mval t RSymbolic (in_step j st fresh (map (fun v => rho (vid v)) vs) (map (fun v => rho (vid v)) fs))
}.
(** An assignment of a step to a cell with parameters of the given sorts; arguments in excess are dropped and missing
    ones are not noticed, see [C99_cell_arguments_refuted]. *)
Record asg_read (env : penv) (qs : list tquant) (j : nat) (st : step_cache) (p : pstep) (sorts : list sort) (a : assign_ast) (x : assignment) : Prop := mkAsgRead {
  ar_step : as_step x = p;
  ar_fresh : map vsort (as_fresh x) = map (fun b => sort_named env (snd b)) (match aa_fresh a with Some vs => vs | None => [] end);
  ar_types : forall b, In b (match aa_fresh a with Some vs => vs | None => [] end) -> e_sorts env (snd b) <> None /\ e_functions env (fst b) = None;
  ar_ids : NoDup (map vid (ps_vars p ++ as_fresh x));
  ar_names : NoDup (map fst (st_args st) ++ [5]) -> NoDup (map fst (st_args st) ++ [5] ++ map fst (match aa_fresh a with Some vs => vs | None => [] end));
  ar_args : length (as_args x) = Nat.min (length (aa_args a)) (length sorts) /\
    forall k t f, nth_error (aa_args a) k = Some t -> nth_error (as_args x) k = Some f ->
      read_in env qs j st (binders env (match aa_fresh a with Some vs => vs | None => [] end)) (ps_vars p) (as_fresh x) t f;
  ar_content : read_in env qs j st (binders env (match aa_fresh a with Some vs => vs | None => [] end)) (ps_vars p) (as_fresh x) (aa_term a) (as_content x)
}.
(** The terms of an assignment of a step with [k] parameters: under the parameters, the input and the fresh variables, they
    have no lets and their macro calls do not capture. *)
Definition gentle_asg (env : penv) (k : nat) (a : assign_ast) : Prop :=
  let n := S k + length (match aa_fresh a with Some vs => vs | None => [] end) in
  (forall t, In t (aa_args a) -> gentle env true n t) /\ gentle env true n (aa_term a).
(** Variables and applications. *)
Inductive applicative : term -> Prop :=
| apl_var x : applicative (TVar x)
| apl_app f args : (forall a, In a args -> applicative a) -> applicative (TApp f args).
(** The condition or message of a step, under [n] binders: lets of applications that do not use the defined name and are no
    truth values, around a term without lets. *)
Inductive let_body (env : penv) : nat -> term -> Prop :=
| lb_gentle n t : gentle env true n t -> let_body env n t
| lb_let n x ty t1 t2 : applicative t1 -> not_used x t1 ->
    (sort_realm (sort_named env ty) = None \/ sort_realm (sort_named env ty) = Some RSymbolic) -> let_body env (S n) t2 -> let_body env n (TLet x ty t1 t2).
(** A step. *)
Record step_read (env : penv) (qs : list tquant) (j : nat) (st : step_cache) (p : pstep) : Prop := mkStepRead {
  sr_fun : ps_fun p = j;
  sr_sorts : map vsort (ps_vars p) = map snd (st_args st);
  sr_ids : NoDup (map vid (ps_vars p));
  sr_msg : read_in env qs j st [] (ps_vars p) [] (st_msg st) (ps_msg p);
  sr_cond : read_in env qs j st [] (ps_vars p) [] (st_cond st) (ps_cond p)
}.

(** ** Cryptographic assumptions *)
(** [x] is a function, not a step or a cell, with these parameters and this result. *)
Definition takes (d : denv) (x : name) (ss : list sort) (o : sort) (f : fsym) : Prop :=
  exists fc, lookup x (d_funs d) = Some (EnFun fc) /\ fc_kind fc = SgFixed ss o /\ fc_sym fc = f.
Definition given (o : name) (os : list name) : bool := if in_dec Nat.eq_dec o os then true else false.
(** The assumption a line of a file asks for: the signatures are those of a mac, of a signature scheme and of
    authenticated encryption. The options of [int-ctxt] and a fourth function play no role, and [recursive] is written
    [recurisve]: see [C100_recursive_refuted] and [C100_fourth_refuted]. *)
Inductive asks (d : denv) : crypto_ast -> passumption -> Prop :=
| as_nonce fs os : asks d (mkCryptoAst 100 fs os) PNonce
| as_cell fs os : asks d (mkCryptoAst 101 fs os) PCell
| as_uf n x y os mac verify : In n [102; 103; 104; 105] ->
    takes d x [SMessage; SMessage] SMessage mac -> takes d y [SMessage; SMessage; SMessage] SCondition verify ->
    asks d (mkCryptoAst n [x; y] os) (PUf mac verify (given 110 os))
| as_euf n x y z os sign verify pk : In n [102; 103] ->
    takes d x [SMessage; SMessage] SMessage sign -> takes d y [SMessage; SMessage; SMessage] SCondition verify -> takes d z [SMessage] SMessage pk ->
    asks d (mkCryptoAst n [x; y; z] os) (PEuf sign verify pk)
| as_ctxt n x y z more os enc dec fail : In n [106; 107] -> length more <= 1 ->
    takes d x [SMessage; SMessage; SMessage] SMessage enc -> takes d y [SMessage; SMessage] SMessage dec -> takes d z [] SMessage fail ->
    asks d (mkCryptoAst n (x :: y :: z :: more) os) (PCtxt enc dec fail)
| as_unfolding os : asks d (mkCryptoAst 108 [] os) (PUnfolding (given 112 os) (given 111 os)).
(** No function takes [n] arguments or more. *)
Definition arities_below (d : denv) (n : nat) : Prop :=
  forall x fc ss o, lookup x (d_funs d) = Some (EnFun fc) -> fc_kind fc = SgFixed ss o -> length ss < n.
