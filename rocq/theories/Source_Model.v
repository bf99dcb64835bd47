(** From the declarations of a file to the parts of a problem: parser/parser/{declare.rs, parsing_environement.rs},
    parser/parser/parse_step_cell_asserts/{step.rs, cells.rs, assert_crypto.rs}.
    Paths are relative to /repo/crates/cryptovampire/src. Locations and log messages are dropped. *)
From Coq Require Import List Arith Bool.
From Verif Require Import Syntax_Model Subst_Model Sort_Model Order_Model Macro_Model Parser_Model.
Import ListNotations.

(** More identifiers that the code knows: problem/step.rs 46, function/builtin.rs 202, term_algebra/connective.rs 64,
    and those of assert_crypto.rs. *)
Definition n_init : name := 6.
Definition n_empty : name := 7.
Definition n_ta_true : name := 8.
Definition n_nonce : name := 100.
Definition n_memory_cell : name := 101.
Definition n_euf_cma : name := 102.
Definition n_euf_cma' : name := 103.
Definition n_uf_cma : name := 104.
Definition n_uf_cma' : name := 105.
Definition n_int_ctxt : name := 106.
Definition n_int_ctxt' : name := 107.
Definition n_unfolding : name := 108.
Definition o_hmac : name := 110.
Definition o_recurisve : name := 111.
Definition o_direct : name := 112.
Definition o_recursive : name := 113.

(** parser/ast/cell.rs 75-82 [Assignement]. *)
Record assign_ast : Type := mkAsgAst {
  aa_fresh : option (list (name * name)); aa_cell : name; aa_args : list term; aa_term : term }.
(** parser/ast/step.rs 30-41 [Step]; no assignment block is an empty one (step.rs 94 does nothing in both cases). *)
Record step_ast : Type := mkStepAst {
  sa_name : name; sa_params : list (name * name); sa_cond : term; sa_msg : term; sa_asgs : list assign_ast }.
(** parser/ast/assertions.rs 69-77 [AssertCrypto]. *)
Record crypto_ast : Type := mkCryptoAst { ca_name : name; ca_funs : list name; ca_options : list name }.

(** parser/ast/main.rs [AST], [Declaration]; options of the other items are never read. *)
Inductive item : Type :=
| IType (n : name)
| IFun (n : name) (args : list name) (out : name)
| ICell (n : name) (args : list name) (out : name)
| IStep (s : step_ast)
| ILet (n : name) (params : list (name * name)) (body : term)
| IAssert (t : term)
| ILemma (t : term)
| IQuery (t : term)
| IOrder (o : order)
| ICrypto (c : crypto_ast).

(** parser/ast/step.rs 11-28 [INIT_STEP_AST]. *)
Definition init_step_ast : step_ast := mkStepAst n_init [] (TVar n_ta_true) (TVar n_empty) [].

(** parsing_environement/cache.rs 25-41 [FunctionCache], [CellCache]; the assignments of cells are collected by [parse_steps]. *)
Inductive entry : Type :=
| EnFun (fc : fcache)
| EnStep (fc : fcache) (st : step_cache) (a : step_ast)
| EnCell (fc : fcache) (k : nat) (args : list sort).

(** parsing_environement.rs 60-86 [Environement]: the hash maps as association lists with distinct keys.
    [d_used], [d_used_macros]: [used_name], without and with a final [!]. *)
Record denv : Type := mkDenv {
  d_funs : list (name * entry);
  d_sorts : list (name * sort);
  d_macros : list (name * macro_cache);
  d_used : list name;
  d_used_macros : list name;
  d_shadowing : bool }.

Definition lookup {A} (x : name) (l : list (name * A)) : option A := option_map snd (find (fun e => Nat.eqb (fst e) x) l).
Definition mem (x : name) (l : list name) : bool := existsb (Nat.eqb x) l.
Definition is_some {A} (o : option A) : bool := match o with Some _ => true | None => false end.

(** cache.rs 112-130 [signature]: what elaboration sees of an entry. *)
Definition entry_cache (e : entry) : fcache := match e with EnFun fc => fc | EnStep fc _ _ => fc | EnCell fc _ _ => fc end.
Definition penv_of (d : denv) : penv :=
  mkEnv (fun x => option_map entry_cache (lookup x (d_funs d))) (fun x => lookup x (d_sorts d)) (fun x => lookup x (d_macros d)) (d_shadowing d).

(** parsing_environement.rs 141-143 [contains_name], 149-151 [container_macro_name]. *)
Definition contains_name (d : denv) (x : name) : bool := is_some (lookup x (d_funs d)) || mem x (d_used d).
Definition contains_macro (d : denv) (x : name) : bool := is_some (lookup x (d_macros d)) || mem x (d_used_macros d).

Inductive dres (A : Type) : Type := DErr | DPanic | DOk (a : A).
Arguments DErr {A}. Arguments DPanic {A}. Arguments DOk {A}.

Definition add_fun (d : denv) (x : name) (e : entry) : denv :=
  mkDenv (d_funs d ++ [(x, e)]) (d_sorts d) (d_macros d) (d_used d) (d_used_macros d) (d_shadowing d).
Definition add_sort (d : denv) (x : name) (s : sort) : denv :=
  mkDenv (d_funs d) (d_sorts d ++ [(x, s)]) (d_macros d) (d_used d) (d_used_macros d) (d_shadowing d).
Definition add_macro (d : denv) (x : name) (m : macro_cache) : denv :=
  mkDenv (d_funs d) (d_sorts d) (d_macros d ++ [(x, m)]) (d_used d) (d_used_macros d) (d_shadowing d).

(** declare.rs 32-74 [declare_sorts]; a new sort is identified by the number of sorts there were. *)
Fixpoint declare_sorts (d : denv) (l : list item) : dres denv :=
  match l with
  | [] => DOk d
  | IType n :: l' => if is_some (lookup n (d_sorts d)) then DErr
                     else declare_sorts (add_sort d n (SIndex (length (d_sorts d)))) l'
  | _ :: l' => declare_sorts d l'
  end.

(** [names.map(get_sort).collect::<Result<Vec<_>, _>>()]: parsing_environement.rs 206-217 [get_sort]. *)
Fixpoint get_sorts (d : denv) (l : list name) : option (list sort) :=
  match l with
  | [] => Some []
  | x :: l' => match lookup x (d_sorts d), get_sorts d l' with Some s, Some ss => Some (s :: ss) | _, _ => None end
  end.

(** declare.rs 164-170. *)
Definition user_bool_to_condition (s : sort) : sort := match s with SBool => SCondition | _ => s end.
(** formula/sort/mod.rs 149-151. *)
Definition is_term_algebra (s : sort) : bool := is_some (maybe_evaluated_sort s) || match s with SStep | SName => true | _ => false end.

(** declare.rs 172-226 [declare_function]; function/function.rs 281-297 panics on other result sorts. A new symbol is
    identified by the number of names there were. *)
Definition declare_function (d : denv) (n : name) (args : list name) (out : name) : dres denv :=
  if contains_name d n then DErr
  else match lookup out (d_sorts d) with
       | None => DErr
       | Some o =>
           match get_sorts d args with
           | None => DErr
           | Some ss =>
               let o := user_bool_to_condition o in
               let ss := map user_bool_to_condition ss in
               let k := length (d_funs d) in
               if sort_eqb o SName then DOk (add_fun d n (EnFun (mkFc (Fname k) (SgFixed ss SName) (Some SMessage) None)))
               else if is_term_algebra o then DOk (add_fun d n (EnFun (mkFc (Fuser k) (SgFixed ss o) None None)))
               else DPanic
           end
       end.

(** declare.rs 228-269 [declare_step]. *)
Definition declare_step (d : denv) (a : step_ast) : dres denv :=
  if contains_name d (sa_name a) then DErr
  else match get_sorts d (map snd (sa_params a)) with
       | None => DErr
       | Some ss =>
           let st := mkStep (combine (map fst (sa_params a)) ss) (sa_msg a) (sa_cond a) in
           DOk (add_fun d (sa_name a) (EnStep (mkFc (Fstep (length (d_funs d))) (SgFixed ss SStep) None (Some st)) st a))
       end.

(** declare.rs 271-313 [declare_cell]: the declared result sort is not read. *)
Definition declare_cell (d : denv) (n : name) (args : list name) : dres denv :=
  if contains_name d n then DErr
  else match get_sorts d args with
       | None => DErr
       | Some ss => let k := length (d_funs d) in
                    DOk (add_fun d n (EnCell (mkFc (Fcell k) (SgFixed (ss ++ [SStep]) SMessage) None None) k ss))
       end.

(** declare.rs 315-346 [declare_let]. *)
Definition declare_let (d : denv) (n : name) (params : list (name * name)) (body : term) : dres denv :=
  if contains_macro d n then DErr
  else match get_sorts d (map snd params) with
       | None => DErr
       | Some ss => DOk (add_macro d n (mkMac (combine (map fst params) ss) body))
       end.

(** What [fetch_all] collects. [ft_query]: [None] is the error of a second query. *)
Record fetched : Type := mkFetched {
  ft_env : denv; ft_asserts : list term; ft_lemmas : list term; ft_orders : list order; ft_crypto : list crypto_ast;
  ft_query : option (option term); ft_init : bool }.
Definition with_env (f : fetched) (d : denv) : fetched :=
  mkFetched d (ft_asserts f) (ft_lemmas f) (ft_orders f) (ft_crypto f) (ft_query f) (ft_init f).
Definition on_env (f : fetched) (r : dres denv) : dres fetched :=
  match r with DErr => DErr | DPanic => DPanic | DOk d => DOk (with_env f d) end.

(** declare.rs 90-148: one item. *)
Definition fetch_item (f : fetched) (i : item) : dres fetched :=
  match ft_query f with
  | None => DOk f
  | Some q =>
      match i with
      | IType _ => DOk f
      | IFun n args out => on_env f (declare_function (ft_env f) n args out)
      | ICell n args _ => on_env f (declare_cell (ft_env f) n args)
      | IStep a =>
          match declare_step (ft_env f) a with
          | DErr => DErr
          | DPanic => DPanic
          | DOk d =>
              if Nat.eqb (sa_name a) n_init then
                if Nat.eqb (length (sa_params a)) 0
                then DOk (mkFetched d (ft_asserts f) (ft_lemmas f) (ft_orders f) (ft_crypto f) (ft_query f) true)
                else DErr
              else DOk (with_env f d)
          end
      | ILet n params body => on_env f (declare_let (ft_env f) n params body)
      | IAssert t => DOk (mkFetched (ft_env f) (ft_asserts f ++ [t]) (ft_lemmas f) (ft_orders f) (ft_crypto f) (ft_query f) (ft_init f))
      | ILemma t => DOk (mkFetched (ft_env f) (ft_asserts f) (ft_lemmas f ++ [t]) (ft_orders f) (ft_crypto f) (ft_query f) (ft_init f))
      | IQuery t => DOk (mkFetched (ft_env f) (ft_asserts f) (ft_lemmas f) (ft_orders f) (ft_crypto f)
                           (match q with Some _ => None | None => Some (Some t) end) (ft_init f))
      | IOrder o => DOk (mkFetched (ft_env f) (ft_asserts f) (ft_lemmas f) (ft_orders f ++ [o]) (ft_crypto f) (ft_query f) (ft_init f))
      | ICrypto c => DOk (mkFetched (ft_env f) (ft_asserts f) (ft_lemmas f) (ft_orders f) (ft_crypto f ++ [c]) (ft_query f) (ft_init f))
      end
  end.
Fixpoint fetch_items (f : fetched) (l : list item) : dres fetched :=
  match l with
  | [] => DOk f
  | i :: l' => match fetch_item f i with DErr => DErr | DPanic => DPanic | DOk f' => fetch_items f' l' end
  end.

(** What is read of a file before its terms are. *)
Record source : Type := mkSource {
  so_env : denv; so_asserts : list term; so_lemmas : list term; so_orders : list order; so_crypto : list crypto_ast; so_query : term }.

(** declare.rs 76-162 [fetch_all]. *)
Definition fetch_all (d : denv) (l : list item) : dres source :=
  match fetch_items (mkFetched d [] [] [] [] (Some None) false) l with
  | DErr => DErr
  | DPanic => DPanic
  | DOk f =>
      match (if ft_init f then DOk (ft_env f) else declare_step (ft_env f) init_step_ast) with
      | DErr => DErr
      | DPanic => DPanic
      | DOk d =>
          match ft_query f with
          | Some (Some q) => DOk (mkSource d (ft_asserts f) (ft_lemmas f) (ft_orders f) (ft_crypto f) q)
          | _ => DErr
          end
      end
  end.

(** parsing_environement.rs 108-139 [Environement::new], 303-325: builtin sorts and functions, keywords. *)
Definition new_env (bs : list (name * sort)) (bf : list (name * fcache)) (kw : list name) (shadowing : bool) : denv :=
  mkDenv (map (fun e => (fst e, EnFun (snd e))) bf) bs [] kw [] shadowing.
Definition declare_all (bs : list (name * sort)) (bf : list (name * fcache)) (kw : list name) (shadowing : bool) (l : list item) : dres source :=
  match declare_sorts (new_env bs bf kw shadowing) l with
  | DErr => DErr
  | DPanic => DPanic
  | DOk d => fetch_all d l
  end.

Section Steps.
  Variable d : denv.
  Variable fuel : nat.

  (** [.apply_substitution2(&substitution)]. *)
  Definition remove_in (k : nat) (input : formula) (m : M formula) : M formula :=
    f <- m ;; lift_opt (sapply (one_var k input) f).

  (** step.rs 105-137: the fresh variables of an assignment; [n] is the number of static variables. *)
  Fixpoint parse_fresh (n i : nat) (vs : list (name * name)) : M (list var) :=
    match vs with
    | [] => ret []
    | x :: vs' =>
        match lookup (snd x) (d_sorts d) with
        | None => fail
        | Some s =>
            b <- getbv ;;
            if contains_name d (fst x) || existsb (fun e => Nat.eqb (fst e) (fst x)) b then fail
            else
              _ <- pushbv (fst x, mkVar (n + i) s) ;;
              l <- parse_fresh n (S i) vs' ;;
              ret (mkVar (n + i) s :: l)
        end
    end.

  (** step.rs 95-183: one assignment. *)
  Definition parse_assignment (n k : nat) (input : formula) (ps : pstep) (a : assign_ast) : M (name * assignment) :=
    fresh <- match aa_fresh a with
             | Some vs => _ <- truncbv n ;; parse_fresh n 0 vs
             | None => ret []
             end ;;
    let n := n + length fresh in
    match lookup (aa_cell a) (d_funs d) with
    | Some (EnCell _ _ sorts) =>
        args <- mapMM (fun ts => _ <- truncbv n ;;
                                 remove_in k input (parse (penv_of d) fuel (fst ts) RSymbolic (Some (PStatic (snd ts)))))
                      (combine (aa_args a) sorts) ;;
        _ <- truncbv n ;;
        content <- remove_in k input (parse (penv_of d) fuel (aa_term a) RSymbolic (Some (PStatic SMessage))) ;;
        ret (aa_cell a, mkAsg ps args content fresh)
    | _ => fail
    end.

  (** step.rs 33-196 [parse_step] ([used_variables] is not kept, see [Macro_Model.occuring_variables]); [j] is the
      number of the step's function. The assignments come with the names of the cells they are pushed to. *)
  Definition parse_step_decl (j : nat) (st : step_cache) (asgs : list assign_ast) : M (pstep * list (name * assignment)) :=
    let k := length (st_args st) in
    let vars := map snd (named_vars 0 (st_args st)) in
    let n := S k in
    let input := FFun (Fmacro MInput) [FFun (Fstep j) (map FVar vars)] in
    _ <- setbv (step_bvars st) ;;
    m <- parse (penv_of d) fuel (st_msg st) RSymbolic (Some (PStatic SMessage)) ;;
    _ <- truncbv n ;;
    c <- parse (penv_of d) fuel (st_cond st) RSymbolic (Some (PStatic SCondition)) ;;
    _ <- truncbv n ;;
    m <- lift_opt (sapply (one_var k input) m) ;;
    c <- lift_opt (sapply (one_var k input) c) ;;
    let ps := mkPStep j vars c m in
    l <- mapMM (parse_assignment n k input ps) asgs ;;
    ret (ps, l).

  (** step.rs 198-222 [parse_steps] on the entries of the hash map, in some order. *)
  Fixpoint parse_steps (l : list (name * entry)) : M (list pstep * list (name * assignment)) :=
    match l with
    | [] => ret ([], [])
    | (_, EnStep (mkFc (Fstep j) _ _ _) st a) :: l' =>
        x <- parse_step_decl j st (sa_asgs a) ;;
        y <- parse_steps l' ;;
        ret (fst x :: fst y, snd x ++ snd y)
    | _ :: l' => parse_steps l'
    end.

  (** cells.rs 12-61 [parse_cells]. *)
  Definition parse_cells (l : list (name * entry)) (asgs : list (name * assignment)) : list mcell :=
    flat_map (fun e => match snd e with
                       | EnCell _ k sorts => [mkCell k sorts (map snd (filter (fun a => Nat.eqb (fst a) (fst e)) asgs))]
                       | _ => []
                       end) l.
End Steps.

(** crypto_assumptions/mod.rs 42-49, before the functions are known to be user functions. *)
Inductive passumption : Type :=
| PUf (mac verify : fsym) (hmac : bool)
| PEuf (sign verify pk : fsym)
| PCtxt (enc dec fail : fsym)
| PNonce
| PCell
| PUnfolding (direct recursive : bool).

Section Crypto.
  Variable d : denv.

  (** crypto_assumptions/{uf_cma.rs 50-54, euf_cma.rs 44-46, int_ctxt.rs 43-46}. *)
  Definition MAC_SIG : sigkind := SgFixed [SMessage; SMessage] SMessage.
  Definition VERIFY_SIG : sigkind := SgFixed [SMessage; SMessage; SMessage] SCondition.
  Definition SIGN_SIG : sigkind := SgFixed [SMessage; SMessage] SMessage.
  Definition PK_SIG : sigkind := SgFixed [SMessage] SMessage.
  Definition ENC_SIG : sigkind := SgFixed [SMessage; SMessage; SMessage] SMessage.
  Definition DEC_SIG : sigkind := SgFixed [SMessage; SMessage] SMessage.
  Definition FAIL_SIG : sigkind := SgFixed [] SMessage.

  (** assert_crypto.rs 62-74 [verify_sign!]; running out of fuel is [Timeout]. *)
  Definition verify_sign (fuel : nat) (x : name) (k : sigkind) : outcome fsym :=
    match lookup x (d_funs d) with
    | Some (EnFun fc) =>
        let (h, s) := signature [] k in
        let (h, t) := signature h (fc_kind fc) in
        match sig_unify fuel h RSymbolic s t with
        | None => Timeout
        | Some None => Panic
        | Some (Some (_, Err _)) => Error
        | Some (Some (_, Ok _)) => Done (fc_sym fc) (mkPst [] [] [])
        end
    | _ => Error
    end.
  Definition also {A B} (o : outcome A) (f : A -> outcome B) : outcome B :=
    match o with Timeout => Timeout | Error => Error | Panic => Panic | Done a _ => f a end.
  Definition done {A} (a : A) : outcome A := Done a (mkPst [] [] []).

  (** assert_crypto.rs 97-121 [parse_uf_cma]. *)
  Definition parse_uf_cma (fuel : nat) (fs os : list name) : outcome passumption :=
    match fs with
    | [m; v] => also (verify_sign fuel m MAC_SIG) (fun mac => also (verify_sign fuel v VERIFY_SIG) (fun verify =>
                  done (PUf mac verify (mem o_hmac os))))
    | _ => Error
    end.
  (** assert_crypto.rs 76-95 [parse_euf_cma]. *)
  Definition parse_euf_cma (fuel : nat) (fs os : list name) : outcome passumption :=
    match fs with
    | [_; _] => parse_uf_cma fuel fs os
    | [s; v; p] => also (verify_sign fuel s SIGN_SIG) (fun sign => also (verify_sign fuel v VERIFY_SIG) (fun verify =>
                     also (verify_sign fuel p PK_SIG) (fun pk => done (PEuf sign verify pk))))
    | _ => Error
    end.
  (** assert_crypto.rs 123-145 [parse_int_ctxt]. *)
  Definition parse_int_ctxt (fuel : nat) (fs : list name) : outcome passumption :=
    match fs with
    | [e; c; f] | [e; c; f; _] =>
        also (verify_sign fuel e ENC_SIG) (fun enc => also (verify_sign fuel c DEC_SIG) (fun dec =>
          also (verify_sign fuel f FAIL_SIG) (fun fail => done (PCtxt enc dec fail))))
    | _ => Error
    end.
  (** assert_crypto.rs 147-174 [parse_unfolding]. *)
  Definition parse_unfolding (fs os : list name) : outcome passumption :=
    match fs with
    | [] => done (PUnfolding (mem o_direct os) (mem o_recurisve os))
    | _ => Error
    end.
  (** assert_crypto.rs 38-60 [parse_assert_crypto]. *)
  Definition parse_assert_crypto (fuel : nat) (c : crypto_ast) : outcome passumption :=
    let n := ca_name c in
    if Nat.eqb n n_nonce then done PNonce
    else if Nat.eqb n n_memory_cell then done PCell
    else if Nat.eqb n n_euf_cma || Nat.eqb n n_euf_cma' then parse_euf_cma fuel (ca_funs c) (ca_options c)
    else if Nat.eqb n n_uf_cma || Nat.eqb n n_uf_cma' then parse_uf_cma fuel (ca_funs c) (ca_options c)
    else if Nat.eqb n n_int_ctxt || Nat.eqb n n_int_ctxt' then parse_int_ctxt fuel (ca_funs c)
    else if Nat.eqb n n_unfolding then parse_unfolding (ca_funs c) (ca_options c)
    else Error.
End Crypto.

(** problem/protocol.rs 59-67: the init step, by name, is exchanged with the first one. *)
Fixpoint position {A} (p : A -> bool) (l : list A) : option nat :=
  match l with [] => None | a :: l' => if p a then Some 0 else option_map S (position p l') end.
Fixpoint set_nth {A} (i : nat) (a : A) (l : list A) : list A :=
  match l, i with [] , _ => [] | _ :: l', 0 => a :: l' | b :: l', S j => b :: set_nth j a l' end.
Definition swap_first {A} (i : nat) (l : list A) : list A :=
  match l, nth_error l i with a :: _, Some b => set_nth 0 b (set_nth i a l) | _, _ => l end.
Definition init_first (is_init : pstep -> bool) (l : list pstep) : option (list pstep) :=
  option_map (fun i => swap_first i l) (position is_init l).

(** The parts of a problem: problem/problem/mod.rs 41-61. *)
Record parts : Type := mkParts {
  pa_env : denv; pa_steps : list pstep; pa_cells : list mcell; pa_orders : list ordering; pa_asserts : list formula; pa_lemmas : list formula;
  pa_query : formula; pa_crypto : list passumption }.

Fixpoint all_crypto (d : denv) (fuel : nat) (l : list crypto_ast) : M (list passumption) :=
  match l with
  | [] => ret []
  | c :: l' => a <- (fun s => also (parse_assert_crypto d fuel c) (fun a => Done a s)) ;; r <- all_crypto d fuel l' ;; ret (a :: r)
  end.

(** parsing_environement.rs 303-384 [prbl_from_ast] once the names are known; [es]: the entries in the order of the
    hash map; [container.get_functions_vec_filtered]: the quantifiers are those of the final state. [env.is_valid()]
    (345) only says that every step and cell has been initialised. *)
Definition parse_parts (so : source) (es : list (name * entry)) (ignore_lemmas : bool) (fuel : nat) : M parts :=
  let d := so_env so in
  x <- parse_steps d fuel es ;;
  let cells := parse_cells es (snd x) in
  asserts <- mapMM (parse_assert (penv_of d) fuel) (so_asserts so) ;;
  query <- parse_assert (penv_of d) fuel (so_query so) ;;
  crypto <- all_crypto d fuel (so_crypto so) ;;
  lemmas <- (if ignore_lemmas then ret [] else mapMM (parse_assert (penv_of d) fuel) (so_lemmas so)) ;;
  orders <- mapMM (parse_order (penv_of d) fuel) (so_orders so) ;;
  let is_init p := match lookup n_init es with
                   | Some (EnStep (mkFc (Fstep j) _ _ _) _ _) => Nat.eqb (ps_fun p) j
                   | _ => false
                   end in
  steps <- lift_opt (init_first is_init (fst x)) ;;
  ret (mkParts d steps cells orders asserts lemmas query crypto).
