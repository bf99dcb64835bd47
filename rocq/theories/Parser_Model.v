(** Elaboration of surface terms into formulas: parser/parser/parsable_trait.rs.
    Paths are relative to /repo/crates/cryptovampire/src. Locations and log messages are dropped. *)
From Coq Require Import List Arith Bool.
From Verif Require Import Syntax_Model Traversal_Model Subst_Model Sort_Model.
Import ListNotations.

(** Identifiers; the ones treated specially by the code are numbered here. *)
Definition name : Type := nat.
Definition n_true : name := 0.
Definition n_True : name := 1.
Definition n_false : name := 2.
Definition n_False : name := 3.
Definition n_not : name := 4.
Definition n_in : name := 5.

(** parser/ast/infix.rs 12-21. *)
Inductive operation : Type := OHardEq | OEq | ONeq | OOr | OAnd | OImplies | OIff.

(** parser/ast/term.rs and the ast files it refers to. A binding is a name and the name of its type.
    [TStepMac is_msg f args]: [message(f(args))] or [condition(f(args))]; [None] is an application without
    parentheses ([ConstVar]). *)
Inductive term : Type :=
| TLet (x ty : name) (t1 t2 : term)
| TIf (c l r : term)
| TFind (vs : list (name * name)) (c l r : term)
| TQuant (q : quant) (vs : list (name * name)) (b : term)
| TVar (x : name)
| TApp (f : name) (args : list term)
| TInfix (o : operation) (ts : list term)
| TStepMac (is_msg : bool) (f : name) (args : option (list term))
| TMac (m : name) (args : list term).

(** parsing_environement/cache/step.rs 17-24 [StepCache]. *)
Record step_cache : Type := mkStep { st_args : list (name * sort); st_msg : term; st_cond : term }.

(** parsing_environement/cache.rs 25-29 [FunctionCache]: symbol, signature; for names, the sort they are cast to
    (function/inner/name.rs [target]); for steps, the step. *)
Record fcache : Type := mkFc {
  fc_sym : fsym; fc_kind : sigkind; fc_name : option sort; fc_step : option step_cache }.

(** parser/ast/mlet.rs and declare.rs [declare_let]: parameters and body. *)
Record macro_cache : Type := mkMac { mc_args : list (name * sort); mc_body : term }.

(** parsing_environement.rs 60-90 [Environement]. *)
Record penv : Type := mkEnv {
  e_functions : name -> option fcache;
  e_sorts : name -> option sort;
  e_macros : name -> option macro_cache;
  e_shadowing : bool }.

(** function/inner/term_algebra/quantifier.rs 15-30, 73-79. *)
Inductive qkind : Type := KForall | KExists | KFind.
Record tquant : Type := mkTq { tk : qkind; tb : list var; tf : list var; tc : list formula }.

(** What elaboration reads and writes: sort placeholders, bound variables ([bvars]), symbolic quantifiers created. *)
Record pst : Type := mkPst { p_heap : heap; p_bv : list (name * var); p_qs : list tquant }.

Inductive outcome (A : Type) : Type :=
| Timeout | Error | Panic | Done (a : A) (s : pst).
Arguments Timeout {A}. Arguments Error {A}. Arguments Panic {A}. Arguments Done {A}.

Definition M (A : Type) : Type := pst -> outcome A.
Definition ret {A} (a : A) : M A := fun s => Done a s.
Definition bind {A B} (m : M A) (k : A -> M B) : M B :=
  fun s => match m s with
           | Timeout => Timeout | Error => Error | Panic => Panic
           | Done a s' => k a s'
           end.
Notation "x <- m ;; k" := (bind m (fun x => k)) (at level 60, m at level 59, right associativity).
Definition fail {A} : M A := fun _ => Error.
Definition panic {A} : M A := fun _ => Panic.
Definition timeout {A} : M A := fun _ => Timeout.
Definition getbv : M (list (name * var)) := fun s => Done (p_bv s) s.
Definition setbv (b : list (name * var)) : M unit := fun s => Done tt (mkPst (p_heap s) b (p_qs s)).
Definition pushbv (x : name * var) : M unit := fun s => Done tt (mkPst (p_heap s) (p_bv s ++ [x]) (p_qs s)).
(** [bvars.truncate(n)]. *)
Definition truncbv (n : nat) : M unit := fun s => Done tt (mkPst (p_heap s) (firstn n (p_bv s)) (p_qs s)).
Definition newq (q : tquant) : M nat := fun s => Done (length (p_qs s)) (mkPst (p_heap s) (p_bv s) (p_qs s ++ [q])).
Definition newsig (k : sigkind) : M sig :=
  fun s => let (h, sg) := signature (p_heap s) k in Done sg (mkPst h (p_bv s) (p_qs s)).
Definition readp (p : proxy) : M (option sort) := fun s => Done (as_option (p_heap s) p) s.
(** A sort operation: panics and errors are propagated. *)
Definition lift {A} (f : heap -> option (heap * res A inference_error)) : M A :=
  fun s => match f (p_heap s) with
           | None => Panic
           | Some (_, Err _) => Error
           | Some (h, Ok a) => Done a (mkPst h (p_bv s) (p_qs s))
           end.
(** [es.into_iter().try_for_each(..)], [es.map(..).transpose()]: only when a sort is expected. *)
Definition when {A} (es : option A) (f : A -> M unit) : M unit :=
  match es with Some p => f p | None => ret tt end.

Fixpoint mapMM {A B} (f : A -> M B) (l : list A) : M (list B) :=
  match l with
  | [] => ret []
  | a :: l' => b <- f a ;; bs <- mapMM f l' ;; ret (b :: bs)
  end.

(** Builtin caches: parsable_trait/cached_builtins.rs, with the signatures of function/inner/booleans.rs 300-330 and
    function/inner/term_algebra/connective.rs 52-108. *)
Definition fc_builtin (f : fsym) (k : sigkind) : fcache := mkFc f k None None.
Definition C2 : sigkind := SgFixed [SCondition; SCondition] SCondition.
Definition TRUE_CACHE : fcache := fc_builtin (Fb CTrue) (SgFixed [] SBool).
Definition TRUE_TA_CACHE : fcache := fc_builtin (Fta TTrue) (SgFixed [] SCondition).
Definition FALSE_CACHE : fcache := fc_builtin (Fb CFalse) (SgFixed [] SBool).
Definition FALSE_TA_CACHE : fcache := fc_builtin (Fta TFalse) (SgFixed [] SCondition).
Definition NOT_CACHE : fcache := fc_builtin (Fb CNot) (SgFixed [SBool] SBool).
Definition NOT_TA_CACHE : fcache := fc_builtin (Fta TNot) (SgFixed [SCondition] SCondition).
Definition EQUALITY_CACHE : fcache := fc_builtin (Fb CEq) SgEq.
Definition EQUALITY_TA_CACHE : fcache := fc_builtin (Fta TEq) (SgFixed [SMessage; SMessage] SCondition).
Definition IMPLIES_CACHE : fcache := fc_builtin (Fb CImplies) (SgFixed [SBool; SBool] SBool).
Definition IMPLIES_TA_CACHE : fcache := fc_builtin (Fta TImplies) C2.
Definition AND_CACHE : fcache := fc_builtin (Fb CAnd) SgBools.
Definition AND_TA_CACHE : fcache := fc_builtin (Fta TAnd) C2.
Definition OR_CACHE : fcache := fc_builtin (Fb COr) SgBools.
Definition OR_TA_CACHE : fcache := fc_builtin (Fta TOr) C2.

Section Parse.
  Variable env : penv.

  (** parsing_environement.rs 240-264 [get_function_mow]. *)
  Definition get_function_mow (f : name) (r : realm) : M fcache :=
    if Nat.eqb f n_true || Nat.eqb f n_True then
      ret (match r with RSymbolic => TRUE_TA_CACHE | REvaluated => TRUE_CACHE end)
    else if Nat.eqb f n_false || Nat.eqb f n_False then
      ret (match r with RSymbolic => FALSE_TA_CACHE | REvaluated => FALSE_CACHE end)
    else if Nat.eqb f n_not then
      ret (match r with RSymbolic => NOT_TA_CACHE | REvaluated => NOT_CACHE end)
    else match e_functions env f with Some c => ret c | None => fail end.

  (** parsable_trait.rs 258-297 [VariableBinding::parse], always called without an expected sort. *)
  Definition parse_binding (x : name * name) : M var :=
    b <- getbv ;;
    if (match e_functions env (fst x) with Some _ => true | None => false end
        || existsb (fun e => Nat.eqb (fst e) (fst x)) b) && negb (e_shadowing env)
    then fail
    else match e_sorts env (snd x) with
         | None => fail
         | Some s => let v := mkVar (length b) s in _ <- pushbv (fst x, v) ;; ret v
         end.

  (** [Signature::args_size().contains(n)]: signature/mod.rs 146-151, booleans.rs 243, 277, if_then_else.rs 65. *)
  Definition args_size_ok (k : sigkind) (n : nat) : bool :=
    match k with
    | SgFixed args _ => Nat.eqb n (length args)
    | SgBools => true
    | SgEq => Nat.eqb n 2
    | SgIte => Nat.eqb n 3
    | SgSub _ => Nat.eqb n 2
    end.

  (** [signature.args().into_iter().zip(args)]: stops with the shorter of the two. *)
  Fixpoint zip_args {A} (ps : list proxy) (rep : option proxy) (l : list A) : list (proxy * A) :=
    match l with
    | [] => []
    | a :: l' => match ps, rep with
                 | p :: ps', _ => (p, a) :: zip_args ps' rep l'
                 | [], Some p => (p, a) :: zip_args [] rep l'
                 | [], None => []
                 end
    end.

  (** function/inner/evaluate.rs 61-76 [try_eval] on a formula of sort [s], 101-110 [Default]: the evaluator only
      knows messages and conditions (nothing in /repo calls [functions_mut]). *)
  Definition try_eval (s : sort) (f : formula) : formula :=
    match s with SMessage | SCondition => FFun (Feval s) [f] | _ => f end.

  Section Step.
    (** [fuel] only serves [free_vars_iter]; [rec] is the recursive call of [parse]. *)
    Variable fuel : nat.
    Variable rec : term -> realm -> option proxy -> M formula.

    Definition sym_realm (r : option realm) : bool := match r with Some RSymbolic => true | _ => false end.

    (** parsable_trait.rs 478-562 [parse_application]. [name_caster_collection.cast] (name_caster_collection.rs 33-38)
        only knows messages and panics otherwise. *)
    Definition parse_application (r : realm) (es : option proxy) (fc : fcache) (args : list term) : M formula :=
      sg <- newsig (fc_kind fc) ;;
      o <- readp (sout sg) ;;
      let fr := match o with Some s => sort_realm s | None => None end in
      let ar := match fr with Some r' => r' | None => r end in
      nargs <- mapMM (fun pt => rec (snd pt) ar (Some (fst pt))) (zip_args (sargs sg) (srep sg) args) ;;
      if negb (args_size_ok (fc_kind fc) (length nargs)) then fail
      else
        o2 <- readp (sout sg) ;;
        frm <- match fc_name fc with
               | Some SMessage => ret (FFun (Fcast SMessage) [FFun (fc_sym fc) nargs], Some RSymbolic, Some SMessage)
               | Some _ => panic
               | None => ret (FFun (fc_sym fc) nargs, fr, o2)
               end ;;
        let '(f, fr, hs) := frm in
        f <- match r, sym_realm fr, hs with
             | REvaluated, true, Some s => ret (try_eval s f)
             | REvaluated, true, None => panic
             | _, _, _ => ret f
             end ;;
        let out := match o2 with Some SName => PStatic SMessage | _ => sout sg end in
        oo <- readp out ;;
        let out := match r, sym_realm fr, oo with
                   | REvaluated, true, Some s =>
                       match maybe_evaluated_sort s with Some e => PStatic e | None => out end
                   | _, _, _ => out
                   end in
        _ <- when es (fun p => _ <- lift (fun h => unify_rev h p out r) ;; ret tt) ;;
        ret f.

    (** parsable_trait.rs 397-446: a variable occurrence [v]. *)
    Definition parse_variable (r : realm) (es : option proxy) (v : var) : M formula :=
      match vsort v with
      | SName => fail
      | s =>
          match maybe_evaluated_sort s, r with
          | Some e, REvaluated =>
              match s with
              | SMessage | SCondition =>
                  _ <- when es (fun p => lift (fun h => matches h p e REvaluated)) ;;
                  ret (FFun (Feval s) [FVar v])
              | _ => panic
              end
          | _, _ =>
              match es with
              | Some p => t <- lift (fun h => unify_rev h p (PStatic s) r) ;; ret (FVar (mkVar (vid v) t))
              | None => ret (FVar v)
              end
          end
      end.

    (** parsable_trait.rs 397-461 [ConstVar]: the first entry of [bvars] with that name, otherwise a function. *)
    Definition parse_const_var (r : realm) (es : option proxy) (x : name) : M formula :=
      b <- getbv ;;
      match find (fun e => Nat.eqb (fst e) x) b with
      | Some (_, v) => parse_variable r es v
      | None => fc <- get_function_mow x r ;; parse_application r es fc []
      end.

    (** parsable_trait.rs 462-473. *)
    Definition parse_app (r : realm) (es : option proxy) (f : name) (args : list term) : M formula :=
      fc <- get_function_mow f r ;; parse_application r es fc args.

    (** [free_vars_iter().unique()] over several formulas: first occurrences. *)
    Definition var_eq_dec' (a b : var) : {a = b} + {a <> b}.
    Proof. decide equality; [apply sort_eq_dec | apply Nat.eq_dec]. Defined.
    Fixpoint unique (seen l : list var) : list var :=
      match l with
      | [] => []
      | v :: l' => if in_dec var_eq_dec' v seen then unique seen l' else v :: unique (v :: seen) l'
      end.
    Fixpoint fv_all (fs : list formula) : M (list var) :=
      match fs with
      | [] => ret []
      | f :: fs' => match free_vars fuel f with
                    | None => timeout
                    | Some l => l' <- fv_all fs' ;; ret (l ++ l')
                    end
      end.
    (** function/function.rs 210-238 [new_quantifier_from_quantifier], 241-279 [new_find_such_that]. *)
    Definition new_quantifier (k : qkind) (vs : list var) (contents : list formula) : M formula :=
      l <- fv_all contents ;;
      let fvs := filter (fun v => negb (existsb (fun b => var_eqb b v) vs)) (unique [] l) in
      i <- newq (mkTq k vs fvs contents) ;;
      ret (FFun (Fquant i) (map FVar fvs)).

    (** parsable_trait.rs 300-379 [Quantifier]. *)
    Definition parse_quant (r : realm) (es : option proxy) (q : quant) (vs : list (name * name)) (b : term) : M formula :=
      let s := match r with REvaluated => SBool | RSymbolic => SCondition end in
      _ <- when es (fun p => lift (fun h => expects h p s r)) ;;
      bn <- getbv ;;
      vars <- mapMM parse_binding vs ;;
      c <- rec b r (Some (PStatic s)) ;;
      _ <- truncbv (length bn) ;;
      match r with
      | REvaluated => ret (FQ q vars c)
      | RSymbolic => new_quantifier (match q with QForall => KForall | QExists => KExists end) vars [c]
      end.

    (** parsable_trait.rs 187-250 [FindSuchThat]. *)
    Definition parse_find (r : realm) (es : option proxy) (vs : list (name * name)) (c l d : term) : M formula :=
      _ <- when es (fun p => lift (fun h => expects h p SMessage r)) ;;
      d' <- rec d RSymbolic (Some (PStatic SMessage)) ;;
      bn <- getbv ;;
      vars <- mapMM parse_binding vs ;;
      c' <- rec c RSymbolic (Some (PStatic SCondition)) ;;
      l' <- rec l RSymbolic (Some (PStatic SMessage)) ;;
      _ <- truncbv (length bn) ;;
      f <- new_quantifier KFind vars [c'; l'; d'] ;;
      ret (match r with RSymbolic => f | REvaluated => try_eval SMessage f end).

    (** parsable_trait.rs 140-185 [IfThenElse]. *)
    Definition parse_if (r : realm) (es : option proxy) (c l d : term) : M formula :=
      let ec := PStatic (match r with REvaluated => SBool | RSymbolic => SCondition end) in
      let eb := match r with REvaluated => es | RSymbolic => Some (PStatic SMessage) end in
      c' <- rec c r (Some ec) ;;
      l' <- rec l r eb ;;
      d' <- rec d r eb ;;
      ret (FFun (match r with REvaluated => Fite | RSymbolic => Fta TIte end) [c'; l'; d']).

    Definition lift_opt {A} (o : option A) : M A := match o with Some a => ret a | None => panic end.

    (** parsable_trait.rs 110-139 [LetIn]. *)
    Definition parse_let (r : realm) (es : option proxy) (x ty : name) (t1 t2 : term) : M formula :=
      v <- parse_binding (x, ty) ;;
      f1 <- rec t1 r (Some (PStatic (vsort v))) ;;
      f2 <- rec t2 r es ;;
      lift_opt (sapply (one_var (vid v) f1) f2).

    (** cache/step.rs 36-58 [args_vars_with_input] as [bvars]. *)
    Fixpoint named_vars (i : nat) (l : list (name * sort)) : list (name * var) :=
      match l with [] => [] | (x, s) :: l' => (x, mkVar i s) :: named_vars (S i) l' end.
    Definition step_bvars (st : step_cache) : list (name * var) :=
      named_vars 0 (st_args st) ++ [(n_in, mkVar (length (st_args st)) SMessage)].

    (** [parse(env, &mut nbvars, ..)]: with other bound variables. *)
    Definition with_bv {A} (b : list (name * var)) (m : M A) : M A :=
      b0 <- getbv ;; _ <- setbv b ;; a <- m ;; _ <- setbv b0 ;; ret a.

    (** parsable_trait.rs 582-613 [Msg], [Cond]; cache/step.rs 65-78 [substitution]. *)
    Definition parse_step_mac (r : realm) (es : option proxy) (is_msg : bool) (f : name) (args : option (list term)) : M formula :=
      st <- match args with
            | None => parse_const_var r (Some (PStatic SStep)) f
            | Some l => parse_app r (Some (PStatic SStep)) f l
            end ;;
      match st with
      | FFun _ sargs =>
          match e_functions env f with
          | Some (mkFc g _ _ (Some sc)) =>
              t <- with_bv (step_bvars sc) (rec (if is_msg then st_msg sc else st_cond sc) r es) ;;
              if negb (Nat.eqb (length sargs) (length (st_args sc))) then panic
              else lift_opt (sapply (frozen (seq 0 (S (length (st_args sc))))
                                            (sargs ++ [FFun (Fmacro MInput) [FFun g sargs]])) t)
          | _ => fail
          end
      | _ => fail
      end.

    (** parsable_trait.rs 614-679 [Other]. *)
    Definition parse_macro (r : realm) (es : option proxy) (m : name) (args : list term) : M formula :=
      match e_macros env m with
      | None => fail
      | Some mc =>
          if negb (Nat.eqb (length (mc_args mc)) (length args)) then fail
          else
            fs <- mapMM (fun sa => let s := snd (fst sa) in
                                   rec (snd sa) (match sort_realm s with Some r' => r' | None => r end)
                                       (Some (PStatic s)))
                        (combine (mc_args mc) args) ;;
            t <- with_bv (named_vars 0 (mc_args mc)) (rec (mc_body mc) r es) ;;
            lift_opt (apply_substitution (seq 0 (length (mc_args mc))) fs t)
      end.

    (** parsable_trait.rs 841-861 [as_pair_of_term] on [tuple_windows]. *)
    Fixpoint pairs (o : operation) (ts : list term) : list term :=
      match ts with
      | a :: ((b :: _) as l) => TInfix o [a; b] :: pairs o l
      | _ => []
      end.

    (** parsable_trait.rs 780-834 [And], [Or]; [fold_infix] is the [try_fold] of 820-830. *)
    Fixpoint fold_infix (f : fsym) (r : realm) (es : option proxy) (acc : formula) (ts : list term) : M formula :=
      match ts with
      | [] => ret acc
      | t :: ts' => g <- rec t r es ;; fold_infix f r es (FFun f [acc; g]) ts'
      end.
    Definition parse_andor (r : realm) (es : option proxy) (is_and : bool) (ts : list term) : M formula :=
      match r with
      | REvaluated => parse_application r es (if is_and then AND_CACHE else OR_CACHE) ts
      | RSymbolic =>
          match ts with
          | [] => panic
          | t :: ts' => g <- rec t r es ;; fold_infix (if is_and then Fta TAnd else Fta TOr) r es g ts'
          end
      end.

    (** parsable_trait.rs 683-839 [Infix]. *)
    Definition parse_infix (r : realm) (es : option proxy) (o : operation) (ts : list term) : M formula :=
      match o with
      | OHardEq =>
          if Nat.eqb (length ts) 2 then parse_application r es EQUALITY_TA_CACHE ts
          else rec (TInfix OAnd (pairs o ts)) r es
      | OEq => match r with
               | REvaluated => parse_application r es EQUALITY_CACHE ts
               | RSymbolic => rec (TInfix OHardEq ts) r es
               end
      | ONeq => rec (TApp n_not [TInfix OEq ts]) r es
      | OIff => match r with
                | REvaluated => parse_application r es EQUALITY_CACHE ts
                | RSymbolic => rec (TInfix OAnd (pairs o ts)) r es
                end
      | OImplies =>
          parse_application r es (match r with RSymbolic => IMPLIES_TA_CACHE | REvaluated => IMPLIES_CACHE end) ts
      | OAnd => parse_andor r es true ts
      | OOr => parse_andor r es false ts
      end.

    (** parsable_trait.rs 862-888 [Term::parse] (the debug-only check is not modelled). *)
    Definition parse_step (t : term) (r : realm) (es : option proxy) : M formula :=
      match t with
      | TLet x ty t1 t2 => parse_let r es x ty t1 t2
      | TIf c l d => parse_if r es c l d
      | TFind vs c l d => parse_find r es vs c l d
      | TQuant q vs b => parse_quant r es q vs b
      | TVar x => parse_const_var r es x
      | TApp f args => parse_app r es f args
      | TInfix o ts => parse_infix r es o ts
      | TStepMac m f args => parse_step_mac r es m f args
      | TMac m args => parse_macro r es m args
      end.
  End Step.

  Fixpoint parse (fuel : nat) (t : term) (r : realm) (es : option proxy) : M formula :=
    match fuel with
    | 0 => timeout
    | S k => parse_step k (parse k) t r es
    end.
End Parse.

(** parser/parser/parse_step_cell_asserts/asserts.rs 12-25 [parse_assert_with_bvars]: in the evaluated realm
    (parsing_environement.rs 266-270), without bound variables. *)
Definition parse_assert (env : penv) (fuel : nat) (t : term) : M formula :=
  _ <- setbv [] ;; parse env fuel t REvaluated (Some (PStatic SBool)).

(** parser/ast/ordering.rs 8-20, 69-74. *)
Inductive order_op : Type := OpIncompatible | OpLt | OpGt.
Record order : Type := mkOrder {
  od_q : quant; od_args : list (name * name); od_guard : option term; od_kind : order_op; od_t1 : term; od_t2 : term }.

(** problem/protocol/ordering.rs 12-24 [Ordering]. *)
Inductive ordering_kind : Type := KLT (a b : formula) | KExclusive (a b : formula).
Record ordering : Type := mkOrdering { or_q : quant; or_vars : list var; or_kind : ordering_kind; or_guard : formula }.

(** parse_step_cell_asserts/order.rs 56-72: the arguments, numbered from 0, not checked against other names. *)
Fixpoint order_args (env : penv) (id : nat) (args : list (name * name)) : M (list (name * var)) :=
  match args with
  | [] => ret []
  | x :: args' => match e_sorts env (snd x) with
                  | None => fail
                  | Some s => l <- order_args env (S id) args' ;; ret ((fst x, mkVar id s) :: l)
                  end
  end.
(** order.rs 38-109 [parse_order_with_bvars]. *)
Definition parse_order (env : penv) (fuel : nat) (o : order) : M ordering :=
  args <- order_args env 0 (od_args o) ;;
  _ <- setbv args ;;
  let n := length args in
  g <- match od_guard o with
       | Some g => parse env fuel g REvaluated (Some (PStatic SBool))
       | None => ret TRUE
       end ;;
  _ <- truncbv n ;;
  t1 <- parse env fuel (od_t1 o) REvaluated (Some (PStatic SStep)) ;;
  _ <- truncbv n ;;
  t2 <- parse env fuel (od_t2 o) REvaluated (Some (PStatic SStep)) ;;
  _ <- truncbv n ;;
  let k := match od_kind o with
           | OpIncompatible => KExclusive t1 t2
           | OpLt => KLT t1 t2
           | OpGt => KLT t2 t1
           end in
  ret (mkOrdering (od_q o) (map snd args) k g).

(** problem/general_assertions/order.rs 119-133: the axiom of a user ordering. *)
Definition order_axiom (o : ordering) : formula :=
  let inner := match or_kind o with
               | KLT a b => fimp (FFun Fhappens [b]) (FFun Fleq [a; b])
               | KExclusive a b => fnot (fand (FFun Fhappens [a]) (FFun Fhappens [b]))
               end in
  FQ (or_q o) (or_vars o) (fimp (or_guard o) inner).
