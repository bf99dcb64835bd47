(** Meaning of surface terms, lexically scoped, written without ids, stacks of binders or sort inference. *)
From Coq Require Import List Arith Bool.
From Verif Require Import Syntax_Model Traversal_Spec Semantics_Spec Sort_Model Parser_Model.
Import ListNotations.

(** Every node of a term satisfies [P]. *)
Fixpoint everywhere (P : term -> Prop) (t : term) : Prop :=
  P t /\
  let fix all (l : list term) : Prop := match l with [] => True | a :: l' => everywhere P a /\ all l' end in
  match t with
  | TLet _ _ t1 t2 => everywhere P t1 /\ everywhere P t2
  | TIf c l r => everywhere P c /\ everywhere P l /\ everywhere P r
  | TFind _ c l r => everywhere P c /\ everywhere P l /\ everywhere P r
  | TQuant _ _ b => everywhere P b
  | TVar _ => True
  | TApp _ args => all args
  | TInfix _ ts => all ts
  | TStepMac _ _ None => True
  | TStepMac _ _ (Some l) => all l
  | TMac _ args => all args
  end.

(** No let and no macro call. *)
Definition plain_node (t : term) : Prop :=
  match t with TLet _ _ _ _ | TStepMac _ _ _ | TMac _ _ => False | _ => True end.
Definition plain : term -> Prop := everywhere plain_node.

(** The function a name denotes in a realm when no variable has that name. *)
Definition denotes (env : penv) (f : name) (r : realm) : option fcache :=
  if in_dec Nat.eq_dec f [n_true; n_True] then
    Some (match r with RSymbolic => TRUE_TA_CACHE | REvaluated => TRUE_CACHE end)
  else if in_dec Nat.eq_dec f [n_false; n_False] then
    Some (match r with RSymbolic => FALSE_TA_CACHE | REvaluated => FALSE_CACHE end)
  else if Nat.eq_dec f n_not then Some (match r with RSymbolic => NOT_TA_CACHE | REvaluated => NOT_CACHE end)
  else e_functions env f.

(** Number of arguments a signature takes; [None]: any number. *)
Definition arity (k : sigkind) : option nat :=
  match k with
  | SgFixed l _ => Some (length l)
  | SgBools => None
  | SgEq => Some 2
  | SgIte => Some 3
  | SgSub _ => Some 2
  end.

(** No application has more arguments than its function takes, and only [&&], [||] and [===] are chained. *)
Definition counted_node (env : penv) (t : term) : Prop :=
  match t with
  | TApp f args => forall r fc n, denotes env f r = Some fc -> arity (fc_kind fc) = Some n -> length args <= n
  | TInfix (OEq | ONeq | OIff | OImplies) ts => length ts = 2
  | TStepMac _ f (Some args) => forall fc n, e_functions env f = Some fc -> arity (fc_kind fc) = Some n -> length args <= n
  | _ => True
  end.
Definition counted (env : penv) : term -> Prop := everywhere (counted_node env).

(** What is called by [m!(...)], [message(f(...))] and [condition(f(...))]. *)
Inductive callee : Type := CMac (m : name) | CStep (is_msg : bool) (f : name).

Section Meaning.
  Variable M : structure.
  Variable env : penv.
  (** Meaning of the symbolic binders: any function of the bound sorts and of the bodies as functions of the
      bound values. *)
  Variable qsem : qkind -> list sort -> (list (D M) -> list (D M)) -> D M.
  (** Meaning of the calls in a realm, given the values of the arguments in the symbolic and in the evaluated realm. *)
  Variable mval : callee -> realm -> list (D M) -> list (D M) -> D M.

  (** What the names in scope stand for. *)
  Definition scope : Type := name -> option (sort * D M).
  Definition bind_name (sc : scope) (x : name) (s : sort) (d : D M) : scope :=
    fun y => if Nat.eq_dec y x then Some (s, d) else sc y.
  Fixpoint bind_names (sc : scope) (vs : list (name * sort)) (ds : list (D M)) : scope :=
    match vs, ds with
    | (x, s) :: vs', d :: ds' => bind_names (bind_name sc x s d) vs' ds'
    | _, _ => sc
    end.

  Fixpoint squantify (q : quant) (vs : list (name * sort)) (sc : scope) (k : scope -> bool) : bool :=
    match vs with
    | [] => k sc
    | (x, s) :: vs' =>
        match q with
        | QForall => all_ M s (fun d => squantify q vs' (bind_name sc x s d) k)
        | QExists => ex_ s (fun d => squantify q vs' (bind_name sc x s d) k)
        end
    end.

  (** Types that do not exist are given some sort; such terms are not accepted. *)
  Definition sort_named (ty : name) : sort := match e_sorts env ty with Some s => s | None => SBool end.
  Definition binders (vs : list (name * name)) : list (name * sort) := map (fun x => (fst x, sort_named (snd x))) vs.

  (** The value of a message or condition, in the evaluated realm, is its evaluation. *)
  Definition evald (r : realm) (s : sort) (d : D M) : D M :=
    match r, s with
    | REvaluated, SMessage | REvaluated, SCondition => app (Feval s) [d]
    | _, _ => d
    end.

  (** A function applied to arguments (given in any realm) in realm [r]. *)
  Definition out_sort (k : sigkind) : option sort :=
    match k with SgFixed _ o => Some o | SgIte => None | _ => Some SBool end.
  Definition apply_fn (r : realm) (fc : fcache) (vals : realm -> list (D M)) : D M :=
    let o := out_sort (fc_kind fc) in
    let v := app (fc_sym fc)
               (vals (match o with Some s => match sort_realm s with Some r' => r' | None => r end | None => r end)) in
    match fc_name fc, o with
    | Some _, _ => evald r SMessage (app (Fcast SMessage) [v])
    | None, Some s => evald r s v
    | None, None => v
    end.
  Definition fn_value (r : realm) (f : name) (vals : realm -> list (D M)) : D M :=
    match denotes env f r with Some fc => apply_fn r fc vals | None => dinj M false end.

  (** [P] between neighbours. *)
  Fixpoint neighbours {A B} (P : A -> A -> B) (l : list A) : list B :=
    match l with a :: ((b :: _) as l') => P a b :: neighbours P l' | _ => [] end.
  (** Conjunction or disjunction of any number of values: the truth value, or the term nested to the left. *)
  Definition chain_and (r : realm) (l : list (D M)) : D M :=
    match r with
    | REvaluated => dinj M (forallb (dtest M) l)
    | RSymbolic => match l with [] => dinj M true | a :: l' => fold_left (fun x y => app (Fta TAnd) [x; y]) l' a end
    end.
  Definition chain_or (r : realm) (l : list (D M)) : D M :=
    match r with
    | REvaluated => dinj M (existsb (dtest M) l)
    | RSymbolic => match l with [] => dinj M false | a :: l' => fold_left (fun x y => app (Fta TOr) [x; y]) l' a end
    end.
  (** Implications associate to the right. *)
  Fixpoint chain_implies (r : realm) (l : list (D M)) : D M :=
    match l with
    | [] => dinj M true
    | [a] => a
    | a :: l' =>
        match r with
        | REvaluated => dinj M (implb (dtest M a) (dtest M (chain_implies r l')))
        | RSymbolic => app (Fta TImplies) [a; chain_implies r l']
        end
    end.
  Definition chain_meq (r : realm) (l : list (D M)) : D M :=
    let es := neighbours (fun a b => evald r SCondition (app (Fta TEq) [a; b])) l in
    match es with [e] => e | _ => chain_and r es end.
  (** [a == b == c] : all neighbours are equal. *)
  Definition chain_eq (l : list (D M)) : D M := dinj M (forallb (fun b => b) (neighbours (deq M) l)).
  Definition negate (r : realm) (d : D M) : D M :=
    match r with REvaluated => dinj M (negb (dtest M d)) | RSymbolic => app (Fta TNot) [d] end.
  Definition infix_value (o : operation) (r : realm) (vals : realm -> list (D M)) : D M :=
    match o, r with
    | OAnd, _ => chain_and r (vals r)
    | OOr, _ => chain_or r (vals r)
    | OImplies, _ => chain_implies r (vals r)
    | OHardEq, _ => chain_meq r (vals RSymbolic)
    | OEq, REvaluated => chain_eq (vals r)
    | OEq, RSymbolic => chain_meq r (vals r)
    | ONeq, REvaluated => negate r (chain_eq (vals r))
    | ONeq, RSymbolic => negate r (chain_meq r (vals r))
    | OIff, REvaluated => chain_eq (vals r)
    | OIff, RSymbolic => chain_and r (neighbours (fun a b => app (Fta TIff) [a; b]) (vals r))
    end.

  (** The value of a term in a realm. *)
  Fixpoint value (t : term) (r : realm) (sc : scope) {struct t} : D M :=
    match t with
    | TVar x => match sc x with
                | Some (s, d) => evald r s d
                | None => fn_value r x (fun _ => [])
                end
    | TApp f args => fn_value r f (fun r' => map (fun a => value a r' sc) args)
    | TIf c a b => app (match r with REvaluated => Fite | RSymbolic => Fta TIte end)
                       [value c r sc; value a r sc; value b r sc]
    | TQuant q vs b =>
        match r with
        | REvaluated => dinj M (squantify q (binders vs) sc (fun sc' => dtest M (value b r sc')))
        | RSymbolic => qsem (match q with QForall => KForall | QExists => KExists end) (map snd (binders vs))
                            (fun ds => [value b r (bind_names sc (binders vs) ds)])
        end
    | TFind vs c a b =>
        evald r SMessage
          (qsem KFind (map snd (binders vs))
             (fun ds => [value c RSymbolic (bind_names sc (binders vs) ds);
                         value a RSymbolic (bind_names sc (binders vs) ds);
                         value b RSymbolic sc]))
    | TInfix o ts => infix_value o r (fun r' => map (fun a => value a r' sc) ts)
    | TLet x ty t1 t2 =>
        let s := sort_named ty in
        value t2 r (bind_name sc x s (value t1 (match sort_realm s with Some r' => r' | None => r end) sc))
    | TStepMac b f None => mval (CStep b f) r [] []
    | TStepMac b f (Some args) => mval (CStep b f) r (map (fun a => value a RSymbolic sc) args) (map (fun a => value a REvaluated sc) args)
    | TMac m args => mval (CMac m) r (map (fun a => value a RSymbolic sc) args) (map (fun a => value a REvaluated sc) args)
    end.

  (** The value of each argument of a macro, in the realm of the sort of the parameter. *)
  Fixpoint chosen (r : realm) (params : list (name * sort)) (vs ve : list (D M)) : list (D M) :=
    match params, vs, ve with
    | (_, s) :: params', v :: vs', e :: ve' =>
        match match sort_realm s with Some r' => r' | None => r end with RSymbolic => v | REvaluated => e end :: chosen r params' vs' ve'
    | _, _, _ => []
    end.
  (** The value of a call: that of the body with the parameters standing for the values of the arguments and, in steps, [in]
      for the input of the step applied to them. *)
  Definition call_value (c : callee) (r : realm) (vs ve : list (D M)) : D M :=
    match c with
    | CMac m => match e_macros env m with
                | Some mc => value (mc_body mc) r (bind_names (fun _ => None) (mc_args mc) (chosen r (mc_args mc) vs ve))
                | None => dinj M false
                end
    | CStep b f => match e_functions env f with
                   | Some fc =>
                       match fc_step fc with
                       | Some st =>
                           let vals := match r with RSymbolic => vs | REvaluated => ve end in
                           value (if b then st_msg st else st_cond st) r
                             (bind_names (fun _ => None) (st_args st ++ [(n_in, SMessage)]) (vals ++ [app (Fmacro MInput) [app (fc_sym fc) vals]]))
                       | None => dinj M false
                       end
                   | None => dinj M false
                   end
    end.
  (** The calls mean what the bodies mean. *)
  Definition unfolds : Prop := forall c r vs ve, mval c r vs ve = call_value c r vs ve.

  (** The structure interprets the symbolic quantifiers of a table by their definitions. *)
  Fixpoint upds (rho : Semantics_Spec.env M) (vs : list var) (ds : list (D M)) : Semantics_Spec.env M :=
    match vs, ds with
    | v :: vs', d :: ds' => upds (upd rho (vid v) d) vs' ds'
    | _, _ => rho
    end.
  Definition respects (qs : list tquant) : Prop :=
    forall i q, nth_error qs i = Some q -> forall rho args, length args = length (tf q) ->
      fint M (Fquant i) args =
      qsem (tk q) (map vsort (tb q))
           (fun ds => map (fun c => eval c (upds (upds rho (tf q) args) (tb q) ds)) (tc q)).

  (** The stack of binders and the environment of values give the names in scope their values; the innermost
      binder, i.e. the last one of the stack, gives a name its meaning. *)
  Definition scope_of (b : list (name * var)) (rho : Semantics_Spec.env M) : scope :=
    fun x => match find (fun e => Nat.eqb (fst e) x) (rev b) with
             | Some (_, v) => Some (vsort v, rho (vid v))
             | None => None
             end.
End Meaning.

Arguments scope_of {M}.
Arguments bind_name {M}.
Arguments bind_names {M}.
Arguments squantify {M}.
Arguments value {M}.
Arguments chosen {M}.
Arguments call_value {M}.
Arguments unfolds {M}.
Arguments respects {M}.
Arguments upds {M}.

(** Id [i] is bound somewhere in the formula. *)
Inductive binds (i : nat) : formula -> Prop :=
| bi_here q vs b v : In v vs -> vid v = i -> binds i (FQ q vs b)
| bi_quant q vs b : binds i b -> binds i (FQ q vs b)
| bi_fun s args a : In a args -> binds i a -> binds i (FFun s args).

(** A formula elaborated under [n] binders numbered from 0: its free ids are theirs, the ids it binds are new. *)
Definition well_scoped (n : nat) (f : formula) : Prop :=
  (forall i, occurs_free i f -> i < n) /\ (forall i, binds i f -> n <= i).

(** A symbolic quantifier created under [n] binders: what occurs free in its contents is bound by it or passed as an
    argument; what is passed as an argument is in scope, what it binds is new. *)
Definition closed_quant (n : nat) (q : tquant) : Prop :=
  (forall c i, In c (tc q) -> occurs_free i c -> In i (map vid (tb q)) \/ In i (map vid (tf q))) /\
  (forall v, In v (tf q) -> vid v < n) /\ (forall v, In v (tb q) -> n <= vid v).

(** The stack of binders is numbered from 0. *)
Definition numbered (b : list (name * var)) : Prop :=
  forall i x v, nth_error b i = Some (x, v) -> vid v = i.

(** [x] is not used as a variable in the term. *)
Definition not_used (x : name) : term -> Prop := everywhere (fun t => t <> TVar x).

(** No quantifier. *)
Definition quantifier_free : term -> Prop := everywhere (fun t => match t with TQuant _ _ _ => False | _ => True end).

(** Nothing is bound in the evaluated realm, even in the bodies of what is called. *)
Inductive flat (env : penv) : term -> Prop :=
| fl_if c a b : flat env c -> flat env a -> flat env b -> flat env (TIf c a b)
| fl_find vs c a b : flat env (TFind vs c a b)
| fl_var x : flat env (TVar x)
| fl_app f args : (forall a, In a args -> flat env a) -> flat env (TApp f args)
| fl_infix o ts : (forall a, In a ts -> flat env a) -> flat env (TInfix o ts)
| fl_const (b : bool) f :
    (forall fc st, e_functions env f = Some fc -> fc_step fc = Some st -> flat env (if b then st_msg st else st_cond st)) ->
    flat env (TStepMac b f None)
| fl_step (b : bool) f args : (forall a, In a args -> flat env a) ->
    (forall fc st, e_functions env f = Some fc -> fc_step fc = Some st -> flat env (if b then st_msg st else st_cond st)) ->
    flat env (TStepMac b f (Some args))
| fl_mac m args : (forall a, In a args -> flat env a) -> (forall mc, e_macros env m = Some mc -> flat env (mc_body mc)) -> flat env (TMac m args).

(** A step that can be called: it takes and returns what a step does, under its own name. *)
Definition callable (env : penv) (f : name) (fc : fcache) (st : step_cache) : Prop :=
  (exists ss, fc_kind fc = SgFixed ss SStep) /\ fc_name fc = None /\ (forall r, denotes env f r = Some fc) /\ NoDup (map fst (st_args st) ++ [n_in]).

(** A term without lets, read under [n] binders, whose calls (only if [calls]) capture nothing: whatever is called has at least as many parameters
    as there are binders in scope, or binds nothing. *)
Inductive gentle (env : penv) (calls : bool) : nat -> term -> Prop :=
| ge_if n c a b : gentle env calls n c -> gentle env calls n a -> gentle env calls n b -> gentle env calls n (TIf c a b)
| ge_find n vs c a b : gentle env calls (n + length vs) c -> gentle env calls (n + length vs) a -> gentle env calls n b -> gentle env calls n (TFind vs c a b)
| ge_quant n q vs b : gentle env calls (n + length vs) b -> gentle env calls n (TQuant q vs b)
| ge_var n x : gentle env calls n (TVar x)
| ge_app n f args : (forall a, In a args -> gentle env calls n a) -> gentle env calls n (TApp f args)
| ge_infix n o ts : (forall a, In a ts -> gentle env calls n a) -> gentle env calls n (TInfix o ts)
| ge_const n (b : bool) f : calls = true ->
    (forall fc st, e_functions env f = Some fc -> fc_step fc = Some st -> callable env f fc st /\
       counted env (if b then st_msg st else st_cond st) /\ gentle env calls (S (length (st_args st))) (if b then st_msg st else st_cond st) /\
       (n <= S (length (st_args st)) \/ flat env (if b then st_msg st else st_cond st))) ->
    gentle env calls n (TStepMac b f None)
| ge_step n (b : bool) f args : calls = true -> (forall a, In a args -> gentle env calls n a) ->
    (forall fc st, e_functions env f = Some fc -> fc_step fc = Some st -> callable env f fc st /\
       counted env (if b then st_msg st else st_cond st) /\ gentle env calls (S (length (st_args st))) (if b then st_msg st else st_cond st) /\
       (n <= S (length (st_args st)) \/ flat env (if b then st_msg st else st_cond st))) ->
    gentle env calls n (TStepMac b f (Some args))
| ge_mac n m args : calls = true -> (forall a, In a args -> gentle env calls n a) ->
    (forall mc, e_macros env m = Some mc -> NoDup (map fst (mc_args mc)) /\ counted env (mc_body mc) /\
       gentle env calls (length (mc_args mc)) (mc_body mc) /\ (n <= length (mc_args mc) \/ flat env (mc_body mc))) ->
    gentle env calls n (TMac m args).

(** A chain of lets around a gentle term; the defined terms do not use the defined name, and are elaborated in the
    realm of their sort. *)
Inductive let_chain (env : penv) (r : realm) : nat -> term -> Prop :=
| lc_gentle n t : gentle env true n t -> let_chain env r n t
| lc_let n x ty t1 t2 : gentle env true (S n) t1 -> not_used x t1 ->
    (sort_realm (sort_named env ty) = None \/ sort_realm (sort_named env ty) = Some r) ->
    let_chain env r (S n) t2 -> let_chain env r n (TLet x ty t1 t2).

(** Macros and steps are ranked, and only call what has a lower rank. *)
Definition calls_only (P : callee -> Prop) : term -> Prop :=
  everywhere (fun t : term => match t with TMac m _ => P (CMac m) | TStepMac b f _ => P (CStep b f) | _ => True end).
Definition layered (env : penv) (rank : callee -> nat) : Prop :=
  (forall m mc, e_macros env m = Some mc -> calls_only (fun c => rank c < rank (CMac m)) (mc_body mc)) /\
  (forall (b : bool) f fc st, e_functions env f = Some fc -> fc_step fc = Some st ->
     calls_only (fun c => rank c < rank (CStep b f)) (if b then st_msg st else st_cond st)).

(** The value of the body of a macro whose parameters stand for the values of the arguments. *)
Definition macro_value {M : structure} (env : penv) (qsem : qkind -> list sort -> (list (D M) -> list (D M)) -> D M)
    (mval : callee -> realm -> list (D M) -> list (D M) -> D M)
    (params : list (name * sort)) (body : term) (args : list term) (r : realm) (sc : scope M) : D M :=
  value env qsem mval body r
    (bind_names (fun _ => None) params
       (map (fun pa => value env qsem mval (snd pa) (match sort_realm (snd (fst pa)) with Some r' => r' | None => r end) sc)
            (combine params args))).

(** The value of a step's message or condition: its parameters stand for the arguments, and [in] for the input of the
    step applied to them. *)
Definition step_value {M : structure} (env : penv) (qsem : qkind -> list sort -> (list (D M) -> list (D M)) -> D M)
    (mval : callee -> realm -> list (D M) -> list (D M) -> D M)
    (g : fsym) (st : step_cache) (body : term) (args : list term) (r : realm) (sc : scope M) : D M :=
  let vals := map (fun a => value env qsem mval a r sc) args in
  value env qsem mval body r
    (bind_names (fun _ => None) (st_args st ++ [(n_in, SMessage)])
       (vals ++ [app (Fmacro MInput) [app g vals]])).

(** The realm in which the arguments of [f] are read, when [f] is applied in realm [r]. *)
Definition args_realm (env : penv) (f : name) (r : realm) : realm :=
  match denotes env f r with
  | Some fc => match out_sort (fc_kind fc) with
               | Some s => match sort_realm s with Some r' => r' | None => r end
               | None => r
               end
  | None => r
  end.
(** A term to be read in realm [r] whose macro calls all have rank below [n], and in which no [<=>] is read in the
    symbolic realm. *)
Fixpoint calls_below (env : penv) (rm rs : name -> nat) (n : nat) (r : realm) (t : term) : Prop :=
  let all r l := fold_right (fun a P => calls_below env rm rs n r a /\ P) True l in
  match t with
  | TLet _ _ t1 t2 => calls_below env rm rs n r t1 /\ calls_below env rm rs n r t2
  | TIf c a b => calls_below env rm rs n r c /\ calls_below env rm rs n r a /\ calls_below env rm rs n r b
  | TFind _ c a b => calls_below env rm rs n RSymbolic c /\ calls_below env rm rs n RSymbolic a /\
                     calls_below env rm rs n RSymbolic b
  | TQuant _ _ b => calls_below env rm rs n r b
  | TVar _ => True
  | TApp f args => all (args_realm env f r) args
  | TInfix o ts => (o = OIff -> r = REvaluated) /\ all (match o with OHardEq => RSymbolic | _ => r end) ts
  | TStepMac _ f None => rs f < n
  | TStepMac _ f (Some l) => rs f < n /\ all (args_realm env f r) l
  | TMac m args => rm m < n /\ all RSymbolic args /\ all REvaluated args
  end.
(** Macros and steps can be ranked: their bodies only call macros and steps of lower rank. *)
Definition ranked (env : penv) (rm rs : name -> nat) : Prop :=
  forall r,
  (forall m mc, e_macros env m = Some mc -> calls_below env rm rs (rm m) r (mc_body mc)) /\
  (forall f fc st, e_functions env f = Some fc -> fc_step fc = Some st ->
     calls_below env rm rs (rs f) r (st_msg st) /\ calls_below env rm rs (rs f) r (st_cond st)).

(** The meaning of an order declaration. *)
Definition order_meaning {M : structure} (env : penv) (qsem : qkind -> list sort -> (list (D M) -> list (D M)) -> D M)
    (mval : callee -> realm -> list (D M) -> list (D M) -> D M) (o : order) : bool :=
  squantify (od_q o) (binders env (od_args o)) (fun _ => None)
    (fun sc =>
       let v t := value env qsem mval t REvaluated sc in
       let happens d := dtest M (app Fhappens [d]) in
       let before a b := implb (happens b) (dtest M (app Fleq [a; b])) in
       implb (match od_guard o with Some g => dtest M (v g) | None => true end)
             (match od_kind o with
              | OpLt => before (v (od_t1 o)) (v (od_t2 o))
              | OpGt => before (v (od_t2 o)) (v (od_t1 o))
              | OpIncompatible => negb (happens (v (od_t1 o)) && happens (v (od_t2 o)))
              end)).

(** A symbolic binder only depends on what its bodies do on the right number of values. *)
Definition extensional (M : structure) (qsem : qkind -> list sort -> (list (D M) -> list (D M)) -> D M) : Prop :=
  forall k ss F G, (forall ds, length ds = length ss -> F ds = G ds) -> qsem k ss F = qsem k ss G.

(** [f] means [t] under the binders [b]: when names are unique and applications have the right number of arguments,
    in every structure interpreting the symbolic binders of [qs], and whenever calls mean what the bodies mean, [f] has the value of [t]. *)
Definition means (env : penv) (b : list (name * var)) (qs : list tquant) (t : term) (r : realm) (f : formula) : Prop :=
  e_shadowing env = false -> counted env t -> NoDup (map fst b) ->
  forall (M : structure) qsem mval, unfolds env qsem mval -> extensional M qsem -> respects qsem qs ->
  forall rho : Semantics_Spec.env M, eval f rho = value env qsem mval t r (scope_of b rho).
