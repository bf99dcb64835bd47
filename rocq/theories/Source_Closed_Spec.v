(** ** Files without formulas of the logic inside messages *)
From Coq Require Import List Arith Bool.
From Verif Require Import Syntax_Model Traversal_Spec Semantics_Spec Sort_Model Order_Model Macro_Model Parser_Model Parser_Spec Source_Model Source_Spec.
From Verif Require Evaluate_Model File_Model Assumption_Model Sentence_Spec.
Import ListNotations.

Definition evaluated (s : sort) : bool := match s with SBool | SBitstring | SUserEval _ => true | _ => false end.
Definition realmless (s : sort) : bool := match s with SIndex _ | SName | SStep => true | _ => false end.
(** A function that takes no value of the logic unless it gives one; names become messages, other functions that give a
    message or a condition, a time point or an index, or a truth value are told apart by their symbols. *)
Definition tame_function (fc : fcache) : Prop :=
  match fc_kind fc with
  | SgIte => False
  | SgFixed ss o =>
      if evaluated o then fc_name fc = None /\ ~ Sentence_Spec.term_function (fc_sym fc)
      else Forall (fun s => evaluated s = false) ss /\
           match o with
           | SMessage | SCondition => fc_name fc = None
           | SName => fc_name fc = Some SMessage
           | _ => fc_name fc = None /\ realmless o = true /\ ~ Sentence_Spec.term_function (fc_sym fc)
           end
  | _ => fc_name fc = None /\ ~ Sentence_Spec.term_function (fc_sym fc)
  end.
(** A variable, a constant or an application of functions to such terms. *)
Fixpoint simple (t : term) : Prop :=
  match t with
  | TVar _ => True
  | TApp _ args => (fix all (l : list term) : Prop := match l with [] => True | a :: l' => simple a /\ all l' end) args
  | _ => False
  end.
Definition literals : list name := [0; 1; 2; 3; 4].
Definition user_function (fc : fcache) : Prop := fc_name fc = None /\ exists k, fc_sym fc = Fuser k.
(** A variable, or the application of something else than a declared function. *)
Definition foreign (env : penv) (t : term) : Prop :=
  match t with TVar f | TApp f _ => In f literals \/ forall fc, e_functions env f = Some fc -> ~ user_function fc | _ => False end.
(** There is no let. *)
Definition let_free : term -> Prop := everywhere (fun t => match t with TLet _ _ _ _ => False | _ => True end).
(** Functions are tame, the [ite] of the logic is not called, names and steps are applied to simple terms, macros to simple terms or,
    in place of messages, to inputs and the like; the steps whose messages and conditions are used have no let. *)
Definition tame_node (env : penv) (t : term) : Prop :=
  match t with
  | TLet _ _ _ _ => False
  | TVar f => In f literals \/ forall fc, e_functions env f = Some fc -> fc_kind fc = SgIte \/ tame_function fc
  | TApp f args => In f literals \/ forall fc, e_functions env f = Some fc -> tame_function fc /\ (fc_name fc <> None -> Forall simple args)
  | TStepMac _ f args =>
      match args with Some args => Forall simple args | None => True end /\
      forall fc sc, e_functions env f = Some fc -> fc_step fc = Some sc -> let_free (st_msg sc) /\ let_free (st_cond sc)
  | TMac m args => forall mc i x t, e_macros env m = Some mc -> nth_error (mc_args mc) i = Some x -> nth_error args i = Some t ->
      if evaluated (snd x) || realmless (snd x) then simple t else foreign env t
  | _ => True
  end.

(** ** Files *)
(** The terms of an item, but for the condition and the message of a step. *)
Definition terms_of (i : item) : list term :=
  match i with
  | IStep a => flat_map (fun x => aa_term x :: aa_args x) (sa_asgs a)
  | ILet _ _ t => [t]
  | IAssert t | ILemma t | IQuery t => [t]
  | IOrder o => od_t1 o :: od_t2 o :: match od_guard o with Some g => [g] | None => [] end
  | _ => []
  end.
(** Lets of simple terms, of types [T], around a term. *)
Inductive lets_around (P : term -> Prop) (T : name -> Prop) : term -> Prop :=
| la_body t : P t -> lets_around P T t
| la_let x ty t1 t2 : simple t1 -> not_used x t1 -> P t1 -> T ty -> lets_around P T t2 -> lets_around P T (TLet x ty t1 t2).
Definition symbolic_type (bs : list (name * sort)) (x : name) : Prop := In (x, SMessage) bs \/ In (x, SCondition) bs.
(** There is no let; the [ite] of the logic is not applied; names and steps are applied to simple terms, macros to simple terms or, in place of
    messages, to variables, names, inputs and the like; the steps whose messages and conditions are used have no let. *)
Definition tame_call (bs : list (name * sort)) (bf : list (name * fcache)) (l : list item) (u : term) : Prop :=
  match u with
  | TLet _ _ _ _ => False
  | TApp f args => (forall fc, In (f, fc) bf -> fc_kind fc <> SgIte) /\
                   (forall ss out, In (IFun f ss out) l -> In (out, SName) bs -> Forall simple args)
  | TStepMac _ f args =>
      match args with Some args => Forall simple args | None => True end /\
      forall a, In (IStep a) l -> sa_name a = f -> let_free (sa_msg a) /\ let_free (sa_cond a)
  | TMac m args => forall params body i x t, In (ILet m params body) l -> nth_error params i = Some x -> nth_error args i = Some t ->
      (symbolic_type bs (snd x) -> match t with
       | TVar f | TApp f _ => (forall fc k, In (f, fc) bf -> fc_sym fc <> Fuser k) /\ forall ss out, In (IFun f ss out) l -> In (out, SName) bs
       | _ => False
       end) /\
      (~ symbolic_type bs (snd x) -> simple t)
  | _ => True
  end.
Record tame_file (bs : list (name * sort)) (bf : list (name * fcache)) (l : list item) : Prop := mkTameFile {
  tm_builtins : forall x fc, In (x, fc) bf -> fc_name fc = None /\ fc_step fc = None /\ (fc_kind fc = SgIte \/ tame_function fc);
  tm_bitstrings : forall i x, In i l -> In x (types_used i) -> ~ In (x, SBitstring) bs;
  tm_booleans : forall x a, In (IStep a) l -> In x (map snd (sa_params a)) -> ~ In (x, SBool) bs;
  tm_cells : forall x n args out, In (ICell n args out) l -> In x args -> ~ In (x, SBool) bs;
  tm_results : forall n args out, In (IFun n args out) l -> ~ In (out, SStep) bs;
  tm_calls : forall i t, In i l -> In t (terms_of i) -> everywhere (tame_call bs bf l) t;
  (** The condition and the message of a step may also start with lets. *)
  tm_bodies : forall a t, In (IStep a) l -> t = sa_cond a \/ t = sa_msg a ->
    lets_around (everywhere (tame_call bs bf l)) (fun ty => ~ In (ty, SBool) bs /\ ~ In (ty, SBitstring) bs) t
}.

(** A quantifier of the parser, as the generation of a file sees it. *)
Definition quantifier_of (q : tquant) : option Evaluate_Model.quantifier :=
  match tk q, tc q with
  | KForall, [c] => Some (Evaluate_Model.mkQuantifier (tb q) (tf q) (Evaluate_Model.IForall c))
  | KExists, [c] => Some (Evaluate_Model.mkQuantifier (tb q) (tf q) (Evaluate_Model.IExists c))
  | KFind, [c; l; r] => Some (Evaluate_Model.mkQuantifier (tb q) (tf q) (Evaluate_Model.IFind c l r))
  | _, _ => None
  end.
Definition table_of (qs : list tquant) (k : nat) : option Evaluate_Model.quantifier :=
  match nth_error qs k with Some q => quantifier_of q | None => None end.
(** A problem made of the parts of a file: the query or a lemma is to be proved, lemmas may be assumed. The problems of a file with lemmas also
    assume [true], and have the query as their last lemma (pbl_iterator.rs 98-113, C41). *)
Record assembled (p : parts) (w : Assumption_Model.whole_problem) : Prop := mkAssembled {
  am_steps : File_Model.gp_steps (Assumption_Model.wp_gen w) = pa_steps p;
  am_orders : File_Model.gp_orders (Assumption_Model.wp_gen w) = pa_orders p;
  am_asserts : incl (File_Model.gp_asserts (Assumption_Model.wp_gen w)) (TRUE :: pa_asserts p ++ pa_lemmas p);
  am_query : In (File_Model.gp_query (Assumption_Model.wp_gen w)) (pa_query p :: pa_lemmas p);
  am_cells : Assumption_Model.wp_cells w = pa_cells p;
  am_lemmas : incl (Assumption_Model.wp_lemmas w) (pa_query p :: pa_lemmas p);
  am_extra : Assumption_Model.wp_extra w = []
}.
