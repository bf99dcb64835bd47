(** SMT-LIB: what a formula means, and how text is read. *)
From Coq Require Import List Arith Bool String Ascii.
From Verif Require Import Syntax_Model Semantics_Spec Smt_Model.
Import ListNotations.

(** ** Meaning *)
Section Meaning.
  Context (M : structure).
  (** [=] holds between neighbours, [distinct] between any two. *)
  Fixpoint chained (l : list (D M)) : bool :=
    match l with a :: l' => match l' with b :: _ => deq M a b && chained l' | [] => true end | [] => true end.
  Fixpoint pairwise (l : list (D M)) : bool :=
    match l with a :: l' => forallb (fun b => negb (deq M a b)) l' && pairwise l' | [] => true end.
  Fixpoint seval (s : smt) (rho : env M) {struct s} : D M :=
    match s with
    | SmVar v => rho (vid v)
    | SmFun f args => fint M f (map (fun a => seval a rho) args)
    | SmForall vs b => dinj M (quantify QForall vs rho (fun rho' => dtest M (seval b rho')))
    | SmExists vs b => dinj M (quantify QExists vs rho (fun rho' => dtest M (seval b rho')))
    | SmTrue => dinj M true
    | SmFalse => dinj M false
    | SmAnd l => dinj M (forallb (fun a => dtest M (seval a rho)) l)
    | SmOr l => dinj M (existsb (fun a => dtest M (seval a rho)) l)
    | SmEq l => dinj M (chained (map (fun a => seval a rho) l))
    | SmNeq l => dinj M (pairwise (map (fun a => seval a rho) l))
    | SmNot a => dinj M (negb (dtest M (seval a rho)))
    | SmImplies a b => dinj M (implb (dtest M (seval a rho)) (dtest M (seval b rho)))
    | SmSubterm f a b => fint M f [seval a rho; seval b rho]
    | SmIte c l r => if dtest M (seval c rho) then seval l rho else seval r rho
    end.
  Definition sholds (s : smt) (rho : env M) : Prop := dtest M (seval s rho) = true.
End Meaning.
Arguments seval {M}.
Arguments sholds {M}.

(** Numbers of arguments as in the declarations of the connectives (formula/function/inner/booleans.rs, if_then_else.rs, subterm.rs). *)
Definition arity (f : fsym) (n : nat) : Prop :=
  match f with
  | Fb CTrue | Fb CFalse => n = 0
  | Fb CNot => n = 1
  | Fb CImplies | Fb CEq | Fsubterm _ => n = 2
  | Fite => n = 3
  | _ => True
  end.
Inductive arities : formula -> Prop :=
| ar_var v : arities (FVar v)
| ar_fun f args : arity f (List.length args) -> Forall arities args -> arities (FFun f args)
| ar_quant q vs b : arities b -> arities (FQ q vs b).

(** ** Reading *)
Inductive token : Type := TOpen | TClose | TWord (w : text).
Definition is_space (c : ascii) : bool := existsb (Ascii.eqb c) [" "%char; "009"%char; "010"%char; "013"%char].
Definition is_open (c : ascii) : bool := Ascii.eqb c "("%char.
Definition is_close (c : ascii) : bool := Ascii.eqb c ")"%char.
Definition between (lo hi c : ascii) : bool := (nat_of_ascii lo <=? nat_of_ascii c) && (nat_of_ascii c <=? nat_of_ascii hi).
Definition is_digit : ascii -> bool := between "0" "9".
(** The characters of a simple symbol. *)
Definition is_symbol_char (c : ascii) : bool :=
  between "a" "z" c || between "A" "Z" c || is_digit c || existsb (Ascii.eqb c) (str "~!@$%^&*_-+=<>.?/").
(** [w]: the word being read. *)
Definition flush (w : text) (l : option (list token)) : option (list token) := match w with [] => l | _ => option_map (cons (TWord w)) l end.
Fixpoint lex (w : text) (t : text) : option (list token) :=
  match t with
  | [] => flush w (Some [])
  | c :: t' =>
      if is_space c then flush w (lex [] t')
      else if is_open c then flush w (option_map (cons TOpen) (lex [] t'))
      else if is_close c then flush w (option_map (cons TClose) (lex [] t'))
      else if is_symbol_char c then lex (w ++ [c]) t'
      else None
  end.

Inductive sexp : Type := Atom (w : text) | Node (l : list sexp).
(** [cur]: what is read of the innermost open list, last first; [stack]: the same for the lists around it. *)
Fixpoint parse (cur : list sexp) (stack : list (list sexp)) (l : list token) : option (list sexp) :=
  match l with
  | [] => match stack with [] => Some (rev cur) | _ => None end
  | TOpen :: l' => parse [] (cur :: stack) l'
  | TClose :: l' => match stack with up :: stack' => parse (Node (rev cur) :: up) stack' l' | [] => None end
  | TWord w :: l' => parse (Atom w :: cur) stack l'
  end.
Definition read_sexp (t : text) : option sexp :=
  match lex [] t with
  | Some l => match parse [] [] l with Some [e] => Some e | _ => None end
  | None => None
  end.

Definition text_eqb (a b : text) : bool := if list_eq_dec ascii_dec a b then true else false.
(** Words with a meaning of their own. *)
Definition reserved : list text :=
  map str ["true"; "false"; "and"; "or"; "not"; "=>"; "="; "distinct"; "ite"; "subterm"; "forall"; "exists"; "let"; "match"; "par"; "as"; "!";
           "_"]%string.
(** A symbol that may name a function or a sort. *)
Definition symbol (w : text) : Prop :=
  match w with
  | c :: _ => is_digit c = false /\ forallb is_symbol_char w = true /\ existsb (text_eqb w) reserved = false
  | [] => False
  end.

(** A reader of formulas. [fn] and [so] know the declared functions and sorts; [scope] are the bound variables, innermost first. A bound
    variable is given the number of binders around it as its id, so that only the words decide which binder an occurrence belongs to. *)
Section Reader.
  Context (fn : text -> option fsym) (so : text -> option sort).
  Fixpoint read_binders (scope : list (text * var)) (l : list sexp) : option (list (text * var)) :=
    match l with
    | [] => Some scope
    | Node [Atom w; Atom s] :: l' =>
        match so s with Some s' => read_binders ((w, mkVar (List.length scope) s') :: scope) l' | None => None end
    | _ => None
    end.
  Definition in_scope (scope : list (text * var)) (w : text) : option var :=
    option_map snd (find (fun p => text_eqb (fst p) w) scope).
  Definition is_word (e : sexp) (s : string) : bool := match e with Atom w => text_eqb w (str s) | Node _ => false end.
  Definition function (w : text) : option fsym := if existsb (text_eqb w) reserved then None else fn w.
  (** The variables bound on top of [scope]. *)
  Definition new_vars (scope scope' : list (text * var)) : list var :=
    map snd (rev (firstn (List.length scope' - List.length scope) scope')).

  Fixpoint read_smt (scope : list (text * var)) (e : sexp) {struct e} : option smt :=
    let reads := fix reads (l : list sexp) : option (list smt) :=
      match l with
      | [] => Some []
      | a :: l' => match read_smt scope a, reads l' with Some x, Some xs => Some (x :: xs) | _, _ => None end
      end in
    match e with
    | Atom w =>
        if text_eqb w (str "true") then Some SmTrue else if text_eqb w (str "false") then Some SmFalse
        else match in_scope scope w with Some v => Some (SmVar v) | None => option_map (fun f => SmFun f []) (function w) end
    | Node [] => None
    | Node (h :: args) =>
        if is_word h "and" then option_map SmAnd (reads args)
        else if is_word h "or" then option_map SmOr (reads args)
        else if is_word h "=" then option_map SmEq (reads args)
        else if is_word h "distinct" then option_map SmNeq (reads args)
        else if is_word h "not" then match args with [a] => option_map SmNot (read_smt scope a) | _ => None end
        else if is_word h "=>" then
          match args with
          | [a; b] => match read_smt scope a, read_smt scope b with Some x, Some y => Some (SmImplies x y) | _, _ => None end
          | _ => None
          end
        else if is_word h "ite" then
          match args with
          | [a; b; c] =>
              match read_smt scope a, read_smt scope b, read_smt scope c with Some x, Some y, Some z => Some (SmIte x y z) | _, _, _ => None end
          | _ => None
          end
        else if is_word h "subterm" then
          match args with
          | [Atom w; a; b] =>
              match function w, read_smt scope a, read_smt scope b with Some f, Some x, Some y => Some (SmSubterm f x y) | _, _, _ => None end
          | _ => None
          end
        else if is_word h "forall" then
          match args with
          | [Node bs; b] =>
              match read_binders scope bs with
              | Some scope' => option_map (SmForall (new_vars scope scope')) (read_smt scope' b)
              | None => None
              end
          | _ => None
          end
        else if is_word h "exists" then
          match args with
          | [Node bs; b] =>
              match read_binders scope bs with
              | Some scope' => option_map (SmExists (new_vars scope scope')) (read_smt scope' b)
              | None => None
              end
          | _ => None
          end
        else match h with Atom w => match function w, reads args with Some f, Some xs => Some (SmFun f xs) | _, _ => None end | Node _ => None end
    end.
  Definition read (t : text) : option smt := match read_sexp t with Some e => read_smt [] e | None => None end.
End Reader.

(** ** What is recovered *)

(** The functions that are not printed: evaluations in the evaluated realm. *)
Definition invisible (evaluated : bool) (f : fsym) : bool := match evaluated, f with true, Feval _ => true | _, _ => false end.

(** Up to the abbreviations of the printer: empty binders, empty connectives, equations of at most one term, and in the evaluated realm the
    evaluation functions. *)
Section Norm.
  Context (evaluated : bool).
  Fixpoint norm (s : smt) : smt :=
    match s with
    | SmVar v => SmVar v
    | SmFun f args =>
        match evaluated, f, args with
        | true, Feval _, [a] => norm a
        | _, _, _ => SmFun f (map norm args)
        end
    | SmForall [] b | SmExists [] b => norm b
    | SmForall vs b => SmForall vs (norm b)
    | SmExists vs b => SmExists vs (norm b)
    | SmTrue => SmTrue
    | SmFalse => SmFalse
    | SmAnd [] => SmTrue
    | SmAnd l => SmAnd (map norm l)
    | SmOr [] => SmFalse
    | SmOr l => SmOr (map norm l)
    | SmEq [] | SmEq [_] | SmNeq [] | SmNeq [_] => SmTrue
    | SmEq l => SmEq (map norm l)
    | SmNeq l => SmNeq (map norm l)
    | SmNot a => SmNot (norm a)
    | SmImplies a b => SmImplies (norm a) (norm b)
    | SmSubterm f a b => SmSubterm f (norm a) (norm b)
    | SmIte c l r => SmIte (norm c) (norm l) (norm r)
    end.
End Norm.
(** Up to the choice of the bound variables: each becomes the number of binders around it. *)
Fixpoint level (scope : list var) (v : var) : option nat :=
  match scope with [] => None | u :: r => if vid u =? vid v then Some (List.length r) else level r v end.
Fixpoint relevel (n : nat) (vs : list var) : list var := match vs with [] => [] | v :: r => mkVar n (vsort v) :: relevel (S n) r end.
Fixpoint levels (scope : list var) (s : smt) : option smt :=
  let all := fix all (l : list smt) : option (list smt) :=
    match l with [] => Some [] | a :: l' => match levels scope a, all l' with Some x, Some xs => Some (x :: xs) | _, _ => None end end in
  match s with
  | SmVar v => option_map (fun n => SmVar (mkVar n (vsort v))) (level scope v)
  | SmFun f args => option_map (SmFun f) (all args)
  | SmForall vs b => option_map (SmForall (relevel (List.length scope) vs)) (levels (rev vs ++ scope) b)
  | SmExists vs b => option_map (SmExists (relevel (List.length scope) vs)) (levels (rev vs ++ scope) b)
  | SmTrue => Some SmTrue
  | SmFalse => Some SmFalse
  | SmAnd l => option_map SmAnd (all l)
  | SmOr l => option_map SmOr (all l)
  | SmEq l => option_map SmEq (all l)
  | SmNeq l => option_map SmNeq (all l)
  | SmNot a => option_map SmNot (levels scope a)
  | SmImplies a b => match levels scope a, levels scope b with Some x, Some y => Some (SmImplies x y) | _, _ => None end
  | SmSubterm f a b => match levels scope a, levels scope b with Some x, Some y => Some (SmSubterm f x y) | _, _ => None end
  | SmIte c l r => match levels scope c, levels scope l, levels scope r with Some x, Some y, Some z => Some (SmIte x y z) | _, _, _ => None end
  end.

(** ** Legal formulas *)
Section Legal.
  Context (fname : fsym -> text) (sname : sort -> text) (fn : text -> option fsym) (so : text -> option sort) (sort_of : nat -> sort).
  (** Names are symbols, known to the reader, and no function is named like a variable. *)
  Definition legal_fun (f : fsym) : Prop :=
    symbol (fname f) /\ fn (fname f) = Some f /\ (forall v, var_text sname v <> Some (fname f)).
  Definition legal_var (v : var) : Prop := symbol (sname (vsort v)) /\ so (sname (vsort v)) = Some (vsort v) /\ vsort v = sort_of (vid v).
  (** [scope]: the ids of the variables in scope; [evaluated] and [no-op]s are covered by giving them one argument. *)
  Inductive legal (evaluated : bool) : list nat -> smt -> Prop :=
  | le_var sc v : legal_var v -> In (vid v) sc -> legal evaluated sc (SmVar v)
  | le_fun sc f args : legal_fun f -> invisible evaluated f = false -> Forall (legal evaluated sc) args -> legal evaluated sc (SmFun f args)
  | le_no_op sc f a : invisible evaluated f = true -> legal evaluated sc a -> legal evaluated sc (SmFun f [a])
  | le_forall sc vs b : Forall legal_var vs -> legal evaluated (map vid vs ++ sc) b -> legal evaluated sc (SmForall vs b)
  | le_exists sc vs b : Forall legal_var vs -> legal evaluated (map vid vs ++ sc) b -> legal evaluated sc (SmExists vs b)
  | le_true sc : legal evaluated sc SmTrue
  | le_false sc : legal evaluated sc SmFalse
  | le_and sc l : Forall (legal evaluated sc) l -> legal evaluated sc (SmAnd l)
  | le_or sc l : Forall (legal evaluated sc) l -> legal evaluated sc (SmOr l)
  | le_eq sc l : Forall (legal evaluated sc) l -> legal evaluated sc (SmEq l)
  | le_neq sc l : Forall (legal evaluated sc) l -> legal evaluated sc (SmNeq l)
  | le_not sc a : legal evaluated sc a -> legal evaluated sc (SmNot a)
  | le_implies sc a b : legal evaluated sc a -> legal evaluated sc b -> legal evaluated sc (SmImplies a b)
  | le_subterm sc f a b : legal_fun f -> legal evaluated sc a -> legal evaluated sc b -> legal evaluated sc (SmSubterm f a b)
  | le_ite sc c l r : legal evaluated sc c -> legal evaluated sc l -> legal evaluated sc r -> legal evaluated sc (SmIte c l r).
End Legal.

(** What the abbreviations need of an interpretation: a formula under an empty binder is a proposition, and evaluation does nothing in the
    evaluated realm. *)
Section Harmless.
  Context (M : structure) (evaluated : bool).
  Definition proposition (s : smt) : Prop := forall rho : env M, dinj M (dtest M (seval s rho)) = seval s rho.
  Inductive harmless : smt -> Prop :=
  | ha_var v : harmless (SmVar v)
  | ha_fun f args : (invisible evaluated f = true -> forall d, fint M f [d] = d) -> Forall harmless args -> harmless (SmFun f args)
  | ha_forall vs b : (vs = [] -> proposition b) -> harmless b -> harmless (SmForall vs b)
  | ha_exists vs b : (vs = [] -> proposition b) -> harmless b -> harmless (SmExists vs b)
  | ha_true : harmless SmTrue
  | ha_false : harmless SmFalse
  | ha_and l : Forall harmless l -> harmless (SmAnd l)
  | ha_or l : Forall harmless l -> harmless (SmOr l)
  | ha_eq l : Forall harmless l -> harmless (SmEq l)
  | ha_neq l : Forall harmless l -> harmless (SmNeq l)
  | ha_not a : harmless a -> harmless (SmNot a)
  | ha_implies a b : harmless a -> harmless b -> harmless (SmImplies a b)
  | ha_subterm f a b : harmless a -> harmless b -> harmless (SmSubterm f a b)
  | ha_ite c l r : harmless c -> harmless l -> harmless r -> harmless (SmIte c l r).
End Harmless.

(** ** Files *)
Section Files.
  Context (M : structure).
  (** [ground]: what [assert-ground] means. *)
  Context (ground : sort -> smt -> env M -> Prop).
  Definition satisfies (rho : env M) (c : command) : Prop :=
    match c with
    | KComment | KCheckSat => True
    | KAssert s | KAssertTh s => sholds s rho
    | KAssertNot s => ~ sholds s rho
    | KAssertGround g s => ground g s rho
    | KRewrite _ vs l r => sholds (SmForall vs (SmEq [l; r])) rho
    end.
  (** What an axiom says; nothing for the query. *)
  Definition axiom_true (rho : env M) (a : axm) : Prop :=
    match a with
    | XComment | XQuery _ => True
    | XBase f | XTheory f | XGround _ f => holds f rho
    | XRewrite _ vs pre post => holds (FQ QForall vs (FFun (Fb CEq) [pre; post])) rho
    end.
End Files.
Definition query_of (a : axm) : list formula := match a with XQuery f => [f] | _ => [] end.
Definition axiom_arities (a : axm) : Prop :=
  match a with
  | XComment => True
  | XBase f | XTheory f | XGround _ f | XQuery f => arities f
  | XRewrite _ _ pre post => arities pre /\ arities post
  end.
