(** Sorts up to realm, sort inference placeholders, signatures.
    Paths are relative to /repo/crates/cryptovampire/src. *)
From Coq Require Import List Arith Bool.
From Verif Require Import Syntax_Model.
Import ListNotations.

(** environement/traits/realm.rs 5-19. *)
Inductive realm : Type := RSymbolic | REvaluated.

(** formula/sort/mod.rs 92-98 [maybe_evaluated_sort]; inner/base.rs [evaluated_sort], inner/user.rs 44-49. *)
Definition maybe_evaluated_sort (s : sort) : option sort :=
  match s with
  | SCondition => Some SBool
  | SMessage => Some SBitstring
  | SUserSym i => Some (SUserEval i)
  | _ => None
  end.

(** formula/sort/mod.rs 227-229 [evaluated_sort]. *)
Definition evaluated_sort (s : sort) : sort :=
  match maybe_evaluated_sort s with Some t => t | None => s end.

(** formula/sort/mod.rs 161-168 [is_evaluatable]. *)
Definition is_evaluatable (s : sort) : bool :=
  match s with SCondition | SMessage | SUserSym _ => true | _ => false end.

(** formula/sort/mod.rs 100-106 [is_evaluated]. *)
Definition is_evaluated (s : sort) : bool :=
  match s with SBool | SBitstring | SUserEval _ => true | _ => false end.

(** formula/sort/mod.rs 255-261 [realm]; inner/base.rs and inner/user.rs [get_realm]. *)
Definition sort_realm (s : sort) : option realm :=
  match s with
  | SBool | SBitstring | SUserEval _ => Some REvaluated
  | SCondition | SMessage | SUserSym _ => Some RSymbolic
  | _ => None
  end.

Definition opt_sort_is (o : option sort) (s : sort) : bool :=
  match o with Some t => sort_eqb t s | None => false end.

(** formula/sort/mod.rs 239-252 [eq_realm]. *)
Definition eq_realm (r : realm) (a b : sort) : bool :=
  sort_eqb a b
  || match r with
     | RSymbolic => false
     | REvaluated =>
         (is_evaluatable a || is_evaluatable b)
         && (opt_sort_is (maybe_evaluated_sort a) b || opt_sort_is (maybe_evaluated_sort b) a)
     end.

(** formula/sort/sort_proxy.rs 66-69: a placeholder is a shared cell ([Rc<RefCell<Option<Sort>>>]), here a location
    in a heap, or a fixed sort. *)
Inductive proxy : Type := PVar (l : nat) | PStatic (s : sort).
Definition heap : Type := list (option sort).

(** sort_proxy.rs 211-218 [From<&SortProxy> for Option<Sort>], 171-173 [as_option]. A location outside of the heap
    does not exist in the code; it is read as unknown. *)
Definition as_option (h : heap) (p : proxy) : option sort :=
  match p with PVar l => nth l h None | PStatic s => Some s end.

Fixpoint put (h : heap) (l : nat) (s : sort) : heap :=
  match h, l with
  | [], _ => []
  | _ :: h', 0 => Some s :: h'
  | c :: h', S l' => c :: put h' l' s
  end.

(** sort_proxy.rs 7-18 [InferenceError] (without the texts), 55-60 [UpdateError]. *)
Inductive inference_error : Type :=
| ECantInfer
| EMismatch (expected received : sort).
Inductive update_error : Type := EReadOnly | EAlreadySet.

Inductive res (A E : Type) : Type := Ok (a : A) | Err (e : E).
Arguments Ok {A E}. Arguments Err {A E}.

(** sort_proxy.rs 154-169 [set]. *)
Definition set (h : heap) (p : proxy) (s : sort) : heap * res unit update_error :=
  match p with
  | PVar l => match nth l h None with
              | Some _ => (h, Err EAlreadySet)
              | None => (put h l s, Ok tt)
              end
  | PStatic _ => (h, Err EReadOnly)
  end.

(** [self.set(s).unwrap()]: [None] is a panic. *)
Definition set_unwrap (h : heap) (p : proxy) (s : sort) : option heap :=
  match set h p s with (h', Ok _) => Some h' | (_, Err _) => None end.

(** sort_proxy.rs 79-90 [expects]. The outer [option] is a panic. *)
Definition expects (h : heap) (p : proxy) (s : sort) (r : realm) : option (heap * res unit inference_error) :=
  match as_option h p with
  | Some s2 => if eq_realm r s2 s then Some (h, Ok tt) else Some (h, Err (EMismatch s s2))
  | None => match set_unwrap h p s with Some h' => Some (h', Ok tt) | None => None end
  end.

(** sort_proxy.rs 23-36 [flip]. *)
Definition flip_err (e : inference_error) : inference_error :=
  match e with EMismatch a b => EMismatch b a | e => e end.

(** sort_proxy.rs 95-108 [matches]. *)
Definition matches (h : heap) (p : proxy) (s : sort) (r : realm) : option (heap * res unit inference_error) :=
  match expects h p s r with
  | Some (h', Err e) => Some (h', Err (flip_err e))
  | x => x
  end.

(** sort_proxy.rs 121-144 [unify]. *)
Definition unify (h : heap) (p q : proxy) (r : realm) : option (heap * res sort inference_error) :=
  match as_option h p, as_option h q with
  | Some s, Some s2 => if eq_realm r s s2 then Some (h, Ok s) else Some (h, Err (EMismatch s2 s))
  | None, Some s2 => match set_unwrap h p s2 with Some h' => Some (h', Ok s2) | None => None end
  | Some s, None => match set_unwrap h q s with Some h' => Some (h', Ok s) | None => None end
  | None, None => Some (h, Err ECantInfer)
  end.

(** sort_proxy.rs 146-152 [unify_rev]. *)
Definition unify_rev (h : heap) (p q : proxy) (r : realm) : option (heap * res sort inference_error) :=
  match unify h p q r with
  | Some (h', Err e) => Some (h', Err (flip_err e))
  | x => x
  end.

(** sort_proxy.rs 232-236 [Default for SortProxy]: a new unknown cell. *)
Definition new_proxy (h : heap) : heap * proxy := (h ++ [None], PVar (length h)).

(** The operations a client can perform, and histories of them ([None]: a panic). *)
Inductive op : Type :=
| OpNew
| OpSet (p : proxy) (s : sort)
| OpExpects (p : proxy) (s : sort) (r : realm)
| OpMatches (p : proxy) (s : sort) (r : realm)
| OpUnify (p q : proxy) (r : realm)
| OpUnifyRev (p q : proxy) (r : realm).

Definition run_op (h : heap) (o : op) : option heap :=
  match o with
  | OpNew => Some (fst (new_proxy h))
  | OpSet p s => Some (fst (set h p s))
  | OpExpects p s r => option_map fst (expects h p s r)
  | OpMatches p s r => option_map fst (matches h p s r)
  | OpUnify p q r => option_map fst (unify h p q r)
  | OpUnifyRev p q r => option_map fst (unify_rev h p q r)
  end.

Fixpoint run_ops (h : heap) (os : list op) : option heap :=
  match os with
  | [] => Some h
  | o :: os' => match run_op h o with Some h' => run_ops h' os' | None => None end
  end.

(** function/signature/mod.rs 27-53 [Signature]: result sort and argument sorts; [srep] is the sort repeated for
    ever after [sargs] ([std::iter::repeat], function/inner/booleans.rs 263-268). *)
Record sig : Type := mkSig { sout : proxy; sargs : list proxy; srep : option proxy }.

Inductive check_error : Type :=
| CESort (position : option nat) (e : inference_error)
| CEWrongNumber (got : nat).

(** signature/mod.rs 69-81: the [zip_longest ... try_fold] loop at index [i]; [a] is the accumulator. Outer [None]:
    out of fuel (the loop has not ended); inner [None]: panic. *)
Fixpoint unify_args (fuel : nat) (h : heap) (r : realm) (i : nat) (a : option nat)
    (l : list proxy) (lr : option proxy) (m : list proxy) (mr : option proxy)
    : option (option (heap * res (option nat) check_error)) :=
  match fuel with
  | 0 => None
  | S k =>
      let nx (x : list proxy) (xr : option proxy) : option proxy * list proxy :=
        match x with p :: x' => (Some p, x') | [] => (xr, []) end in
      match nx l lr, nx m mr with
      | (None, _), (None, _) => Some (Some (h, Ok a))
      | (Some p, l'), (Some q, m') =>
          match unify h p q r with
          | None => Some None
          | Some (h', Err e) => Some (Some (h', Err (CESort (Some i) e)))
          | Some (h', Ok _) => unify_args k h' r (S i) None l' lr m' mr
          end
      | (Some _, _), (None, _) => Some (Some (h, Err (CEWrongNumber i)))
      | (None, _), (Some _, m') => unify_args k h r (S i) (Some i) [] lr m' mr
      end
  end.

(** signature/mod.rs 57-90 [Signature::unify]. *)
Definition sig_unify (fuel : nat) (h : heap) (r : realm) (s t : sig)
    : option (option (heap * res unit check_error)) :=
  match unify h (sout s) (sout t) r with
  | None => Some None
  | Some (h', Err e) => Some (Some (h', Err (CESort None e)))
  | Some (h', Ok _) =>
      match unify_args fuel h' r 0 None (sargs s) (srep s) (sargs t) (srep t) with
      | None => None
      | Some None => Some None
      | Some (Some (h2, Err e)) => Some (Some (h2, Err e))
      | Some (Some (h2, Ok (Some i))) => Some (Some (h2, Err (CEWrongNumber i)))
      | Some (Some (h2, Ok None)) => Some (Some (h2, Ok tt))
      end
  end.

(** The shapes of signature a function can have: function/function.rs 318-351.
    [SgFixed]: fixed_signature.rs 34-48; [SgBools]: and/or, booleans.rs 249-280; [SgEq]: booleans.rs 215-247;
    [SgIte]: if_then_else.rs 33-68; [SgSub]: the Vampire subterm predicate, subterm.rs 158-199. *)
Inductive sigkind : Type :=
| SgFixed (args : list sort) (out : sort)
| SgBools
| SgEq
| SgIte
| SgSub (own : sort).

(** [Function::signature], allocating the placeholders it needs. *)
Definition signature (h : heap) (k : sigkind) : heap * sig :=
  match k with
  | SgFixed args out => (h, mkSig (PStatic out) (map PStatic args) None)
  | SgBools => (h, mkSig (PStatic SBool) [] (Some (PStatic SBool)))
  | SgEq => let (h1, l) := new_proxy h in let (h2, r) := new_proxy h1 in
            (h2, mkSig (PStatic SBool) [l; r] None)
  | SgIte => let (h1, p) := new_proxy h in (h1, mkSig p [PStatic SBool; p; p] None)
  | SgSub own => let (h1, p) := new_proxy h in (h1, mkSig (PStatic SBool) [PStatic own; p] None)
  end.

(** function/function.rs 86-103 [Sorted for Function]: [OnlyArgsSignature] (partial_signature.rs 23-30, 40-66) has a
    new unknown result. [Err None] is [SortedError::Impossible]. *)
Definition fun_sort (fuel : nat) (k : sigkind) (args : list sort)
    : option (option (res sort (option check_error))) :=
  let (h1, s) := signature [] k in
  let (h2, o) := new_proxy h1 in
  match sig_unify fuel h2 RSymbolic s (mkSig o (map PStatic args) None) with
  | None => None
  | Some None => Some None
  | Some (Some (_, Err e)) => Some (Some (Err (Some e)))
  | Some (Some (h3, Ok _)) =>
      match as_option h3 (sout s) with
      | Some t => Some (Some (Ok t))
      | None => Some (Some (Err None))
      end
  end.

(** formula/formula/formula.rs 37-51 [get_sort]; [kind] gives the signature of each symbol. A panic or an endless
    loop of [fun_sort] gives [None]. *)
Section GetSort.
  Variable kind : fsym -> sigkind.
  Variable fuel : nat.

  Fixpoint get_sort (f : formula) : option (res sort (option check_error)) :=
    let fix get_all (l : list formula) : option (res (list sort) (option check_error)) :=
      match l with
      | [] => Some (Ok [])
      | a :: l' => match get_sort a with
                   | None => None
                   | Some (Err e) => Some (Err e)
                   | Some (Ok s) => match get_all l' with
                                    | Some (Ok ss) => Some (Ok (s :: ss))
                                    | x => x
                                    end
                   end
      end in
    match f with
    | FVar v => Some (Ok (vsort v))
    | FFun g args =>
        let (h, sg) := signature [] (kind g) in
        match as_option h (sout sg) with
        | Some s => Some (Ok s)
        | None => match get_all args with
                  | None => None
                  | Some (Err e) => Some (Err e)
                  | Some (Ok ss) => match fun_sort fuel (kind g) ss with Some (Some x) => Some x | _ => None end
                  end
        end
    | FQ _ _ _ => Some (Ok SBool)
    end.
End GetSort.

(** function/inner/booleans.rs 61-89 [Sorted for Connective], 108-119 [Sorted for Equality]; [None]: an error. *)
Definition conn_sort (c : conn) (args : list sort) : option sort :=
  match c with
  | CTrue | CFalse => Some SBool
  | CEq => if Nat.eqb (length args) 2
              && (match nth_error args 0, nth_error args 1 with
                  | Some a, Some b => sort_eqb a b
                  | None, None => true
                  | _, _ => false
                  end)
           then Some SBool else None
  | _ =>
      if existsb (fun s => negb (sort_eqb s SBool)) args then None
      else match c with
           | CNot => None
           | CImplies => if negb (Nat.eqb (length args) 2) then None else Some SBool
           | _ => Some SBool
           end
  end.
