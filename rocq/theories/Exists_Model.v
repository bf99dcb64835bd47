(** Merging the disjuncts of a subterm search under one existential. *)
From Coq Require Import List Arith Bool.
From Verif Require Import Syntax_Model.
Import ListNotations.

(** One disjunct: its bound variables and its formula. *)
Definition disjunct : Type := list var * formula.

Definition quant_eqb (a b : quant) : bool :=
  match a, b with QForall, QForall | QExists, QExists => true | _, _ => false end.
(** Same id and same sort: what the derived [Ord] and [Hash] of variables look at (formula/variable.rs 18-22). *)
Definition key_eqb (a b : var) : bool := Nat.eqb (vid a) (vid b) && sort_eqb (vsort a) (vsort b).
Fixpoint list_eqb {A} (eqb : A -> A -> bool) (l r : list A) : bool :=
  match l, r with
  | [], [] => true
  | a :: l', b :: r' => eqb a b && list_eqb eqb l' r'
  | _, _ => false
  end.
(** Derived [==] and [Hash] of formulas (formula/formula/formula.rs 28-36), for the hash set inside [unique]. Two variables with
    the same id and different sorts are [==] and have different hashes; they are different here. *)
Fixpoint formula_eqb (f g : formula) {struct f} : bool :=
  match f, g with
  | FVar v, FVar w => key_eqb v w
  | FFun s l, FFun t r =>
      fsym_eqb s t && (fix go l r := match l, r with
                                     | [], [] => true
                                     | a :: l', b :: r' => formula_eqb a b && go l' r'
                                     | _, _ => false
                                     end) l r
  | FQ q vs b, FQ q' vs' b' => quant_eqb q q' && list_eqb key_eqb vs vs' && formula_eqb b b'
  | _, _ => false
  end.
Definition disjunct_eqb (a b : disjunct) : bool := list_eqb key_eqb (fst a) (fst b) && formula_eqb (snd a) (snd b).

(** itertools [unique]: keeps the first of equal elements. *)
Fixpoint unique_from (seen : list disjunct) (l : list disjunct) : list disjunct :=
  match l with
  | [] => []
  | d :: l' => if existsb (disjunct_eqb d) seen then unique_from seen l' else d :: unique_from (d :: seen) l'
  end.
Definition unique (l : list disjunct) : list disjunct := unique_from [] l.

Section Exists.
  (** The order of sorts in the derived [Ord] of variables: any comparison. *)
  Context (scmp : sort -> sort -> comparison).
  Definition kcmp (a b : var) : comparison :=
    match Nat.compare (vid a) (vid b) with Eq => scmp (vsort a) (vsort b) | c => c end.
  (** Insertion in an ordered set of variables. *)
  Fixpoint key_insert (v : var) (l : list var) : list var :=
    match l with
    | [] => [v]
    | w :: l' => match kcmp v w with Lt => v :: l | Eq => l | Gt => w :: key_insert v l' end
    end.
  (** subterm/mod.rs 693-704: the keys of the map. *)
  Definition keys (content : list disjunct) : list var :=
    fold_left (fun acc v => key_insert v acc) (flat_map fst content) [].
  Definition is_key (a b : var) : bool := match kcmp a b with Eq => true | _ => false end.

  (** subterm/mod.rs 693-713: the set of indices of a variable, in order: the disjuncts that bind it, and those that do not bind
      its id. *)
  Definition index_set (content : list disjunct) (v : var) : list nat :=
    map fst (filter (fun id => existsb (is_key v) (fst (snd id)) || negb (existsb (Nat.eqb (vid v)) (map vid (fst (snd id)))))
                    (combine (seq 0 (length content)) content)).

  (** Derived [Ord] of ordered sets: lexicographic. *)
  Fixpoint lex (l r : list nat) : comparison :=
    match l, r with
    | [], [] => Eq
    | [], _ => Lt
    | _, [] => Gt
    | a :: l', b :: r' => match Nat.compare a b with Eq => lex l' r' | c => c end
    end.
  Definition set_cmp (l r : list nat) : comparison :=
    match Nat.compare (length l) (length r) with Eq => lex l r | c => c end.
  (** itertools [max_set_by_key]: the elements whose key is maximal, in order. *)
  Fixpoint max_set (best : list (var * list nat)) (l : list (var * list nat)) : list (var * list nat) :=
    match l with
    | [] => best
    | x :: l' =>
        match best with
        | [] => max_set [x] l'
        | b :: _ => match set_cmp (snd x) (snd b) with
                    | Gt => max_set [x] l'
                    | Eq => max_set (best ++ [x]) l'
                    | Lt => max_set best l'
                    end
        end
    end.

  (** subterm/mod.rs 689-771 [into_exist_formula]. *)
  Definition into_exist_formula (ds : list disjunct) : formula :=
    let content := unique ds in
    let vars := map (fun v => (v, index_set content v)) (keys content) in
    match max_set [] vars with
    | [] => ors (map snd content)
    | ((_, position_max) :: _) as mx =>
        let vars_max := map fst mx in
        let ors1 := flat_map (fun i => match nth_error content i with
                                       | Some (inner, f) => [mk_exists (filter (fun v => negb (existsb (is_key v) vars_max)) inner) f]
                                       | None => []
                                       end) position_max in
        ors (mk_exists vars_max (ors ors1) ::
             flat_map (fun id => if existsb (Nat.eqb (fst id)) position_max then []
                                 else [mk_exists (fst (snd id)) (snd (snd id))])
                      (combine (seq 0 (length content)) content))
    end.
End Exists.
