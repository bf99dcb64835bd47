(** Searches in an e-graph for the IND-CCA2 and ENC-KP rules of the indistinguishability prover.
    Paths are relative to /repo/crates/indistinguishability/src. *)
From Coq Require Import List Arith Bool.
From Verif Require Import Rewrite_Model.
Import ListNotations.
Local Open Scope list_scope.

(** A rebuilt [egg::EGraph]: ids are canonical, class [i] is the list of its nodes. *)
Definition node : Type := op * list nat.
Definition graph : Type := list (list node).

(** ind_cca.rs 19-43, enc_kp.rs 18-42 [SStatus] and its conversions. *)
Inductive status : Type := Searching | Found | NotFound.
Definition of_bool (b : bool) : status := if b then NotFound else Found.
Definition memo : Type := nat -> option status.
Definition mset (m : memo) (i : nat) (s : status) : memo := fun j => if Nat.eqb j i then Some s else m j.

(** [Panic]: indexing the graph with an unknown id. *)
Inductive answer : Type := Done (m : memo) (b : bool) | Panic | OutOfFuel.

(** ind_cca.rs 45-59 [SearchKind]. *)
Inductive kind : Type := Randomness | KeyBeforeEnc | KeyAfterEnc.
Definition is_key (k : kind) : bool := match k with Randomness => false | _ => true end.

(** ind_cca.rs 115-125 [find_next]. *)
Definition next_cca (sk : kind) (k : nat) (n : node) : list nat :=
  match n, sk with
  | (ODec, [c; k']), KeyBeforeEnc => if Nat.eqb k' k then [c] else [c; k']
  | (OPk, [k']), _ => if is_key sk && Nat.eqb k' k then [] else [k']
  | (OInput, _), _ => []
  | (_, l), _ => l
  end.
(** enc_kp.rs 116-121 and 158-164 [find_next]. *)
Definition next_nonce (k : nat) (n : node) : list nat :=
  match n with
  | (ONonce, _) | (OInput, _) => []
  | (_, l) => l
  end.
Definition next_key (k : nat) (n : node) : list nat :=
  match n with
  | (ODec, [c; k']) => if Nat.eqb k' k then [c] else [c; k']
  | (ONonce, _) | (OInput, _) => []
  | (_, l) => l
  end.

Section Search.
  Variable g : graph.
  Variable next : nat -> node -> list nat.
  Variable ignore : list nat.
  Variable nonce : nat.

  (** [Iterator::all] and [Iterator::any], stopping early. *)
  Fixpoint all_ids (f : memo -> nat -> answer) (ids : list nat) (m : memo) : answer :=
    match ids with
    | [] => Done m true
    | i :: ids' => match f m i with Done m' true => all_ids f ids' m' | x => x end
    end.
  Fixpoint any_node (f : memo -> nat -> answer) (ns : list node) (m : memo) : answer :=
    match ns with
    | [] => Done m false
    | n :: ns' => match all_ids f (next nonce n) m with Done m' false => any_node f ns' m' | x => x end
    end.

  (** ind_cca.rs 95-141 [not_subterm_down], enc_kp.rs 97-138 [not_subterm_down_nonce], 139-181
      [not_subterm_down_key]; they differ in [next]. *)
  Fixpoint search (fuel : nat) (m : memo) (t : nat) : answer :=
    match m t with
    | Some Found | Some Searching => Done m false
    | Some NotFound => Done m true
    | None =>
        match fuel with
        | 0 => OutOfFuel
        | S fuel' =>
            let result :=
              if Nat.eqb t nonce then Done m false
              else if existsb (Nat.eqb t) ignore then Done m true
              else match nth_error g t with
                   | None => Panic
                   | Some ns => any_node (search fuel') ns (mset m t Searching)
                   end in
            match result with
            | Done m' b => Done (mset m' t (of_bool b)) b
            | x => x
            end
        end
    end.
End Search.

(** Enough fuel (proved in [Egraph_Proofs]). *)
Definition check (g : graph) (next : nat -> node -> list nat) (ignore : list nat) (nonce : nat) (m : memo) (t : nat) : answer :=
  search g next ignore nonce (S (length g)) m t.

(** Successive checks for the same nonce sharing a table; each ignores its own classes. *)
Fixpoint checks (g : graph) (next : nat -> node -> list nat) (nonce : nat) (m : memo) (qs : list (list nat * nat)) : list bool :=
  match qs with
  | [] => []
  | (ignore, t) :: qs' =>
      match check g next ignore nonce m t with
      | Done m' b => b :: checks g next nonce m' qs'
      | _ => []
      end
  end.

(** ** Instances *)

Definition empty_memo : memo := fun _ => None.
(** main.rs 167-169 [is_nonce], 172-174 [is_equiv]. *)
Definition has_op (g : graph) (p : op -> bool) (i : nat) : bool :=
  match nth_error g i with Some ns => existsb (fun n => p (fst n)) ns | None => false end.
Definition is_nonce (g : graph) (i : nat) : bool := has_op g (fun f => match f with ONonce => true | _ => false end) i.
Definition is_equiv (g : graph) (i : nat) : bool := has_op g (fun f => match f with OEquiv => true | _ => false end) i.

Section Instances.
  Variable g : graph.
  (** [EGraph::id_to_expr]: some term of the class. *)
  Variable repr : nat -> term.

  (** The tables of a search, and whether a sibling is allowed. *)
  Definition tables : Type := list memo.
  Record instance : Type := mkInstance { im : nat; ik : nat; ir : nat; ic : nat }.

  (** A conjunction of checks, each with its table, stopping early; [None]: a panic. *)
  Fixpoint conj (cs : list ((nat -> node -> list nat) * nat)) (ignore : list nat) (ms : tables) (t : nat) : option (tables * bool) :=
    match cs, ms with
    | (next, n) :: cs', m :: ms' =>
        match check g next ignore n m t with
        | Done m' true => match conj cs' ignore ms' t with Some (ms2, b) => Some (m' :: ms2, b) | None => None end
        | Done m' false => Some (m' :: ms', false)
        | _ => None
        end
    | _, _ => Some (ms, true)
    end.

  (** ind_cca.rs 180-207, enc_kp.rs 222-247 [search_up_once]: the siblings in order, stopping at the first that is not
      allowed; then the new term of the parent. *)
  Fixpoint siblings (cs : list ((nat -> node -> list nat) * nat)) (c : nat) (id : nat) (l : list nat) (ms : tables) : option (tables * bool) :=
    match l with
    | [] => Some (ms, true)
    | s :: l' =>
        if Nat.eqb s id then siblings cs c id l' ms
        else match conj cs [c] ms s with
             | Some (ms', true) => siblings cs c id l' ms'
             | x => x
             end
    end.
  Definition parent_term (n : node) (id : nat) (e : term) : term :=
    T (fst n) (map (fun s => if Nat.eqb s id then e else repr s) (snd n)).

  (** The state of a [Searcher] (ind_cca.rs 155-163, enc_kp.rs 196-205). *)
  Record state : Type := mkState { todos : list (nat * term); done : list nat; tabs : tables }.
  (** ind_cca.rs 217-220, enc_kp.rs 257-260 [push]: [HashMap::insert]. *)
  Definition push (st : state) (id : nat) (e : term) : state :=
    if existsb (Nat.eqb id) (done st) then st
    else mkState ((id, e) :: filter (fun x => negb (Nat.eqb (fst x) id)) (todos st)) (done st) (tabs st).
  Fixpoint search_up (cs : list ((nat -> node -> list nat) * nat)) (c : nat) (id : nat) (e : term) (ups : list (node * nat)) (st : state) : option state :=
    match ups with
    | [] => Some st
    | (n, p) :: ups' =>
        match siblings cs c id (snd n) (tabs st) with
        | None => None
        | Some (ms, ok) =>
            let st' := mkState (todos st) (done st) ms in
            search_up cs c id e ups' (if ok then push st' p (parent_term n id e) else st')
        end
    end.
  (** The nodes above a class (ind_cca.rs 235-238); egg gives them in an order of its own, possibly repeated. *)
  Definition above (id : nat) (np : node * nat) : Prop :=
    exists ns, nth_error g (snd np) = Some ns /\ In (fst np) ns /\ In id (snd (fst np)).

  (** ind_cca.rs 209-215 [pop] and 226-242 [next], enc_kp.rs 249-255 and 266-282: any element of [todos] may be next. A class with an [equiv] is
      yielded. *)
  Inductive step (cs : list ((nat -> node -> list nat) * nat)) (c : nat) : state -> option (nat * term) -> state -> Prop :=
  | st_yield td1 td2 id e dn ms : is_equiv g id = true ->
      step cs c (mkState (td1 ++ (id, e) :: td2) dn ms) (Some (id, e)) (mkState (td1 ++ td2) (id :: dn) ms)
  | st_up td1 td2 id e dn ms ups st' : is_equiv g id = false ->
      (forall np, In np ups <-> above id np) ->
      search_up cs c id e ups (mkState (td1 ++ td2) (id :: dn) ms) = Some st' ->
      step cs c (mkState (td1 ++ (id, e) :: td2) dn ms) None st'.
  Inductive yields (cs : list ((nat -> node -> list nat) * nat)) (c : nat) : state -> nat * term -> Prop :=
  | y_now st r st' : step cs c st (Some r) st' -> yields cs c st r
  | y_later st o st' r : step cs c st o st' -> yields cs c st' r -> yields cs c st r.

  (** ind_cca.rs 248-287 [into_search]. *)
  Definition cca_checks (i : instance) : list ((nat -> node -> list nat) * nat) :=
    [(next_cca KeyBeforeEnc, ik i); (next_cca Randomness, ir i)].
  Definition cca_start (i : instance) : option state :=
    if Nat.eqb (ik i) (ir i) then None
    else if negb (is_nonce g (ik i) && is_nonce g (ir i)) then None
    else match conj (cca_checks i) [] [empty_memo; empty_memo] (im i) with
         | Some (ms, true) =>
             Some (mkState [(ic i, T OEnc [T OZeroes [T OLength [repr (im i)]]; repr (ir i); T OPk [repr (ik i)]])] [] ms)
         | _ => None
         end.
  (** enc_kp.rs 288-328 [into_search]; the order of the tables follows the order of the checks here, 232-236 checks the
      randomness first. *)
  Definition kp_start_checks (i : instance) (nk : nat) : list ((nat -> node -> list nat) * nat) :=
    [(next_key, ik i); (next_key, nk); (next_nonce, ir i)].
  Definition kp_checks (i : instance) (nk : nat) : list ((nat -> node -> list nat) * nat) :=
    [(next_nonce, ir i); (next_key, ik i); (next_key, nk)].
  Definition kp_start (i : instance) (nk : nat) : option state :=
    if Nat.eqb (ik i) nk then None
    else if negb (Nat.eqb (ik i) (ir i)) && is_nonce g (ik i) && is_nonce g (ir i) then
      match conj (kp_start_checks i nk) [] [empty_memo; empty_memo; empty_memo] (im i) with
      | Some ([a; b; r], true) =>
          Some (mkState [(ic i, T OEnc [repr (im i); repr (ir i); T OPk [repr nk]])] [] [r; a; b])
      | _ => None
      end
    else None.
  (** ind_cca.rs 294-314, enc_kp.rs 335-360 [find_searchs]: the matches of [(enc ?m ?r (pk ?k))]. *)
  Definition matches (i : instance) : Prop :=
    exists ns p ns', nth_error g (ic i) = Some ns /\ In (OEnc, [im i; ir i; p]) ns /\
                     nth_error g p = Some ns' /\ In (OPk, [ik i]) ns'.

  (** [IndCCA2::find], [EnkKp::find]: the class and the term to be merged. *)
  Definition cca_instance (r : nat * term) : Prop :=
    exists i st, matches i /\ cca_start i = Some st /\ yields (cca_checks i) (ic i) st r.
  Definition kp_instance (nonces : list nat) (r : nat * term) : Prop :=
    exists i nk st, matches i /\ In nk nonces /\ kp_start i nk = Some st /\ yields (kp_checks i nk) (ic i) st r.
End Instances.
