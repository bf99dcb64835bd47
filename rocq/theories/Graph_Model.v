(** The dependency graph between memory cells and inputs. *)
From Coq Require Import List Arith Bool.
From Verif Require Import Syntax_Model Subst_Model Order_Model Macro_Model.
Import ListNotations.

(** problem/cell_dependancies/graph.rs 79-102; the time points and arguments stored in the nodes (60-68, call.rs) are
    never read again and are left out. A cell is the index of its node. *)
Inductive fromnode : Type := FromMessage (s : pstep) | FromCondition (s : pstep) | FromCell (idx : nat).
Inductive tonode : Type := ToInput | ToCell (idx : nat).
(** graph.rs 104-111 [get_cell_idx]. *)
Definition get_cell_idx (t : tonode) : option nat := match t with ToInput => None | ToCell i => Some i end.
(** graph.rs 89-95 [is_condition]. *)
Definition is_condition (f : fromnode) : bool := match f with FromCondition _ => true | _ => false end.

Section Nodes.
  Context (steps : list pstep) (cells : list mcell).

  (** A step function points to its step (formula/function/inner/step.rs 22-24): here it is looked up by its function. *)
  Definition step_of (k : nat) : option pstep := find (fun s => Nat.eqb (ps_fun s) k) steps.

  (** What [ToNodeIterator::next] does with one formula. *)
  Inductive visit : Type := VPanic | VResult (t : tonode) | VChildren (fs : list formula).
  Definition children_or_panic (f : option formula) : visit := match f with Some g => VChildren [g] | None => VPanic end.

  (** graph/process_functions.rs 105-182. *)
  Definition to_node (f : formula) : visit :=
    match f with
    | FVar v => if sort_eqb (vsort v) SStep then VPanic else VChildren []
    | FFun (Fcell c) args =>
        match position c (map ce_fun cells), args with
        | Some i, _ :: _ => VResult (ToCell i)
        | _, _ => VPanic
        end
    | FFun (Fmacro m) [FFun (Fstep k) args] =>
        match step_of k with
        | None => VPanic
        | Some s =>
            match m with
            | MCondition => children_or_panic (apply_condition s args)
            | MMessage => children_or_panic (apply_message s args)
            | MExec => VPanic
            | MInput => VResult ToInput
            end
        end
    | FFun (Fmacro _) _ => VPanic
    | FFun (Fstep _) _ | FFun Fpred _ => VPanic
    | FFun _ args => VChildren args
    | FQ _ _ b => VChildren [b]
    end.

  (** The iterator on a pile (crates/logic_formula/src/outers/ref_pile.rs 46-64). [None]: a panic, or more than [fuel]
      formulas (the iteration does not stop when a step's message contains its own message). *)
  Fixpoint to_nodes (fuel : nat) (pile : list formula) : option (list tonode) :=
    match fuel with
    | O => None
    | S n =>
        match pile with
        | [] => Some []
        | f :: rest =>
            match to_node f with
            | VPanic => None
            | VResult t => match to_nodes n rest with Some l => Some (t :: l) | None => None end
            | VChildren fs => to_nodes n (rev fs ++ rest)
            end
        end
    end.

  (** process_functions.rs 43-98: for every step its condition, then its message. *)
  Definition step_edges (fuel : nat) : option (list (fromnode * tonode)) :=
    option_map (@concat _) (mapM (fun s =>
      match to_nodes fuel [ps_cond s], to_nodes fuel [ps_msg s] with
      | Some c, Some m => Some (map (pair (FromCondition s)) c ++ map (pair (FromMessage s)) m)
      | _, _ => None
      end) steps).
  (** process_functions.rs 187-224: for every cell the contents of its assignments. *)
  Definition cell_edges (fuel : nat) : option (list (fromnode * tonode)) :=
    option_map (@concat _) (mapM (fun '(i, c) =>
      option_map (@concat _) (mapM (fun a => option_map (map (pair (FromCell i))) (to_nodes fuel [as_content a])) (ce_asgs c)))
      (combine (seq 0 (length cells)) cells)).
End Nodes.

(** graph.rs 37-58. *)
Record graph : Type := mkGraph {
  g_cells : list (mcell * list nat);
  g_starts : nat;
  g_edges : list (fromnode * tonode)
}.

Definition is_to_input (e : fromnode * tonode) : bool := match snd e with ToInput => true | ToCell _ => false end.
Definition from_cell (k : nat) (e : fromnode * tonode) : bool := match fst e with FromCell i => Nat.eqb i k | _ => false end.
(** The indices of the elements satisfying [p], in order. *)
Definition indices {A} (p : A -> bool) (l : list A) : list nat :=
  map fst (filter (fun ia => p (snd ia)) (combine (seq 0 (length l)) l)).

(** graph.rs 120-166: the edges towards an input are put after the others, once the cells have got theirs. *)
Definition graph_new (fuel : nat) (steps : list pstep) (cells : list mcell) : option graph :=
  match step_edges steps cells fuel, cell_edges steps cells fuel with
  | Some es, Some ec =>
      let edges := filter (fun e => negb (is_to_input e)) (es ++ ec) in
      let input_edges := filter is_to_input (es ++ ec) in
      Some (mkGraph (map (fun '(i, c) => (c, indices (from_cell i) edges)) (combine (seq 0 (length cells)) cells))
                    (length edges) (edges ++ input_edges))
  | _, _ => None
  end.

(** problem/cell_dependancies/macro_ref.rs; a cell is given by its function. *)
Inductive mref : Type := RInput | RExec | RCell (c : nat).
(** problem/cell_dependancies/mod.rs [Ancestors]. *)
Record ancestors : Type := mkAnc { an_input : bool; an_cells : list mcell }.

Fixpoint set_true (k : nat) (l : list bool) : list bool :=
  match l, k with
  | [], _ => []
  | _ :: l', O => true :: l'
  | b :: l', S k' => b :: set_true k' l'
  end.

(** graph.rs 195-212, the loop; [None]: out of fuel, or an index out of bounds. *)
Fixpoint dfs (succ : nat -> option (list nat)) (fuel : nat) (visited : list bool) (stack : list nat) : option (list bool) :=
  match fuel with
  | O => None
  | S n =>
      match stack with
      | [] => Some visited
      | next :: rest =>
          match nth_error visited next with
          | None => None
          | Some true => dfs succ n visited rest
          | Some false =>
              match succ next with
              | None => None
              | Some l => dfs succ n (set_true next visited) (rev l ++ rest)
              end
          end
      end
  end.

Section Ancestors.
  Context (g : graph).
  Definition input_idx : nat := length (g_cells g).
  Definition target (e : fromnode * tonode) : nat := match get_cell_idx (snd e) with Some i => i | None => input_idx end.
  (** graph.rs 202-211: out of bounds is the input node. *)
  Definition node_edges (k : nat) : list nat :=
    match nth_error (g_cells g) k with
    | Some (_, es) => es
    | None => seq (g_starts g) (length (g_edges g) - g_starts g)
    end.
  Definition node_succ (k : nat) : option (list nat) :=
    mapM (fun ei => option_map target (nth_error (g_edges g) ei)) (node_edges k).
  (** graph.rs 173-191. *)
  Definition start_nodes (r : mref) : option (list nat) :=
    match r with
    | RInput => Some [input_idx]
    | RCell c => option_map (fun i => [i]) (position c (map (fun ce => ce_fun (fst ce)) (g_cells g)))
    | RExec => Some (map target (filter (fun e => is_condition (fst e)) (g_edges g)))
    end.
  (** graph.rs 171-223, and preprocessed_graph.rs 31-58 which computes it once and for all for every macro. *)
  Definition graph_ancestors (fuel : nat) (r : mref) : option ancestors :=
    match start_nodes r with
    | None => None
    | Some start =>
        match dfs node_succ fuel (repeat false (input_idx + 1)) (rev start) with
        | None => None
        | Some visited =>
            Some (mkAnc (nth input_idx visited false)
                        (map (fun cv => fst (fst cv)) (filter snd (combine (g_cells g) (firstn input_idx visited)))))
        end
    end.
End Ancestors.
