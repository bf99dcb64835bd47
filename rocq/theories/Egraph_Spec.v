(** Terms of an e-graph, and occurrences of a nonce in them. *)
From Coq Require Import List Arith.
From Verif Require Import Rewrite_Model Egraph_Model.
Import ListNotations.

(** [t] is a term of class [i]. *)
Inductive rep (g : graph) : term -> nat -> Prop :=
| rep_node f ts ids i ns : nth_error g i = Some ns -> In (f, ids) ns -> Forall2 (rep g) ts ids -> rep g (T f ts) i.

(** A rebuilt e-graph: a node is in one class, its children are classes, every class has a term, and decryptions and
    public keys have the right number of children. *)
Record rebuilt (g : graph) : Prop := mkRebuilt {
  r_unique : forall i j ns ns' n, nth_error g i = Some ns -> nth_error g j = Some ns' -> In n ns -> In n ns' -> i = j;
  r_closed : forall i ns f ids c, nth_error g i = Some ns -> In (f, ids) ns -> In c ids -> c < length g;
  r_term : forall i, i < length g -> exists t, rep g t i;
  r_arity : forall i ns f ids, nth_error g i = Some ns -> In (f, ids) ns ->
            (f = ODec -> length ids = 2) /\ (f = OPk -> length ids = 1) }.

(** Which children of a term an occurrence check must look at; [K]: the terms equal to the nonce. *)
Definition looks : Type := (term -> Prop) -> term -> nat -> term -> Prop.
Definition looks_cca (sk : kind) : looks := fun K t n u =>
  match t with T f args => nth_error args n = Some u /\ f <> OInput /\ ~ (f = OPk /\ sk <> Randomness /\ K u) /\
                           ~ (f = ODec /\ sk = KeyBeforeEnc /\ n = 1 /\ K u) end.
Definition looks_nonce : looks := fun K t n u =>
  match t with T f args => nth_error args n = Some u /\ f <> OInput /\ f <> ONonce end.
Definition looks_key : looks := fun K t n u =>
  match t with T f args => nth_error args n = Some u /\ f <> OInput /\ f <> ONonce /\ ~ (f = ODec /\ n = 1 /\ K u) end.

(** [v] occurs in [t] where the check looks, not below a term of [Ign]. *)
Inductive seen (l : looks) (K Ign : term -> Prop) : term -> term -> Prop :=
| seen_here t : seen l K Ign t t
| seen_below t n u v : ~ Ign t -> l K t n u -> seen l K Ign u v -> seen l K Ign t v.

(** The class [i] has a term in which no term of the class [nonce] is seen, outside of terms of the classes [ign]. *)
Definition in_classes (g : graph) (cs : list nat) (t : term) : Prop := exists c, In c cs /\ rep g t c.
Definition avoids (g : graph) (l : looks) (nonce : nat) (ign : list nat) (i : nat) : Prop :=
  exists t, rep g t i /\ forall v, seen l (fun u => rep g u nonce) (in_classes g ign) t v -> ~ rep g v nonce.

(** No class is below itself. *)
Definition acyclic (g : graph) : Prop :=
  exists rank : nat -> nat, forall i ns f ids c, nth_error g i = Some ns -> In (f, ids) ns -> In c ids -> rank c < rank i.

(** [u] occurs in [t], anywhere. *)
Inductive inside (u : term) : term -> Prop :=
| in_here : inside u u
| in_below f ts t : In t ts -> inside u t -> inside u (T f ts).

(** [e] is a term of class [i] in which occurrences of the class [c] along one path are replaced by [e0]; the other
    children on the way satisfy [P]. *)
Inductive swapped (g : graph) (c : nat) (e0 : term) (P : nat -> Prop) : nat -> term -> Prop :=
| sw_here : swapped g c e0 P c e0
| sw_up f ids ns p id e ts : nth_error g p = Some ns -> In (f, ids) ns -> In id ids -> swapped g c e0 P id e ->
    Forall2 (fun s t => (s = id /\ t = e) \/ (s <> id /\ rep g t s /\ P s)) ids ts -> swapped g c e0 P p (T f ts).

(** The class [i] has a term starting with [f]. *)
Definition headed (g : graph) (f : op) (i : nat) : Prop := exists ts, rep g (T f ts) i.

(** [n] steps of a search. *)
Inductive after (g : graph) (repr : nat -> term) (cs : list ((nat -> node -> list nat) * nat)) (c : nat) : state -> nat -> state -> Prop :=
| after_0 st : after g repr cs c st 0 st
| after_S st o st1 n st2 : step g repr cs c st o st1 -> after g repr cs c st1 n st2 -> after g repr cs c st (S n) st2.
