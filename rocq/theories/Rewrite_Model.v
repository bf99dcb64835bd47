(** The rewrite rules of the indistinguishability prover. Paths are relative to /repo/crates/indistinguishability/src. *)
From Coq Require Import List Ascii String.
Import ListNotations.
Local Open Scope list_scope.

(** main.rs 17-37 [CCSA]: a symbol, its children given separately. *)
Inductive op : Type :=
| OConst (s : string) | ONonce | OEnc | ODec | OPk | OIte | OTuple | OP1 | OP2 | OEq | OLength | OZeroes
| OTrue | OFalse | OEta | OInput | OEquiv.
Inductive term : Type := T (f : op) (args : list term).

(** Patterns of egg: variables are written [?a] or [?var0]. *)
Inductive pvar : Type := Q (c : ascii) | QN (i : nat).
Inductive pat : Type := PV (x : pvar) | PF (f : op) (args : list pat).
Record rule : Type := mkRule { rname : string; lhs : pat; rhs : pat }.

Definition qa : pat := PV (Q "a"). Definition qb : pat := PV (Q "b"). Definition qc : pat := PV (Q "c").
Definition qm : pat := PV (Q "m"). Definition qr : pat := PV (Q "r"). Definition qk : pat := PV (Q "k").
Definition qx : pat := PV (Q "x").

(** main.rs 49-64 [make_general_rules]. *)
Definition general_rules : list rule :=
  [ mkRule "simpl-tuple-1" (PF OP1 [PF OTuple [qa; qb]]) qa;
    mkRule "simpl-tuple-2" (PF OP2 [PF OTuple [qa; qb]]) qa;
    mkRule "simpl-dec" (PF ODec [PF OEnc [qm; qr; PF OPk [qk]]; qk]) qm;
    mkRule "ite-base-1" (PF OIte [PF OTrue []; qa; qb]) qa;
    mkRule "ite-base-2" (PF OIte [PF OFalse []; qa; qb]) qb;
    mkRule "ite-same" (PF OIte [qc; qa; qa]) qa;
    mkRule "ite-eq-1" (PF OIte [PF OEq [qa; qb]; qa; qb]) qa;
    mkRule "ite-eq-2" (PF OIte [PF OEq [qa; qb]; qa; qb]) qb;
    mkRule "eq-refl" (PF OEq [qa; qa]) (PF OTrue []);
    mkRule "eq-sym" (PF OEq [qa; qb]) (PF OEq [qb; qa]);
    mkRule "length-nonce" (PF OLength [PF ONonce [qx]]) (PF OEta []);
    mkRule "length-zeroes" (PF OLength [PF OZeroes [PF OLength [qx]]]) (PF OLength [qx]) ].

(** main.rs 92-94 [vars]. *)
Definition vars (start arity : nat) : list pat := map (fun i => PV (QN i)) (seq start arity).
(** main.rs 98-109: the two sides; 97-110 and 111-128 use them in both directions. The name only serves messages. *)
Definition premise (f : op) (n : nat) : pat := PF OIte [qc; PF f (vars 0 n); PF f (vars n n)].
Definition conclusion (f : op) (n : nat) : pat :=
  PF f (map (fun vv => PF OIte [qc; fst vv; snd vv]) (combine (vars 0 n) (vars n n))).
(** main.rs 84-130 [mk_bubble_rules]. *)
Definition bubble_rules (funs : list (op * nat)) : list rule :=
  map (fun fn => mkRule "ite-bubble-down" (premise (fst fn) (snd fn)) (conclusion (fst fn) (snd fn))) funs ++
  map (fun fn => mkRule "ite-bubble-up" (conclusion (fst fn) (snd fn)) (premise (fst fn) (snd fn))) funs.
(** main.rs 236-246. *)
Definition main_funs : list (op * nat) :=
  [(OEnc, 3); (ODec, 2); (OTuple, 2); (OP1, 1); (OP2, 1); (OEq, 2); (OLength, 1); (OZeroes, 1)].
(** main.rs 248. *)
Definition all_rules : list rule := general_rules ++ bubble_rules main_funs.

(** Instances of patterns (egg [Subst]). *)
Fixpoint inst (s : pvar -> term) (p : pat) : term :=
  match p with PV x => s x | PF f l => T f (map (inst s) l) end.
