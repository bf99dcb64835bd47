(** The axioms and declarations of each cryptographic assumption, and the whole file of a problem: the [generate]s of
    problem/crypto_assumptions/{mod.rs, uf_cma.rs, euf_cma.rs, int_ctxt.rs, nonce.rs, cell.rs, unfolding.rs} and problem/problem/mod.rs 173-259.
    Paths are relative to /repo/crates/cryptovampire/src. *)
From Coq Require Import List Arith Bool.
From Verif Require Import Syntax_Model Traversal_Model Subst_Model Sort_Model Order_Model Macro_Model Unify_Model Graph_Model Expander_Model Exists_Model
  Search_Model Crypto_Model Define_Model Evaluate_Model Propagate_Model Problem_Model File_Model.
From Verif Require Parser_Model.
Import ListNotations.

(** crypto_assumptions/mod.rs 42-49 [CryptoAssumption]: its functions are user functions. *)
Inductive assumption : Type :=
| AUf (mac verify : nat) (hmac : bool)
| AEuf (sign verify pk : nat)
| ACtxt (enc dec fail : nat)
| ANonce
| ACell
| AUnfolding (direct recursive : bool).

(** problem/problem/mod.rs 41-61, the fields that File_Model leaves out. *)
Record whole_problem : Type := mkWhole {
  wp_gen : gen_problem;
  wp_cells : list mcell;
  wp_assumptions : list assumption;
  wp_lemmas : list formula;
  wp_extra : list formula
}.

(** problem/protocol.rs 93-107 [list_top_level_terms_short_lifetime]. *)
Definition protocol_terms (steps : list pstep) (cells : list mcell) : list formula :=
  flat_map (fun s => [ps_cond s; ps_msg s]) steps ++ flat_map (fun c => map as_content (ce_asgs c)) cells.
(** problem/problem/mod.rs 82-97 [list_top_level_terms]; the extra instances are a set, here in some order. *)
Definition top_level_terms (w : whole_problem) : list formula :=
  gp_asserts (wp_gen w) ++ [gp_query (wp_gen w)] ++ wp_lemmas w ++ protocol_terms (gp_steps (wp_gen w)) (wp_cells w) ++ wp_extra w.

(** What a symbolic quantifier carries (formula/function/inner/term_algebra/quantifier.rs 73-79, 112-126). *)
Definition tq_of (table : nat -> option quantifier) (k : nat) : ta_quant :=
  match table k with
  | Some q => mkTaQuant (qt_bound q) (qt_free q) (match qt_inner q with IForall c | IExists c => [c] | IFind c l e => [c; l; e] end)
  | None => mkTaQuant [] [] []
  end.

(** What has been written so far: declarations, axioms, and the next free subterm and splitting symbols. *)
Record output : Type := mkOut { o_decls : list (Problem_Model.declaration gsym); o_axioms : list formula; o_next : nat; o_split : nat }.

Section Generate.
  (** The signatures and contents of quantifiers; the realm; the flags [VAMPIRE], [DEFINED] and [PREPROCESS_INSTANCES]
      (environement/environement.rs 63-75); what the dependency graph answers; the order of sorts; fuels. *)
  Context (sig : fsym -> option (list sort * sort)) (table : nat -> option quantifier) (r : realm) (vampire_flag defined preprocess : bool)
    (anc : mref -> option ancestors) (scmp : sort -> sort -> comparison) (mfuel fuel : nat) (w : whole_problem).

  Let symbolic : bool := match r with RSymbolic => true | REvaluated => false end.
  Let get_sort : formula -> option sort := term_sort (osort sig).
  Let steps : list pstep := gp_steps (wp_gen w).
  Let cells : list mcell := wp_cells w.
  Let sorts : list sort := gp_sorts (wp_gen w).
  Let tq : nat -> ta_quant := tq_of table.
  (** Functions without a fixed signature are left out: the code panics when it asks for it (subterm/mod.rs 192, 262). *)
  Definition funs_of : list (fsym * list sort) :=
    flat_map (fun f => match sig f with Some (args, _) => [(f, args)] | None => [] end) (gp_funs (wp_gen w)).

  (** environement.rs 103-112, 161-164. *)
  Definition preprocess_instances : bool := preprocess || negb defined.
  Definition use_vampire_subterm : bool := vampire_flag && symbolic.
  (** subterm/kind.rs 69-79 [as_constr], subterm/mod.rs 103-182 [Subterm::new]: one new symbol, or one for each sort. *)
  Definition new_kind (n : nat) : skind * nat :=
    if use_vampire_subterm then (KVampire n, S n) else (KRegular (combine sorts (seq n (length sorts))), n + length sorts).

  (** subterm/mod.rs 510-532 [declare]: into the declarations of the file. *)
  Definition file_decl (d : Define_Model.declaration) : Problem_Model.declaration gsym :=
    match d with
    | Define_Model.DSubterm i c => Problem_Model.DSubterm (GF (Fsubterm i)) (map GF c)
    | Define_Model.DFree i => DFun (GF (Fsubterm i))
    end.
  Definition declare_relation (se : search) : list (Problem_Model.declaration gsym) := map file_decl (Define_Model.declare r funs_of se).

  Definition somes {A : Type} (l : list (option A)) : list A := flat_map (fun o => match o with Some a => [a] | None => [] end) l.
  Definition when {A : Type} (b : bool) (x : option (list A)) : option (list A) := if b then x else Some [].
  (** uf_cma.rs 129-134, euf_cma.rs 93-98, int_ctxt.rs 117-122. *)
  Definition instances {A : Type} (candidates : nat -> option (list A)) (one : nat -> A -> option (option formula)) : option (list formula) :=
    match problem_max_var fuel (top_level_terms w) with
    | None => None
    | Some mv => match candidates mv with None => None | Some cs => option_map somes (mapM (one mv) cs) end
    end.
  (** uf_cma.rs 137-187, euf_cma.rs 100-152: the definitions and the general axioms; [key] is declared first. *)
  Definition definitions (key main : search) (general_ : option formula) (split : nat) : option (list (Problem_Model.declaration gsym) * list formula * nat) :=
    if negb defined then Some ([], [], split)
    else match define_subterms get_sort r funs_of sorts steps cells anc tq scmp mfuel fuel key main with
         | None => None
         | Some defs =>
             if symbolic
             then match problem_max_var fuel (top_level_terms w) with
                  | None => None
                  | Some mv =>
                      match split_axiom get_sort r steps cells anc tq scmp mfuel fuel key split mv, general_ with
                      | Some a, Some g => Some (declare_relation key ++ declare_relation main ++ [DFun (GF (Fuser split))], defs ++ [a; g], S split)
                      | _, _ => None
                      end
                  end
             else Some ([], defs, split)
         end.

  Definition sound (s : sort) : bool := is_sound_in_smt r s.
  (** uf_cma.rs 90-188 [generate]. *)
  Definition generate_uf (mac verify : nat) (hmac : bool) (n split : nat) : option output :=
    let (kmain, n1) := new_kind n in
    let (kkey, n2) := new_kind n1 in
    match when preprocess_instances
            (instances (fun mv => candidates (uf_found mac verify hmac) fuel mv (top_level_terms w))
               (uf_instance get_sort steps cells anc tq mfuel scmp symbolic (sound SMessage) (sound SName) kmain kkey mac verify hmac fuel)),
          definitions (uf_key mac verify kkey) (uf_main mac verify hmac kmain)
            (uf_general get_sort kmain kkey (sound SMessage) (sound SName) split mac verify) split with
    | Some ins, Some (ds, axs, split') => Some (mkOut ds ([uf_base mac verify] ++ ins ++ axs) n2 split')
    | _, _ => None
    end.
  (** euf_cma.rs 60-153 [generate]. *)
  Definition generate_euf (sign verify pk : nat) (n split : nat) : option output :=
    let (kmain, n1) := new_kind n in
    let (kkey, n2) := new_kind n1 in
    match when preprocess_instances
            (instances (fun mv => candidates (euf_found verify pk) fuel mv (top_level_terms w))
               (euf_instance get_sort steps cells anc tq mfuel scmp symbolic (sound SMessage) (sound SName) kmain kkey sign verify pk fuel)),
          definitions (euf_key sign pk kkey) (default_main kmain)
            (euf_general get_sort kmain kkey (sound SMessage) (sound SName) split sign verify pk) split with
    | Some ins, Some (ds, axs, split') => Some (mkOut ds (ins ++ axs) n2 split')
    | _, _ => None
    end.
  (** int_ctxt.rs 64-182 [generate]. *)
  Definition generate_ctxt (enc dec fail : nat) (n split : nat) : option output :=
    let (kmain, n1) := new_kind n in
    let (kkey, n2) := new_kind n1 in
    let (krand, n3) := new_kind n2 in
    let main := default_main kmain in let key := ctxt_key enc dec kkey in let rand := ctxt_rand enc krand in
    let (es, sc) := enc_candidates enc (top_level_terms w) in
    match when preprocess_instances
            (instances (fun mv => dec_candidates dec fuel mv (top_level_terms w))
               (fun mv => ctxt_instance get_sort tq mfuel (sound SMessage) (sound SName) kmain kkey steps cells anc scmp enc dec fail fuel mv es sc)),
          when defined (ctxt_define_subterms get_sort r funs_of sorts steps cells anc tq scmp mfuel fuel main key rand),
          when (symbolic && defined)
            (option_map (fun a => [a]) (ctxt_general get_sort kmain kkey krand (sound SMessage) (sound SName) (sound SName) enc dec fail)) with
    | Some ins, Some defs, Some g =>
        Some (mkOut (if defined && symbolic then declare_relation main ++ declare_relation key ++ declare_relation rand else [])
                    (ins ++ defs ++ g ++ [ctxt_base enc dec]) n3 split)
    | _, _, _ => None
    end.
  (** nonce.rs 19-90 [generate]. *)
  Definition generate_nonce (n split : nat) : option output :=
    let (k, n1) := new_kind n in
    option_map (fun axs => mkOut (declare_relation (nonce k)) axs n1 split)
      (nonce_axioms get_sort r funs_of sorts steps cells anc tq scmp mfuel fuel k).
  (** cell.rs 22-117 [generate]. *)
  Definition generate_cells (n split : nat) : option output :=
    match protocol_max_var fuel steps cells with
    | None => None
    | Some mv => option_map (fun l => mkOut [] (concat l) n split) (mapM (cell_axioms mv) cells)
    end.
  (** unfolding.rs 78-156 [generate]; [None]: there is no step (problem/protocol.rs 154-156). *)
  Definition generate_unfolding (direct recursive : bool) (n split : nat) : option output :=
    match steps with
    | [] => None
    | init :: others => Some (mkOut [] (map msg_cond_axiom steps ++ exec_axioms direct recursive init others) n split)
    end.

  (** crypto_assumptions/mod.rs 51-72 [generate]. *)
  Definition generate_assumption (a : assumption) (n split : nat) : option output :=
    match a with
    | AUf mac verify hmac => generate_uf mac verify hmac n split
    | AEuf sign verify pk => generate_euf sign verify pk n split
    | ACtxt enc dec fail => generate_ctxt enc dec fail n split
    | ANonce => generate_nonce n split
    | ACell => generate_cells n split
    | AUnfolding direct recursive => generate_unfolding direct recursive n split
    end.
  (** problem/problem/mod.rs 226-230: one after the other. *)
  Fixpoint generate_assumptions (l : list assumption) (n split : nat) : option output :=
    match l with
    | [] => Some (mkOut [] [] n split)
    | a :: l' =>
        match generate_assumption a n split with
        | None => None
        | Some o =>
            match generate_assumptions l' (o_next o) (o_split o) with
            | None => None
            | Some o' => Some (mkOut (o_decls o ++ o_decls o') (o_axioms o ++ o_axioms o') (o_next o') (o_split o'))
            end
        end
    end.

  (** problem/problem/mod.rs 173-259 [generate]; [n], [split] and [skolem] are the next free symbols, [le] the order of declarations. *)
  Definition whole_file (no_bitstring legacy : bool) (skolem n split : nat)
      (le : Problem_Model.declaration gsym -> Problem_Model.declaration gsym -> bool) : option (list (Problem_Model.declaration gsym) * list eaxiom) :=
    let p := wp_gen w in
    match problem_decls sig r p, evaluate_decls sig table r no_bitstring skolem p, order_axioms p,
          Evaluate_Model.generate (osort sig) (gp_evs p) r no_bitstring (legacy && symbolic) skolem (map (classify sig table) (gp_funs p)),
          generate_assumptions (wp_assumptions w) n split,
          mapM (propagate_evaluate (osort sig) (gp_evs p) table fuel) (gp_asserts p ++ [gp_query p]) with
    | Some d1, Some d2, Some a1, Some a2, Some o, Some a3 =>
        if rewrites_found sig table r no_bitstring p
        then Some (sort_decls le (d1 ++ [DSort (code SStep)] ++ d2 ++ o_decls o), a1 ++ a2 ++ map ABase (o_axioms o) ++ map ABase a3)
        else None
    | _, _, _, _, _, _ => None
    end.
End Generate.
