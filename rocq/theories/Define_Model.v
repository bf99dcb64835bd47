(** The axioms that define the subterm relations: subterm/mod.rs (assertions for functions and sorts), problem/crypto_assumptions/nonce.rs,
    and [define_subterms] of uf_cma.rs, euf_cma.rs and int_ctxt.rs. *)
From Coq Require Import List Arith Bool.
From Verif Require Import Syntax_Model Traversal_Model Subst_Model Sort_Model Order_Model Macro_Model Unify_Model Graph_Model Expander_Model
  Exists_Model Search_Model Crypto_Model.
Import ListNotations.

(** formula/function/function.rs [is_term_algebra], formula/function/inner/term_algebra/mod.rs 31-45. *)
Definition is_ta_fun (s : fsym) : bool :=
  match s with Fta _ | Fuser _ | Fcast _ | Fquant _ | Fcell _ | Fmacro _ => true | _ => false end.
(** formula/function/function.rs 398-403, formula/function/inner/term_algebra/mod.rs 48-59 [is_default_subterm]. *)
Definition is_default_subterm (s : fsym) : bool :=
  match s with Fta _ | Fuser _ | Fcast _ => true | _ => false end.
(** formula/sort/mod.rs 149-151 [Sort::is_term_algebra]; [is_other]: names and steps. *)
Definition is_ta_sort (s : sort) : bool :=
  match maybe_evaluated_sort s with Some _ => true | None => match s with SName | SStep => true | _ => false end end.
(** formula/sort/mod.rs 122-134 [is_datatype]. *)
Definition is_datatype (r : realm) (s : sort) : bool :=
  match s with
  | SName | SStep => true
  | SUserSym _ | SMessage | SCondition => match r with RSymbolic => true | REvaluated => false end
  | _ => false
  end.
Definition evaluated_realm (r : realm) : bool := match r with REvaluated => true | RSymbolic => false end.
(** subterm/mod.rs 540-542 [is_sound_in_smt]. *)
Definition is_sound_in_smt (r : realm) (s : sort) : bool := is_datatype r s || negb (evaluated_realm r).

(** formula/file_descriptior/declare.rs 9-16: what the subterm relations declare. *)
Inductive declaration : Type := DSubterm (i : nat) (commute : list fsym) | DFree (i : nat).

(** What the axioms need of a [Subterm] (subterm/mod.rs 48-62): its sort, where its search goes, the functions it ignores, what it unfolds. *)
Record search : Type := mkSearch { se_sort : sort; se_nexts : formula -> list formula; se_ignored : list fsym; se_flags : uflags; se_kind : skind }.

(** [UnfoldFlags::default()] (formula_expander.rs 42-56). *)
Definition DEFAULT : uflags := ALL.

Section Define.
  (** [get_sort]; the realm; the functions of the problem and the sorts of their arguments; its sorts. *)
  Context (get_sort : formula -> option sort) (r : realm) (funs : list (fsym * list sort)) (sorts : list sort).

  Definition atom (se : search) (x m : formula) : option formula := f_a get_sort (is_sound_in_smt r (se_sort se)) (se_kind se) x m.

  (** subterm/mod.rs 184-217 [generate_functions_assertions], for one function. *)
  Definition function_assertion (se : search) (fn : fsym) (ins : list sort) : option formula :=
    let x := mkVar 0 (se_sort se) in
    let vars := sorts_to_variables 1 ins in
    let applied := FFun fn (map FVar vars) in
    match mapM (fun v => atom se (FVar x) (FVar v)) vars, atom se (FVar x) applied with
    | Some l, Some a =>
        let same := match get_sort applied with Some s => sort_eqb s (se_sort se) | None => true end in
        Some (mk_forall (vars ++ [x]) (fimp a (if same then for_ (ors l) (meq (FVar x) applied) else ors l)))
    | _, _ => None
    end.
  Definition is_ignored (se : search) (s : fsym) : bool := existsb (fsym_eqb s) (se_ignored se).
  (** subterm/mod.rs 219-230 [list_default_subterm_functions]. *)
  Definition default_functions (se : search) : list (fsym * list sort) :=
    filter (fun f => is_default_subterm (fst f) && negb (is_ignored se (fst f))) funs.
  (** subterm/mod.rs 232-238 [generate_function_assertions_from_pbl]. *)
  Definition function_assertions (se : search) : option (list formula) :=
    mapM (fun f => function_assertion se (fst f) (snd f)) (default_functions se).
  (** subterm/mod.rs 292-304 [preprocess_special_assertion_from_pbl]: the functions. *)
  Definition special_functions (se : search) : list (fsym * list sort) :=
    filter (fun f => is_ta_fun (fst f) && (negb (is_default_subterm (fst f)) || is_ignored se (fst f))) funs.

  (** subterm/mod.rs 472-482 [not_of_sort]. *)
  Definition not_of_sort (se : search) (ss : list sort) : option (list formula) :=
    mapM (fun s => let x := mkVar 0 (se_sort se) in let m := mkVar 1 s in
                   option_map (fun a => mk_forall [x; m] (fnot a)) (atom se (FVar x) (FVar m))) ss.
  (** subterm/mod.rs 486-508 [not_of_sort_auto]. *)
  Definition not_of_sort_auto (se : search) : option (list formula) :=
    not_of_sort se (filter (fun s => negb (sort_eqb s (se_sort se)) && negb (is_ta_sort s) && (if evaluated_realm r then negb (is_evaluated s) else true)) sorts).

  (** subterm/mod.rs 510-532 [declare]. *)
  Definition declare (se : search) : list declaration :=
    if is_sound_in_smt r (se_sort se)
    then match se_kind se with
         | KVampire i => [DSubterm i (map fst (default_functions se))]
         | KRegular fs => map (fun p => DFree (snd p)) fs
         end
    else [].

  (** The protocol and fuels. *)
  Context (steps : list pstep) (cells : list mcell) (anc : mref -> option ancestors) (tq : nat -> ta_quant)
    (scmp : sort -> sort -> comparison) (mfuel fuel : nat).

  (** subterm/mod.rs 292-304 [preprocess_special_assertion_from_pbl]. *)
  Definition special_assertions (se : search) (keep_guard : bool) : option (list formula) :=
    match protocol_max_var fuel steps cells with
    | None => None
    | Some mv => mapM (fun f => special_assertion get_sort (se_sort se) (is_sound_in_smt r (se_sort se)) (se_kind se) steps anc tq mfuel (se_nexts se)
                                  scmp fuel mv (se_flags se) keep_guard (fst f) (snd f)) (special_functions se)
    end.

  Definition vampire (k : skind) : bool := match k with KVampire _ => true | KRegular _ => false end.
  Definition append (a b : option (list formula)) : option (list formula) :=
    match a, b with Some l, Some m => Some (l ++ m) | _, _ => None end.
  (** int_ctxt.rs 443-470 [define_subterm], uf_cma.rs 467-487, euf_cma.rs 294-312. *)
  Definition define_subterm (se : search) (keep_guard : bool) : option (list formula) :=
    append (if vampire (se_kind se) then Some [] else append (function_assertions se) (not_of_sort_auto se))
           (special_assertions se keep_guard).

  (** uf_cma.rs 103-121: the searches of UF-CMA. *)
  Definition uf_main (mac verify : nat) (hmac : bool) (k : skind) : search := mkSearch SMessage (uf_main_nexts mac verify hmac) [Fuser mac; Fuser verify] DEFAULT k.
  Definition uf_key (mac verify : nat) (k : skind) : search := mkSearch SName (uf_key_nexts mac verify) [Fuser mac; Fuser verify] NO_REC_MACRO k.
  (** euf_cma.rs 69-91. *)
  Definition default_main (k : skind) : search := mkSearch SMessage children [] DEFAULT k.
  Definition euf_key (sign pk : nat) (k : skind) : search := mkSearch SName (euf_key_nexts sign pk) [Fuser sign; Fuser pk] NO_REC_MACRO k.
  (** int_ctxt.rs 78-115. *)
  Definition ctxt_key (enc dec : nat) (k : skind) : search := mkSearch SName (ctxt_key_nexts enc dec) [Fuser enc; Fuser dec] ALL k.
  Definition ctxt_rand (enc : nat) (k : skind) : search := mkSearch SName (ctxt_rand_nexts enc) [Fuser enc] ALL k.

  (** uf_cma.rs 451-515 and euf_cma.rs 282-334 [define_subterms]: the key first. *)
  Definition define_subterms (key main : search) : option (list formula) :=
    if evaluated_realm r then Some [] else append (define_subterm key false) (define_subterm main true).
  (** int_ctxt.rs 426-442 [define_subterms]. *)
  Definition ctxt_define_subterms (main key rand : search) : option (list formula) :=
    if evaluated_realm r then Some [] else append (define_subterm main true) (append (define_subterm key false) (define_subterm rand false)).

  (** uf_cma.rs 148-165, euf_cma.rs 114-131; [mv] is [pbl.max_var()]. *)
  Definition split_axiom (key : search) (split mv : nat) : option formula :=
    let k := mkVar (mv + 1) SName in
    option_map (fun ds => mk_forall [k] (fimp (FFun (Fuser split) [FVar k]) (into_exist_formula scmp ds)))
      (preprocess_terms get_sort (se_sort key) (is_sound_in_smt r (se_sort key)) (se_kind key) steps anc tq mfuel (se_nexts key) fuel
         (FVar k) (terms_and_bvars steps cells) false NO_REC_MACRO).

  (** nonce.rs 33-42: the search. *)
  Definition nonce (k : skind) : search := mkSearch SName children [] DEFAULT k.
  (** nonce.rs 69-80 and 82-88: two facts about names, and the axiom. *)
  Definition nonce_same (se : search) : option formula :=
    let n1 := mkVar 0 SName in let n2 := mkVar 1 SName in
    option_map (fun a => mk_forall [n1; n2] (fimp a (meq (FVar n1) (FVar n2)))) (atom se (FVar n1) (FVar n2)).
  Definition nonce_injective : formula :=
    let n1 := mkVar 0 SName in let n2 := mkVar 1 SName in
    mk_forall [n1; n2] (fimp (meq (ev_msg (cast_name (FVar n1))) (ev_msg (cast_name (FVar n2)))) (meq (FVar n1) (FVar n2))).
  Definition nonce_fresh (se : search) : option formula :=
    let n := mkVar 0 SName in let m := mkVar 1 SMessage in
    option_map (fun a => mk_forall [n; m] (fimp (meq (ev_msg (cast_name (FVar n))) (ev_msg (FVar m))) a)) (atom se (FVar n) (FVar m)).
  (** nonce.rs 19-90 [generate]; the last axiom is a [Ground] one. *)
  Definition nonce_axioms (k : skind) : option (list formula) :=
    let se := nonce k in
    append (if vampire k then Some []
            else append (function_assertions se) (not_of_sort se (filter (fun s => negb (sort_eqb s SName || is_ta_sort s)) sorts)))
      (append (special_assertions se true)
         (match nonce_same se, nonce_fresh se with Some a, Some b => Some [a; nonce_injective; b] | _, _ => None end)).
End Define.
