(** The cryptographic axioms: problem/crypto_assumptions/{uf_cma.rs, uf_cma/subterm.rs, euf_cma.rs, int_ctxt.rs}. *)
From Coq Require Import List Arith Bool.
From Verif Require Import Syntax_Model Traversal_Model Subst_Model Sort_Model Order_Model Macro_Model Unify_Model Graph_Model Expander_Model
  Exists_Model Search_Model.
Import ListNotations.

(** formula/function/name_caster_collection.rs 34-39 [cast], to messages. *)
Definition cast_name (k : formula) : formula := FFun (Fcast SMessage) [k].
(** [RichFormula::Fun(nf, [k])] with [nf] the cast. *)
Definition name_under (f : formula) : option formula := match f with FFun (Fcast SMessage) [k] => Some k | _ => None end.
(** [RichFormula::Fun(nf, _)] with [nf] the cast. *)
Definition is_cast (f : formula) : bool := match f with FFun (Fcast SMessage) _ => true | _ => false end.

(** ** Where the searches go *)

(** uf_cma/subterm.rs 48-84 [KeyAux::var_eval_and_next]. The code indexes the arguments, which panics when there are too few; here
    such a term falls to the last case. *)
Definition uf_key_nexts (mac verify : nat) (f : formula) : list formula :=
  match f with
  | FFun s args =>
      match args with
      | [m; k] => if fsym_eqb s (Fuser mac) && is_cast k then [m] else args
      | [sg; m; k] => if fsym_eqb s (Fuser verify) && is_cast k then [sg; m] else args
      | _ => args
      end
  | FQ _ _ b => [b]
  | FVar _ => []
  end.

(** uf_cma/subterm.rs 122-188 [UfCmaMainSubtAux::var_eval_and_next]. *)
Definition mac_args (mac : nat) (e : formula) : list formula :=
  match e with FFun s args => if fsym_eqb s (Fuser mac) then args else [] | _ => [] end.
Definition uf_main_nexts (mac verify : nat) (hmac : bool) (f : formula) : list formula :=
  match f with
  | FFun s args =>
      match args with
      | [sg; m; k] =>
          match sg with
          | FFun t margs => if fsym_eqb s (Fuser verify) && fsym_eqb t (Fuser mac) then [m; k] ++ margs else args
          | _ => args
          end
      | [l; r] =>
          if hmac && (fsym_eqb s (Fb CEq) || fsym_eqb s (Fta TEq))
          then match mac_args mac l ++ mac_args mac r with [] => args | nexts => nexts end
          else args
      | _ => args
      end
  | FQ _ _ b => [b]
  | FVar _ => []
  end.

(** euf_cma.rs 363-399 [KeyAux::var_eval_and_next]. *)
Definition euf_key_nexts (sign pk : nat) (f : formula) : list formula :=
  match f with
  | FFun s args =>
      match args with
      | [m; k] => if fsym_eqb s (Fuser sign) && is_cast k then [m] else args
      | [k] => if fsym_eqb s (Fuser pk) && is_cast k then [] else args
      | _ => args
      end
  | FQ _ _ b => [b]
  | FVar _ => []
  end.

(** int_ctxt.rs 498-540 [KeyAux], 590-616 [RandAux]. *)
Definition ctxt_key_nexts (enc dec : nat) (f : formula) : list formula :=
  match f with
  | FFun s args =>
      match args with
      | [c; k] => if fsym_eqb s (Fuser dec) && is_cast k then [c] else args
      | [m; r; k] => if fsym_eqb s (Fuser enc) && is_cast k then [m; r] else args
      | _ => args
      end
  | FQ _ _ b => [b]
  | FVar _ => []
  end.
Definition ctxt_rand_nexts (enc : nat) (f : formula) : list formula :=
  match f with
  | FFun s args =>
      match args with
      | [m; r; k] => if fsym_eqb s (Fuser enc) && is_cast r then [m; k] else args
      | _ => args
      end
  | FQ _ _ b => [b]
  | FVar _ => []
  end.

(** ** The axioms without a protocol *)
Section General.
  Context (get_sort : formula -> option sort).

  (** uf_cma.rs 124-126. *)
  Definition uf_base (mac verify : nat) : formula :=
    let m := mkVar 1 SMessage in let k := mkVar 0 SMessage in
    mk_forall [m; k] (ev_cond (FFun (Fuser verify) [FFun (Fuser mac) [FVar m; FVar k]; FVar m; FVar k])).

  (** [Fspliting] of function.rs [new_spliting] is a free function on names. *)
  Definition general (kmain kkey : skind) (sound_main sound_key : bool) (split : nat) (signed : formula -> formula -> formula)
      (verified : formula -> formula -> formula -> formula) : option formula :=
    let m := mkVar 1 SMessage in let sigma := mkVar 2 SMessage in let k := mkVar 3 SName in let u := mkVar 4 SMessage in
    let k_f := cast_name (FVar k) in
    let s := signed (FVar u) k_f in
    match f_a get_sort sound_main kmain s (FVar m), f_a get_sort sound_main kmain s (FVar sigma),
          f_a get_sort sound_key kkey (FVar k) (FVar m), f_a get_sort sound_key kkey (FVar k) (FVar sigma) with
    | Some a, Some b, Some c, Some d =>
        Some (mk_forall [m; sigma; k]
          (fimp (ev_cond (verified (FVar m) (FVar sigma) k_f))
                (mk_exists [u] (fand (meq (ev_msg (FVar u)) (ev_msg (FVar m)))
                                     (for_ (for_ (for_ (for_ a b) c) d) (FFun (Fuser split) [FVar k]))))))
    | _, _, _, _ => None
    end.
  (** uf_cma.rs 168-185: the message comes first in [verify]. *)
  Definition uf_general (kmain kkey : skind) (sound_main sound_key : bool) (split mac verify : nat) : option formula :=
    general kmain kkey sound_main sound_key split (fun u k => FFun (Fuser mac) [u; k]) (fun m sigma k => FFun (Fuser verify) [m; sigma; k]).
  (** euf_cma.rs 133-150: likewise. *)
  Definition euf_general (kmain kkey : skind) (sound_main sound_key : bool) (split sign verify pk : nat) : option formula :=
    general kmain kkey sound_main sound_key split (fun u k => FFun (Fuser sign) [u; k])
      (fun m sigma k => FFun (Fuser verify) [m; sigma; FFun (Fuser pk) [k]]).

  (** int_ctxt.rs 168-174. *)
  Definition ctxt_base (enc dec : nat) : formula :=
    let m := mkVar 0 SMessage in let c := mkVar 1 SMessage in let k := mkVar 2 SMessage in
    mk_forall [m; c; k] (meq (ev_msg (FVar m)) (ev_msg (FFun (Fuser dec) [FFun (Fuser enc) [FVar m; FVar c; FVar k]; FVar k]))).
  (** int_ctxt.rs 136-164; [dec] is applied to the name itself. *)
  Definition ctxt_general (kmain kkey krand : skind) (sound_main sound_key sound_rand : bool) (enc dec fail : nat) : option formula :=
    let c := mkVar 1 SMessage in let k := mkVar 3 SName in let m := mkVar 4 SMessage in let r := mkVar 5 SName in
    let m2 := mkVar 6 SMessage in let k2 := mkVar 7 SMessage in let r2 := mkVar 8 SMessage in let n := mkVar 9 SName in
    let k_f := cast_name (FVar k) in let r_f := cast_name (FVar r) in
    let c2 := FFun (Fuser enc) [FVar m; r_f; k_f] in
    match f_a get_sort sound_main kmain c2 (FVar c), f_a get_sort sound_key kkey (FVar k) (FVar c), f_a get_sort sound_rand krand (FVar r) (FVar c),
          f_a get_sort sound_main kmain (FFun (Fuser enc) [FVar m2; FVar r2; k_f]) (FVar c) with
    | Some a, Some b, Some d, Some e =>
        Some (mk_forall [c; k]
          (fimp (fnot (meq (ev_msg (FFun (Fuser dec) [FVar c; FVar k])) (ev_msg (FFun (Fuser fail) []))))
             (mk_exists [m; r] (fand (meq (ev_msg (FVar c)) (ev_msg c2))
                (for_ (for_ (for_ a b) d)
                   (mk_exists [m2; k2; r2] (fand e
                      (for_ (mk_forall [n] (fnot (meq (FVar r2) (cast_name (FVar n)))))
                         (fand (meq (FVar r2) r_f) (for_ (fnot (meq (FVar m2) (FVar m))) (fnot (meq (FVar k2) k_f))))))))))))
    | _, _, _, _ => None
    end.
End General.

(** ** Candidates *)
Record candidate : Type := mkCand { ca_message : formula; ca_signature : formula; ca_key : formula }.

(** [mac(m, k)] with a name for key. *)
Definition named_mac (mac : nat) (f : formula) : option (formula * formula) :=
  match f with
  | FFun s [m; k] => if fsym_eqb s (Fuser mac) then match name_under k with Some n => Some (m, n) | None => None end else None
  | _ => None
  end.
Definition eval_under (f : formula) : option formula := match f with FFun (Feval SMessage) [t] => Some t | _ => None end.
Definition from_mac (mac : nat) (h sg : formula) : list candidate :=
  match named_mac mac h with Some (m, k) => [mkCand m sg k] | None => [] end.

(** uf_cma.rs 210-329, for one subterm. *)
Definition uf_found (mac verify : nat) (hmac : bool) (f : formula) : list candidate :=
  match f with
  | FFun s args =>
      (match args with
       | [sg; m; key] => if fsym_eqb s (Fuser verify) then match name_under key with Some k => [mkCand m sg k] | None => [] end else []
       | _ => []
       end) ++
      (match args with
       | [l; r] =>
           if hmac then
             if fsym_eqb s (Fb CEq) then
               from_mac mac l r ++ from_mac mac r l ++
               (match eval_under l, eval_under r with
                | Some l', Some r' => from_mac mac l' r' ++ from_mac mac r' l'
                | _, _ => []
                end)
             else if fsym_eqb s (Fta TEq) then from_mac mac l r ++ from_mac mac r l
             else []
           else []
       | _ => []
       end)
  | _ => []
  end.
(** euf_cma.rs 169-187, for one subterm. *)
Definition euf_found (verify pk : nat) (f : formula) : list candidate :=
  match f with
  | FFun s [sg; m; p] =>
      if fsym_eqb s (Fuser verify) then
        match p with
        | FFun t [key] => if fsym_eqb t (Fuser pk) then match name_under key with Some k => [mkCand m sg k] | None => [] end else []
        | _ => []
        end
      else []
  | _ => []
  end.

(** uf_cma.rs 546-571 [prepare_candidate], euf_cma.rs 178-182. *)
Definition prepare (mv : nat) (c : candidate) : option candidate :=
  match translate_vars mv (ca_message c), translate_vars mv (ca_signature c), translate_vars mv (ca_key c) with
  | Some m, Some s, Some k => Some (mkCand m s k)
  | _, _, _ => None
  end.
Definition cand_eqb (a b : candidate) : bool :=
  rich_eqb (ca_message a) (ca_message b) && rich_eqb (ca_signature a) (ca_signature b) && rich_eqb (ca_key a) (ca_key b).
(** itertools [unique]. *)
Fixpoint uniq {A : Type} (eqb : A -> A -> bool) (seen l : list A) : list A :=
  match l with
  | [] => []
  | a :: l' => if existsb (eqb a) seen then uniq eqb seen l' else a :: uniq eqb (a :: seen) l'
  end.
(** uf_cma.rs 207-330, euf_cma.rs 165-188: over all the subterms of the top level terms [tlts]. *)
Definition candidates (found : formula -> list candidate) (fuel mv : nat) (tlts : list formula) : option (list candidate) :=
  match mapM (all_terms fuel) tlts with
  | None => None
  | Some ts => option_map (uniq cand_eqb []) (mapM (prepare mv) (flat_map found (concat ts)))
  end.

(** ** Instances *)
(** formula_expander.rs 42-48. *)
Definition ALL : uflags := mkFlags true true true true true.
Definition NO_REC_MACRO : uflags := mkFlags true false false false true.

(** problem/protocol.rs 109-136 [list_top_level_terms_short_lifetime_and_bvars]. *)
Definition terms_and_bvars (steps : list pstep) (cells : list mcell) : list (formula * list var) :=
  flat_map (fun s => [(ps_cond s, ps_vars s); (ps_msg s, ps_vars s)]) steps ++
  flat_map (fun c => map (fun a => (as_content a, ps_vars (as_step a) ++ as_fresh a)) (ce_asgs c)) cells.

Section Instance.
  Context (get_sort : formula -> option sort) (steps : list pstep) (cells : list mcell) (anc : mref -> option ancestors)
    (tq : nat -> ta_quant) (mfuel : nat) (scmp : sort -> sort -> comparison).

  (** [preprocess_terms(..).next().is_none()]: [Some true] when the search ends without a result. *)
  Definition finds_nothing (aux_sort : sort) (sound : bool) (kind : skind) (nexts : formula -> list formula) (fuel : nat) (x : formula)
      (ms : list (formula * list var)) (keep : bool) (fl : uflags) : option bool :=
    match ppile_next (search_step get_sort aux_sort sound kind steps anc tq mfuel nexts x keep) fuel
            (rev (map (fun m => Next (fst m) (mkSt fl (snd m) None)) ms)) with
    | None => None
    | Some None => Some true
    | Some (Some _) => Some false
    end.

  (** Distinct free variables of some formulas: [flat_map(free_vars_iter).unique()]. *)
  Definition free_of (fuel : nat) (fs : list formula) : option (list var) :=
    option_map (fun l => uniq var_eqb [] (concat l)) (mapM (free_vars fuel) fs).

  (** uf_cma.rs 332-428, euf_cma.rs 189-262; [premise signature message key] is the verification. The outer [None]: a panic or no fuel;
      the inner one: no axiom. *)
  Definition instance (symbolic sound_main sound_key : bool) (kmain kkey : skind) (main_nexts key_nexts : formula -> list formula)
      (signed : formula -> formula -> formula) (premise : formula -> formula -> formula -> formula)
      (fuel mv : nat) (c : candidate) : option (option formula) :=
    let (message, signature, key) := c in
    match formulas_max_var_or_max tq fuel [message; signature; key] mv, free_of fuel [message; signature; key] with
    | Some uid, Some free =>
        let u := mkVar uid SMessage in
        match finds_nothing SName sound_key kkey key_nexts fuel key
                (terms_and_bvars steps cells ++ [(message, []); (signature, [])]) false NO_REC_MACRO with
        | None => None
        | Some false => Some None
        | Some true =>
            match preprocess_terms get_sort SMessage sound_main kmain steps anc tq mfuel main_nexts fuel (signed (FVar u) (cast_name key))
                    [(message, []); (signature, [])] true ALL with
            | None => None
            | Some ds =>
                let mformula := into_exist_formula scmp ds in
                let prem := premise signature message (cast_name key) in
                if symbolic
                then Some (Some (mk_forall free (fimp prem (mk_exists [u] (fand (meq (ev_msg (FVar u)) (ev_msg message)) mformula)))))
                else match sapply (one_var uid message) mformula with
                     | Some b => Some (Some (mk_forall free (fimp prem b)))
                     | None => None
                     end
            end
        end
    | _, _ => None
    end.
  (** uf_cma.rs 435-448 [apply_eval_verify]. *)
  Definition uf_premise (mac verify : nat) (hmac : bool) (sg m k : formula) : formula :=
    if hmac then meq (ev_msg sg) (ev_msg (FFun (Fuser mac) [m; k])) else ev_cond (FFun (Fuser verify) [sg; m; k]).
  Definition uf_instance (symbolic sound_main sound_key : bool) (kmain kkey : skind) (mac verify : nat) (hmac : bool) (fuel mv : nat)
      (c : candidate) : option (option formula) :=
    instance symbolic sound_main sound_key kmain kkey (uf_main_nexts mac verify hmac) (uf_key_nexts mac verify)
      (fun u k => FFun (Fuser mac) [u; k]) (uf_premise mac verify hmac) fuel mv c.
  Definition euf_premise (verify pk : nat) (sg m k : formula) : formula := ev_cond (FFun (Fuser verify) [sg; m; FFun (Fuser pk) [k]]).
  Definition euf_instance (symbolic sound_main sound_key : bool) (kmain kkey : skind) (sign verify pk fuel mv : nat) (c : candidate)
      : option (option formula) :=
    instance symbolic sound_main sound_key kmain kkey children (euf_key_nexts sign pk)
      (fun u k => FFun (Fuser sign) [u; k]) (euf_premise verify pk) fuel mv c.
End Instance.

(** ** INT-CTXT *)
Record enc_candidate : Type := mkEnc { en_rand : formula; en_message : formula; en_key : formula }.
Definition enc_eqb (a b : enc_candidate) : bool :=
  rich_eqb (en_rand a) (en_rand b) && rich_eqb (en_message a) (en_message b) && rich_eqb (en_key a) (en_key b).
(** int_ctxt.rs 239-266, for one top level term: a candidate; [Some None]: the side condition becomes false. *)
Definition enc_found (enc : nat) (f : formula) : option (option enc_candidate) :=
  match f with
  | FFun s [m; r; k] =>
      if fsym_eqb s (Fuser enc) then
        Some (match r with FFun (Fcast SMessage) (n :: _) => Some (mkEnc n m k) | _ => None end)
      else None
  | _ => None
  end.
(** int_ctxt.rs 236-268: the candidates and the side condition, over the top level terms themselves. *)
Definition enc_candidates (enc : nat) (tlts : list formula) : list enc_candidate * bool :=
  let found := flat_map (fun f => match enc_found enc f with Some e => [e] | None => [] end) tlts in
  (uniq enc_eqb [] (flat_map (fun e => match e with Some c => [c] | None => [] end) found),
   forallb (fun e => match e with Some _ => true | None => false end) found).
(** int_ctxt.rs 201-230, for one subterm: the cipher and the key. *)
Definition dec_found (dec : nat) (f : formula) : list (formula * formula) :=
  match f with
  | FFun s [c; key] => if fsym_eqb s (Fuser dec) then match name_under key with Some k => [(c, k)] | None => [] end else []
  | _ => []
  end.

(** int_ctxt.rs 195-233: the decryptions among all the subterms of the top level terms, renamed. *)
Definition prepare2 (mv : nat) (c : formula * formula) : option (formula * formula) :=
  match translate_vars mv (fst c), translate_vars mv (snd c) with Some a, Some b => Some (a, b) | _, _ => None end.
Definition dec_candidates (dec fuel mv : nat) (tlts : list formula) : option (list (formula * formula)) :=
  match mapM (all_terms fuel) tlts with
  | None => None
  | Some ts => option_map (uniq (fun a b => rich_eqb (fst a) (fst b) && rich_eqb (snd a) (snd b)) [])
                 (mapM (prepare2 mv) (flat_map (dec_found dec) (concat ts)))
  end.

(** itertools [tuple_combinations] of pairs. *)
Fixpoint pairs {A : Type} (l : list A) : list (A * A) :=
  match l with [] => [] | a :: l' => map (fun b => (a, b)) l' ++ pairs l' end.

Section Ctxt.
  Context (get_sort : formula -> option sort) (tq : nat -> ta_quant) (mfuel : nat).
  (** int_ctxt.rs 345-354 [unify]: the equations of a unifier. The outer [None]: the unifier does not end. *)
  Definition unify_eqs (a b : formula) : option (option (list formula)) :=
    match mgu mfuel a b with
    | None => None
    | Some None => Some None
    | Some (Some u) => Some (Some (match as_equalities get_sort u with Some l => l | None => [TRUE] end))
    end.
  (** The [?] operator, under a possible failure. *)
  Definition and_then {A B : Type} (x : option (option A)) (k : A -> option (option B)) : option (option B) :=
    match x with Some (Some a) => k a | Some None => Some None | None => None end.
  (** int_ctxt.rs 330-377, for one pair; the inner [None]: nothing is said of the pair. [free] is the set of its free variables
      (366-370, a [BTreeSet]). *)
  Definition pair_condition (fuel mv : nat) (k_f : formula) (p : enc_candidate * enc_candidate) : option (option formula) :=
    let (e1, e2) := p in
    match translate_vars mv (en_rand e2), translate_vars mv (en_key e2), translate_vars mv (en_message e2) with
    | Some r2, Some k2, Some m2 =>
        and_then (unify_eqs k_f (en_key e1)) (fun uk => and_then (unify_eqs (en_rand e1) r2) (fun ur =>
        and_then (unify_eqs (en_key e1) k2) (fun uk12 => and_then (unify_eqs (en_message e1) m2) (fun um =>
        match free_of fuel [en_rand e1; en_message e1; en_key e1; r2; m2; r2] with
        | Some free => Some (Some (mk_forall free (fimp (ands (ur ++ uk)) (ands (uk12 ++ um)))))
        | None => None
        end))))
    | _, _, _ => None
    end.
  (** int_ctxt.rs 325-380 [other_sc]. *)
  Definition other_sc (fuel mv : nat) (k_f : formula) (es : list enc_candidate) : option formula :=
    option_map (fun l => ands (flat_map (fun o => match o with Some f => [f] | None => [] end) l)) (mapM (pair_condition fuel mv k_f) (pairs es)).

  (** int_ctxt.rs 270-417, for one decryption; [es] and [sc] from [enc_candidates]. *)
  Definition ctxt_instance (sound_main sound_key : bool) (kmain kkey : skind) (steps : list pstep) (cells : list mcell)
      (anc : mref -> option ancestors) (scmp : sort -> sort -> comparison) (enc dec fail fuel mv : nat)
      (es : list enc_candidate) (sc : bool) (c : formula * formula) : option (option formula) :=
    let (cipher, key) := c in
    match formulas_max_var_or_max tq fuel [cipher; key] mv, free_of fuel [cipher; key] with
    | Some mv', Some free =>
        let u := mkVar mv' SMessage in let r := mkVar (mv' + 1) SName in
        if negb sc then Some None else
        match finds_nothing get_sort steps anc tq mfuel SName sound_key kkey (ctxt_key_nexts enc dec) fuel key
                (terms_and_bvars steps cells ++ [(cipher, [])]) false NO_REC_MACRO with
        | None => None
        | Some false => Some None
        | Some true =>
            let k_f := cast_name key in
            let n_c := FFun (Fuser enc) [FVar u; cast_name (FVar r); k_f] in
            match preprocess_terms get_sort SMessage sound_main kmain steps anc tq mfuel children fuel n_c [(cipher, [])] true ALL,
                  other_sc fuel (mv' + 2) k_f es with
            | Some ds, Some other =>
                Some (Some (mk_forall free
                  (fimp (fand (fnot (meq (ev_msg (FFun (Fuser dec) [cipher; k_f])) (ev_msg (FFun (Fuser fail) [])))) other)
                        (mk_exists [u; r] (fand (into_exist_formula scmp ds) (meq (ev_msg cipher) (ev_msg n_c)))))))
            | _, _ => None
            end
        end
    | _, _ => None
    end.
End Ctxt.
