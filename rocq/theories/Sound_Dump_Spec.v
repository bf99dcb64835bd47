(** Executions of the actions of a Squirrel file. *)
From Coq Require Import List Arith Bool String Ascii.
From Verif Require Import Syntax_Model Semantics_Spec Smt_Model Squirrel_Model Squirrel_Spec Convert_Model Meaning_Spec Dump_Model Dump_Spec Dump_Meaning_Spec.
Import ListNotations.
Local Open Scope list_scope.

(** The actions of a file. When a name is listed twice the last entry counts. *)
Definition is_action (d : dump) (a : action) : Prop :=
  exists x, a = x_action x /\ last_entry (map (fun x => (a_name (x_action x), x)) (d_actions d)) (a_name a) x.

Section Flow.
  Context {M : structure} (d : dump) (S : Meaning_Spec.source (D M * D M)).

  Definition happening (t : D M * D M) : Prop := dtest M (fint M Fhappens [snd t]) = true.
  Definition not_after (t u : D M * D M) : Prop := dtest M (fint M Fleq [snd t; snd u]) = true.
  (** What a variable may stand for. *)
  Definition a_value (v : D M * D M) : Prop := exists s x, dom M s x /\ v = stands s x.

  (** The instances of the actions follow the control flow: an action comes after those its position begins with, and of the branches of a choice only
      one is taken. *)
  Record follows_flow : Prop := mkFollowsFlow {
    ff_before : forall a b va vb, is_action d a -> is_action d b -> Forall a_value va -> Forall a_value vb ->
      List.length va = List.length (a_indices a) -> List.length vb = List.length (a_indices b) ->
      strict_prefix (run_action (a_action a) va) (run_action (a_action b) vb) ->
      happening (s_action S (a_name b) vb) -> not_after (s_action S (a_name a) va) (s_action S (a_name b) vb);
    ff_choice : forall a b va vb, is_action d a -> is_action d b -> Forall a_value va -> Forall a_value vb ->
      List.length va = List.length (a_indices a) -> List.length vb = List.length (a_indices b) ->
      diverge (run_action (a_action a) va) (run_action (a_action b) vb) ->
      ~ (happening (s_action S (a_name a) va) /\ happening (s_action S (a_name b) vb))
  }.
End Flow.
Arguments follows_flow {M}.

(** The projections give the components of pairs of messages. *)
Definition projects {M : structure} (T : target (D M * D M)) : Prop :=
  forall x y, dom M SMessage x -> dom M SMessage y -> let pair := t_app T (str "pair") [stands SMessage x; stands SMessage y] in
    snd (t_app T (str "fst") [pair]) = snd (stands SMessage x) /\ snd (t_app T (str "snd") [pair]) = snd (stands SMessage y).

(** The goal of a file: for all values of the variables the hypotheses imply the conclusion. *)
Definition goal (d : dump) : jterm :=
  JQuant JForAll (map JVar (d_variables d))
    (JApp (JFun (mkPath [] (str "=>")))
       [fold_left (fun acc t => JApp (JFun (mkPath [] (str "&&"))) [acc; t]) (d_hypotheses d) (JApp (JFun (mkPath [] (str "true"))) []); d_query d]).
