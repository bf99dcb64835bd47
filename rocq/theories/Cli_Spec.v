(** What the options of the command line are for, by the help texts (cli.rs) and the README. *)
From Coq Require Import List Bool.
From Verif Require Import Syntax_Model Smt_Model Problem_Model Cli_Model.
From Verif Require Runner_Model.
Import ListNotations.

(** The commands of the SMT-LIB standard that a file may have after its declarations. *)
Inductive standard : Smt_Model.command -> Prop :=
| std_comment : standard KComment
| std_assert s : standard (KAssert s)
| std_check : standard KCheckSat.

Section Options.
  Context {path T : Type}.
  Definition is_auto (a : args path T) : bool := match ar_command a with Some (ToFile _) => false | _ => true end.
  (** "To get a fully smtlib-compliant file, use the --cvc5 option." *)
  Definition wants_standard (a : args path T) : bool := match ar_command a with Some (ToFile t) => tf_cvc5 t | _ => false end.
  (** An environment writes a standard file whatever the axioms, and declares no relation of Vampire. *)
  Definition writes_standard (e : environment path T) : Prop :=
    subterm_declaration_of e = DeclareFunctions /\
    forall kind axs cs, file_of kind (smt_options_of e) axs = Some cs -> Forall standard cs.
  (** With another value of one option. *)
  Definition with_skolemnise (b : bool) (a : args path T) : args path T :=
    mkArgs (ar_eval_rewrite a) (ar_crypto_rewrite a) (ar_vampire_subterm a) b (ar_no_preprocessing a) (ar_legacy_evaluate a) (ar_no_bitstring a)
      (ar_symbolic a) (ar_disallow_shadowing a) (ar_command a).
  Definition with_shadowing (b : bool) (a : args path T) : args path T :=
    mkArgs (ar_eval_rewrite a) (ar_crypto_rewrite a) (ar_vampire_subterm a) (ar_skolemnise a) (ar_no_preprocessing a) (ar_legacy_evaluate a) (ar_no_bitstring a)
      (ar_symbolic a) b (ar_command a).
  Definition with_rewrite (ev cr : bool) (a : args path T) : args path T :=
    mkArgs ev cr (ar_vampire_subterm a) (ar_skolemnise a) (ar_no_preprocessing a) (ar_legacy_evaluate a) (ar_no_bitstring a)
      (ar_symbolic a) (ar_disallow_shadowing a) (ar_command a).
  Definition with_command (c : option (command path T)) (a : args path T) : args path T :=
    mkArgs (ar_eval_rewrite a) (ar_crypto_rewrite a) (ar_vampire_subterm a) (ar_skolemnise a) (ar_no_preprocessing a) (ar_legacy_evaluate a) (ar_no_bitstring a)
      (ar_symbolic a) (ar_disallow_shadowing a) c.
  (** Nothing that the program asks of two environments tells them apart. *)
  Definition same_environment (e e' : environment path T) : Prop :=
    en_symbolic e = en_symbolic e' /\ en_config e = en_config e' /\ define_subterm e = define_subterm e' /\
    preprocess_instances e = preprocess_instances e' /\ use_vampire_subterm e = use_vampire_subterm e' /\
    use_legacy_evaluate e = use_legacy_evaluate e' /\ no_bitstring_functions e = no_bitstring_functions e' /\
    with_general_crypto_axiom e = with_general_crypto_axiom e' /\ are_lemmas_ignored e = are_lemmas_ignored e' /\
    allow_shadowing e = allow_shadowing e' /\ use_lemmas e = use_lemmas e' /\ smt_options_of e = smt_options_of e' /\
    forall k, smt_options_of (write_env k e) = smt_options_of (write_env k e').
End Options.
