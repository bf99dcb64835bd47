(** The options of the command line (cli.rs), the environment made from them (environement/environement.rs), and what a run does with
    them (lib.rs, runner/runners.rs, runner/vampire.rs, runner/z3.rs). Paths are relative to /repo/crates/cryptovampire/src. *)
From Coq Require Import List Arith NArith Bool.
From Verif Require Import Syntax_Model Smt_Model Problem_Model.
From Verif Require Runner_Model.
Import ListNotations.

(** ** Sets of flags: the crate [bitflags] *)
Definition contains (x y : N) : bool := N.eqb (N.land x y) y.
Definition is_empty (x : N) : bool := N.eqb x 0.

(** environement.rs 38-56 [Flags]. *)
Definition LEMMA : N := N.shiftl 1 0.
Definition ASSERT_THEORY : N := N.shiftl 1 2.
Definition SKOLEMNISE : N := N.shiftl 1 3.
Definition LEGACY_EVALUATE : N := N.shiftl 1 4.
Definition NO_BITSTRING : N := N.shiftl 1 5.
Definition ASSERT_NOT : N := N.shiftl 1 7.
Definition ASSERT_GROUND : N := N.shiftl 1 8.
Definition IGNORE_LEMMAS : N := N.shiftl 1 9.
Definition DISALLOW_SHADOWING : N := N.shiftl 1 10.
Definition NON_SMT_STANDARD : N := N.lor (N.lor ASSERT_NOT ASSERT_THEORY) ASSERT_GROUND.
(** environement.rs 59-62 [RewriteFlags]. *)
Definition EVALUATE : N := N.shiftl 1 0.
Definition CRYPTOGRAPHY : N := N.shiftl 1 1.
(** environement.rs 65-72 [SubtermFlags]. *)
Definition DEFINED : N := N.shiftl 1 0.
Definition PREPROCESS_INSTANCES : N := N.shiftl 1 1.
Definition PREPROCESS_INPUTS : N := N.lor (N.shiftl 1 2) DEFINED.
Definition PREPROCESS_CELLS : N := N.lor (N.shiftl 1 3) DEFINED.
Definition VAMPIRE : N := N.shiftl 1 4.
(** environement.rs 212-217 [EnabledSolvers]. *)
Definition SVAMPIRE : N := N.shiftl 1 0.
Definition SZ3 : N := N.shiftl 1 1.
Definition SCVC5 : N := N.shiftl 1 2.

Section Cli.
  (** Paths are those of the operating system. [T]: times. *)
  Context {path T : Type}.

  (** cli.rs 132-183 [Auto]. *)
  Record auto : Type := mkAuto {
    au_lemmas : bool;
    au_retry : nat;
    au_timeout : T;
    au_debug : option path;
    au_ignore_lemmas : bool;
    au_vampire : path;
    au_z3 : path;
    au_cvc5 : path;
    au_no_vampire : bool;
    au_no_z3 : bool;
    au_no_cvc5 : bool
  }.
  (** cli.rs 95-130 [ToFile]. *)
  Record to_file : Type := mkToFile {
    tf_location : path;
    tf_lemmas : bool;
    tf_assert_theory : bool;
    tf_cvc5 : bool;
    tf_assert_ground : bool
  }.
  (** cli.rs 81-87 [Command]. *)
  Inductive command : Type := Auto (a : auto) | ToFile (t : to_file).
  (** cli.rs 18-79 [Args], without the formats of input and output. *)
  Record args : Type := mkArgs {
    ar_eval_rewrite : bool;
    ar_crypto_rewrite : bool;
    ar_vampire_subterm : bool;
    ar_skolemnise : bool;
    ar_no_preprocessing : bool;
    ar_legacy_evaluate : bool;
    ar_no_bitstring : bool;
    ar_symbolic : bool;
    ar_disallow_shadowing : bool;
    ar_command : option command
  }.

  (** environement.rs 219-233 [SolverConfig], [Locations]. *)
  Record config : Type := mkConfig {
    co_vampire : path;
    co_z3 : path;
    co_cvc5 : path;
    co_enabled : N;
    co_retry : nat;
    co_timeout : T;
    co_debug : option path
  }.
  (** environement.rs 19-36 [Environement], [Options]. *)
  Record environment : Type := mkEnv {
    en_symbolic : bool;
    en_flags : N;
    en_rewrite : N;
    en_subterm : N;
    en_config : config
  }.

  (** The defaults of [clap]: cli.rs 150, 156, 173-181 ("vampire", "z3", "cvc5", one second). *)
  Context (vampire z3 cvc5 : path) (second : T).
  (** cli.rs 255-271 [Default for Auto]. *)
  Definition auto_default : auto := mkAuto true 5 second None false vampire z3 cvc5 false false false.
  (** cli.rs 132-183: what [clap] makes of [auto] without options. *)
  Definition auto_explicit : auto := mkAuto false 5 second None false vampire z3 cvc5 false false false.

  (** cli.rs 273-286 [mk_bitflag]. *)
  Definition bitflag (b : bool) (f : N) : N := if b then f else 0%N.

  (** cli.rs 384-427 [Into<SolverConfig> for Auto]. *)
  Definition config_of (a : auto) : config :=
    mkConfig (au_vampire a) (au_z3 a) (au_cvc5 a)
      (N.lor (N.lor (bitflag (negb (au_no_vampire a)) SVAMPIRE) (bitflag (negb (au_no_z3 a)) SZ3)) (bitflag (negb (au_no_cvc5 a)) SCVC5))
      (au_retry a) (au_timeout a) (au_debug a).

  (** cli.rs 288-382 [IntoWith<Environement> for &Args]. *)
  Definition env_of (a : args) : environment :=
    let command := match ar_command a with Some c => c | None => Auto auto_default end in
    let flags := N.lor (N.lor (bitflag (ar_legacy_evaluate a) LEGACY_EVALUATE) (bitflag (ar_skolemnise a) SKOLEMNISE))
                       (bitflag (ar_no_bitstring a && ar_symbolic a) NO_BITSTRING) in
    let rewrite := N.lor (bitflag (ar_eval_rewrite a) EVALUATE) (bitflag (ar_crypto_rewrite a) CRYPTOGRAPHY) in
    let subterm := N.lor (N.lor PREPROCESS_INPUTS PREPROCESS_CELLS)
                         (N.lor (bitflag (negb (ar_no_preprocessing a)) PREPROCESS_INSTANCES) (bitflag (ar_vampire_subterm a) VAMPIRE)) in
    match command with
    | Auto u =>
        mkEnv (ar_symbolic a)
          (N.lor flags (N.lor (bitflag (au_lemmas u && negb (au_ignore_lemmas u)) LEMMA) (bitflag (au_ignore_lemmas u) IGNORE_LEMMAS)))
          rewrite subterm (config_of u)
    | ToFile t =>
        let flags := N.lor flags (N.lor (N.lor (N.lor (bitflag (tf_lemmas t) LEMMA) (bitflag (tf_assert_theory t) ASSERT_THEORY))
                                               (bitflag (tf_assert_ground t) ASSERT_GROUND)) (bitflag (ar_disallow_shadowing a) DISALLOW_SHADOWING)) in
        let c := config_of auto_default in
        mkEnv (ar_symbolic a)
          (if tf_cvc5 t then N.ldiff flags (N.lor (N.lor ASSERT_GROUND ASSERT_NOT) ASSERT_THEORY) else flags)
          rewrite
          (if tf_cvc5 t then N.ldiff subterm VAMPIRE else subterm)
          (mkConfig (co_vampire c) (co_z3 c) (co_cvc5 c) 0%N (co_retry c) (co_timeout c) (co_debug c))
    end.

  (** ** What the program asks of its environment (environement.rs 91-194) *)
  Definition define_subterm (e : environment) : bool := contains (en_subterm e) DEFINED.
  Definition preprocess_instances (e : environment) : bool := contains (en_subterm e) PREPROCESS_INSTANCES || negb (define_subterm e).
  Definition use_vampire_subterm (e : environment) : bool := contains (en_subterm e) VAMPIRE && en_symbolic e.
  Definition use_legacy_evaluate (e : environment) : bool := contains (en_flags e) LEGACY_EVALUATE && en_symbolic e.
  Definition no_bitstring_functions (e : environment) : bool := contains (en_flags e) NO_BITSTRING.
  Definition with_general_crypto_axiom (e : environment) : bool := en_symbolic e.
  Definition are_lemmas_ignored (e : environment) : bool := contains (en_flags e) IGNORE_LEMMAS.
  Definition allow_shadowing (e : environment) : bool := negb (contains (en_flags e) DISALLOW_SHADOWING).
  (** 182-187: [None] is the panic of the assertion. *)
  Definition use_lemmas (e : environment) : option bool :=
    if contains (en_flags e) LEMMA then if are_lemmas_ignored e then None else Some true else Some false.
  (** The options that the writer of files looks at (smt/smt.rs 253, 261, 276, 296). *)
  Definition smt_options_of (e : environment) : smt_options :=
    mkOptions (contains (en_flags e) ASSERT_THEORY) (contains (en_flags e) ASSERT_NOT) (is_empty (en_rewrite e)) (contains (en_flags e) ASSERT_GROUND).

  (** ** Writing for a solver *)
  Definition with_flags (e : environment) (f : N) : environment := mkEnv (en_symbolic e) f (en_rewrite e) (en_subterm e) (en_config e).
  (** runner/vampire.rs 190-205 and runner/z3.rs 38-54 [write]: the environment used for the file. *)
  Definition write_env (k : Runner_Model.kind) (e : environment) : environment :=
    match k with
    | Runner_Model.Vampire => with_flags e (N.lor (en_flags e) (N.lor ASSERT_NOT ASSERT_THEORY))
    | Runner_Model.Z3 => with_flags e (N.ldiff (en_flags e) NON_SMT_STANDARD)
    end.
  (** subterm/kind.rs 69-80 [as_constr]: which of the two kinds of declaration a subterm relation gets (subterm/mod.rs [declare]). *)
  Inductive subterm_declaration : Type := DeclareSubterm | DeclareFunctions.
  Definition subterm_declaration_of (e : environment) : subterm_declaration := if use_vampire_subterm e then DeclareSubterm else DeclareFunctions.

  (** ** A run *)
  (** runner/runners.rs 112-141 [TryFrom<SolverConfig>]; [which]: the executables that are found. [None]: no solver. *)
  Definition solvers (which : path -> bool) (c : config) : option (list (Runner_Model.kind * path)) :=
    let v := if contains (co_enabled c) SVAMPIRE then if which (co_vampire c) then [(Runner_Model.Vampire, co_vampire c)] else [] else [] in
    let z := if contains (co_enabled c) SZ3 then if which (co_z3 c) then [(Runner_Model.Z3, co_z3 c)] else [] else [] in
    match v ++ z with [] => None | l => Some l end.

  (** Where a file goes: to the location itself or to an entry of that directory (lib.rs 136: [i].smt). *)
  Inductive target : Type := At (p : path) | Entry (p : path) (i : nat).
  (** What a run does: it writes files ([ok]: without error), or calls solvers. *)
  Inductive run : Type :=
  | Wrote (files : list (target * problem)) (ok : bool)
  | Calls (l : list (Runner_Model.kind * path)) (retry : nat) (timeout : T) (debug : option path) (it : piter)
  | NoSolver
  | Panic.

  (** The operating system: whether the directory can be made, whether a file can be written. *)
  Context (which : path -> bool) (mkdir : path -> bool) (mkparent : path -> bool) (writable : target -> bool).

  (** lib.rs 126-143 [run_to_dir]: the closure counts the files that were written. *)
  Fixpoint save_all (fuel : nat) (loc : path) (i : nat) (it : piter) : option (list (target * problem) * bool) :=
    match fuel with
    | 0 => None
    | S fuel' =>
        match pbl_next it with
        | (None, _) => Some ([], true)
        | (Some p, it') =>
            if writable (Entry loc i) then option_map (fun r => ((Entry loc i, p) :: fst r, snd r)) (save_all fuel' loc (S i) it') else Some ([], false)
        end
    end.
  Definition run_to_dir (loc : path) (it : piter) : option run :=
    if mkdir loc then option_map (fun r => Wrote (fst r) (snd r)) (save_all (S (S (pbl_len it))) loc 0 it) else Some (Wrote [] false).
  (** lib.rs 150-168 [run_to_file]; [mkparent]: the location exists or its directory can be made. *)
  Definition run_to_file (loc : path) (it : piter) : run :=
    if mkparent loc then
      if assert_one it then
        match pbl_next it with
        | (Some p, _) => if writable (At loc) then Wrote [(At loc, p)] true else Wrote [] false
        | (None, _) => Wrote [] false
        end
      else Wrote [] false
    else Wrote [] false.

  (** cli.rs 430-437 [get_output_location]. *)
  Definition output_location (a : args) : option path := match ar_command a with Some (ToFile t) => Some (tf_location t) | _ => None end.

  (** lib.rs 52-103 [run_from_ast]; [p]: the problem parsed with its lemmas, which are left out if asked
      (parser/parser/parsing_environement.rs 351-355). *)
  Definition parsed (e : environment) (p : problem) : problem :=
    if are_lemmas_ignored e then mkProblem (pb_assertions p) [] (pb_query p) else p.
  Definition run_from_ast (a : args) (p : problem) : option run :=
    let e := env_of a in
    match use_lemmas e with
    | None => Some Panic
    | Some with_lemmas =>
        let it := pbl_new (parsed e p) with_lemmas in
        match output_location a with
        | Some loc => if with_lemmas then run_to_dir loc it else Some (run_to_file loc it)
        | None =>
            match solvers which (en_config e) with
            | None => Some NoSolver
            | Some l => Some (Calls l (co_retry (en_config e)) (co_timeout (en_config e)) (co_debug (en_config e)) it)
            end
        end
    end.
End Cli.
Arguments auto : clear implicits.
Arguments to_file : clear implicits.
Arguments command : clear implicits.
Arguments args : clear implicits.
Arguments config : clear implicits.
Arguments environment : clear implicits.
Arguments target : clear implicits.
Arguments run : clear implicits.
