(** C97: reports are only drawn of places in the texts.
    [in_sources] and [agree] are in SpecDrawn.v. *)
From Verif Require Import Base RleVec Pool Vecc Float NumText Bytecode Chunk Value Ast Arith VmOps Args Parse Builtins
  Compiler Vm Std Console Includes Report Repl Cli SpecPos SpecDrawn ProofSpans3 ProofLines ProofConsoleEx ProofCliEx ProofDrawnEx ExProg.

(** The command line program asks the crate that draws reports only for places of the texts it
    gives it: ways of drawing that differ elsewhere (where the crate may panic) give the same. *)
Theorem C97_program : forall (hst : host world) p q, agree p q -> forall m orc feq fhash k a name w,
  cli m hst orc p feq fhash k a name w = cli m hst orc q feq fhash k a name w.
Proof. exact cli_agree. Qed.
Print Assumptions C97_program.

(** So does the interactive loop, in sessions of any length with any lines. *)
Theorem C97_session : forall (hst : host world) p q, agree p q -> forall m orc feq fhash o w k n,
  rounds m hst orc p k n (interactive_new m hst feq fhash o w) =
  rounds m hst orc q k n (interactive_new m hst feq fhash o w).
Proof. intros hst p q H m orc feq fhash o w k n. apply (rounds_agree hst p q H m orc feq fhash). apply new_sinv. Qed.
Print Assumptions C97_session.

(** The texts of a session: each line that is entered adds itself, under its number, and the files
    it includes, as they are then. *)
Theorem C97_texts : forall m (hst : host world) orc pr k line r r', enter_line m hst orc pr k line r = Some r' ->
  exists more, n_sources r' = n_sources r ++ mkSource (str "@__exec__" ++ int_text (Z.of_nat (n_next r))) line :: more /\
    n_next r' = S (n_next r) /\ Forall (fun s => read_text (n_world r) (src_name s) = Some (src_text s)) more.
Proof. exact line_sources. Qed.
Print Assumptions C97_texts.

(** A printer that says OUTSIDE when it is asked for a place that is not there agrees with one that
    does not care; a session with an include that fails, one that does not and an error in the
    included function. *)
Example C97_example :
  agree plain_printer strict_printer /\
  report strict_printer [mkSource (str "a") (str "1 / none")] (ENameUndefined (str "x")) (mkSpan 0 9 0) = str "OUTSIDE" /\
  exists out, lib_session strict_printer = Some
    ([mkSource (str "@__exec__0") (str "include ""nope"""); mkSource (str "@__exec__1") (str "include ""lib""");
      mkSource (str "lib") lib_text; mkSource (str "@__exec__2") (str "total(none)")], out) /\
    lib_session plain_printer = lib_session strict_printer.
Proof. exact (conj strict_agrees (conj strict_outside lib_says)). Qed.
