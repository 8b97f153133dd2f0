(** C68: every value a program can come by is within its type: integers are 64-bit, the
    ends of ranges 32-bit, the channels of colours bytes, and an array knows its size.
    [proper], [holds] and [proper_session] are in SpecHeld.v. *)
From Verif Require Import Base RleVec Pool Vecc Float NumText Bytecode Chunk Value Ast Arith VmOps Parse Includes
  Builtins Compiler Vm Std Repl SpecHeld SpecHeldRepl ProofArithEx ExProg ProofVmEx ProofHeld2 ProofHeld3 ProofHeld4 ProofHeld5 ProofStdUse ProofHeldEx.

(** Whatever a machine holds at any moment, whatever the host has done with it. *)
Theorem C68_machine : forall D m (hst : host D) s v,
  proper_session m hst s -> holds s v -> proper v.
Proof. exact @session_proper. Qed.
Print Assumptions C68_machine.

(** What a run returns. *)
Theorem C68_result : forall D m (hst : host D) s v s',
  proper_session m hst s -> (forall v, holds s v -> in_memory v) -> step m hst s = SDone v s' -> proper v.
Proof. exact @result_proper. Qed.
Print Assumptions C68_result.

(** Where the premises come from: programs are parsed, included and compiled ... *)
Theorem C68_parsed : forall o fuel text id ast i,
  parse_code o fuel text id = PMatch ast i -> program_fits ast.
Proof. exact parse_fits_program. Qed.
Print Assumptions C68_parsed.

Theorem C68_included : forall o parse_fuel read fuel name text ast s,
  parse_with_includes read (fun t id => match parse_code o parse_fuel t id with PMatch a _ => Some a | _ => None end)
    fuel name text = IOk ast s -> program_fits ast.
Proof.
  intros o pf read fuel name text ast s. apply includes_fit. intros t id a.
  destruct (parse_code o pf t id) eqn:E; intros [= <-]. exact (parse_fits_program _ _ _ _ _ _ E).
Qed.
Print Assumptions C68_included.

Theorem C68_compiled : forall m ast sc, program_fits ast -> compile m ast = COk sc -> proper_script sc.
Proof. exact compile_proper. Qed.
Print Assumptions C68_compiled.

(** ... and the standard library takes proper values to proper values. *)
Theorem C68_library : forall D m orc feq,
  Forall (fun nb => proper_builtin (D := D) (snd nb)) (std m orc feq).
Proof. exact @std_proper. Qed.
Print Assumptions C68_library.

(** A program that goes past the largest integer, mixes colours and calls closures. *)
Example C68_example :
  (exists i, parse_code no_oracle 100 held_text 0 = PMatch held_ast i) /\
  compile Release held_ast = COk (script_of held_ast) /\
  proper_session Release plain_host held_mid /\
  (length (v_frames held_mid) = 1 /\ holds held_mid (VInt (- 2 ^ 63)) /\
   (exists f, holds held_mid (VFn f)) /\ (forall v, holds held_mid v -> in_memory v)).
Proof.
  split; [exact held_parses|]. split; [exact held_compiles|]. split; [exact held_mid_session|exact held_mid_values].
Qed.

(** The same for an interactive session: the machine of a session of lines is one of those above,
    and what a line evaluates to is proper. *)
Theorem C68_repl : forall D m (hst : host D) fuel r,
  proper_repl m hst fuel r -> proper_session m hst (rp_vm r).
Proof. exact @repl_session. Qed.
Print Assumptions C68_repl.
Theorem C68_line : forall D m (hst : host D) fuel r line v s r',
  proper_repl m hst fuel r -> line_fits line ->
  (forall s s', run_in m r line s -> reach m hst s s' -> forall v, holds s' v -> in_memory v) ->
  execute m hst fuel r line = (ORun (RDone v s), r') -> proper v.
Proof. exact @repl_result. Qed.
Print Assumptions C68_line.
Example C68_repl_example :
  proper_repl Release plain_host 100 held_repl1 /\ line_fits held_two /\ held_two <> None /\
  (forall s s', run_in Release held_repl1 held_two s -> reach Release plain_host s s' -> forall v, holds s' v -> in_memory v) /\
  match fst (execute Release plain_host 100 held_repl1 held_two) with
  | ORun (RDone v _) => v = VArray [VInt (- 2 ^ 63); VColor 0 0 255 128] 32 1000 | _ => False end.
Proof.
  split; [exact held_repl1_proper|]. split; [apply line_of_fits|]. split; [vm_compute; discriminate|].
  split; [exact held_memory2|exact held_two_value].
Qed.
