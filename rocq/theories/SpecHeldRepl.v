(** Sessions of lines that are given proper things (C68). *)
From Verif Require Import Base RleVec Pool Float NumText Bytecode Chunk Value Ast Compiler Vm Repl SpecHeld.

Section Repl.
Context {D : Type} (m : mode) (hst : host D) (fuel : nat).

(** A line that is no program, or one whose literals are within their types. *)
Definition line_fits (line : option (list nodeS)) : Prop :=
  match line with Some ast => program_fits ast | None => True end.
(** The machine in which a line is run, if it comes to that. *)
Definition run_in (r : repl D) (line : option (list nodeS)) (s : vm D) : Prop :=
  exists ast u c, line = Some ast /\ compile_stmnts m ast (rp_compiler r) = (COk u, c) /\
    s = set_count 0 0 (fold_left (fun s l => add_builtins_list l s) (rp_builtins r) (update_script (as_script c) (rp_vm r))).

(** The sessions: while a line runs, lists and texts are shorter than the memory can be. *)
Inductive proper_repl : repl D -> Prop :=
| pr_new d o bs : Forall (Forall (fun nb => proper_builtin (snd nb))) bs -> proper_repl (repl_new d o bs)
| pr_line r line out r' : proper_repl r -> line_fits line ->
    (forall s s', run_in r line s -> reach m hst s s' -> forall v, holds s' v -> in_memory v) ->
    execute m hst fuel r line = (out, r') -> proper_repl r'.
End Repl.
