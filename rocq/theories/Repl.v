(** cli/src/repl.rs: a session of lines. *)
From Verif Require Import Base RleVec Pool Vecc Float NumText Bytecode Chunk Value Ast Arith VmOps
                          Compiler Vm.

Section Repl.
Context {D : Type} (m : mode) (hst : host D) (fuel : nat).

(** repl.rs:5-17.  Simplification: the source cache and the line counter only name the
    sources that spans refer to and are left out. *)
Record repl := mkRepl {
  rp_vm : vm D; rp_compiler : compiler; rp_builtins : list (list (rstring * builtin D)) }.

(** repl.rs:23-34 *)
Definition repl_name : rstring := str "@__repl__".
Definition repl_new (d : D) (o : options) (bs : list (list (rstring * builtin D))) : repl :=
  let c := compiler_new repl_name in mkRepl (vm_new d (as_script c) o) c bs.

(** What a line does: it does not parse, does not compile, or runs. *)
Inductive outcome := OSyntax | OCompile (e : error) (sp : span) | OPanic | ORun (r : rres D).

(** The machine after a run. *)
Definition after (r : rres D) (s : vm D) : vm D :=
  match r with RDone _ s' | RErr _ _ s' | ROut s' => s' | RPanic => s end.

(** repl.rs:36-59.  [None] is a line that does not parse; parsing is modelled in Parse.v and
    Includes.v.  [fuel] bounds the run. *)
Definition execute (r : repl) (line : option (list nodeS)) : outcome * repl :=
  match line with
  | None => (OSyntax, r)
  | Some ast =>
      match compile_stmnts m ast (rp_compiler r) with
      | (CErr e sp, c) => (OCompile e sp, mkRepl (rp_vm r) c (rp_builtins r))
      | (CPanic, c) => (OPanic, mkRepl (rp_vm r) c (rp_builtins r))
      | (COk _, c) =>
          let s := fold_left (fun s l => add_builtins_list l s) (rp_builtins r)
                     (update_script (as_script c) (rp_vm r)) in
          let res := run m hst fuel s in
          (ORun res, mkRepl (after res s) (compiler_reset repl_name c) (rp_builtins r))
      end
  end.

(** A session. *)
Fixpoint session_of (r : repl) (lines : list (option (list nodeS))) : list outcome * repl :=
  match lines with
  | [] => ([], r)
  | l :: t => let (o, r1) := execute r l in
              let (os, r2) := session_of r1 t in (o :: os, r2)
  end.
End Repl.
Arguments repl : clear implicits.
Arguments outcome : clear implicits.
Arguments ORun {D} r.
Arguments OSyntax {D}.
Arguments OCompile {D} e sp.
Arguments OPanic {D}.
