(** REPL sessions (C24, C62, C63, C64). *)
From Verif Require Import Base RleVec Pool Vecc Float NumText Bytecode Chunk Value Ast Arith VmOps
                          Compiler Vm SpecVm Repl.

Section Spec.
Context {D : Type} (m : mode) (hst : host D) (fuel : nat).

(** The session with these options and builtins got to [r] by entering lines. *)
Inductive entered (d : D) (o : options) (bs : list (list (rstring * builtin D))) : repl D -> Prop :=
| en_new : entered d o bs (repl_new d o bs)
| en_line r l : entered d o bs r -> entered d o bs (snd (execute m hst fuel r l)).

(** The line was not run. *)
Definition rejected (o : outcome D) : Prop := match o with ORun _ => False | _ => True end.

(** What a user sees of an outcome: the value, or the kind of error. *)
Inductive seen := SeenValue (v : value) | SeenError (e : error) | SeenOther.
Definition see (o : outcome D) : seen :=
  match o with
  | ORun (RDone v _) => SeenValue v
  | ORun (RErr e _ _) | OCompile e _ => SeenError e
  | _ => SeenOther
  end.

(** The value of a name in the session: names belong to the compiler, values to the
    machine. *)
Definition session_global (r : repl D) (n : rstring) : option value :=
  match pool_id seqb (c_globals (rp_compiler r)) n with
  | Some i => alookup N.eqb i (v_globals (rp_vm r))
  | None => None
  end.
(** The name has occurred in the session. *)
Definition known_name (r : repl D) (n : rstring) : Prop := pool_id seqb (c_globals (rp_compiler r)) n <> None.

(** The machine that starts to run a line. *)
Definition started (r : repl D) (ast : list nodeS) (s : vm D) : Prop :=
  exists u c, compile_stmnts m ast (rp_compiler r) = (COk u, c) /\
    s = fold_left (fun s l => add_builtins_list l s) (rp_builtins r) (update_script (as_script c) (rp_vm r)).
End Spec.
