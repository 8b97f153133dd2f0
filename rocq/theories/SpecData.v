(** What it means for two hosts to give a program the same answers (C95).  [like] tells which
    data of the one host answers to which data of the other. *)
From Verif Require Import Base RleVec Pool Vecc Float NumText Bytecode Chunk Value Ast Arith VmOps Compiler Vm.

Section Hosts.
Context {D E : Type} (like : D -> E -> Prop).

(** The same answer, and data that still answer to each other. *)
Definition same_answer {A} (p : D * res A) (q : E * res A) : Prop := like (fst p) (fst q) /\ snd p = snd q.
Definition same_function (f : bfn D) (g : bfn E) : Prop :=
  forall d e args o, like d e -> same_answer (f d args o) (g e args o).
Definition same_exit (f : xfn D) (g : xfn E) : Prop := forall d e, like d e -> same_answer (f d) (g e).
Inductive same_builtin : builtin D -> builtin E -> Prop :=
| same_fn f g : same_function f g -> same_builtin (BFn f) (BFn g)
| same_context f x g y : same_function f g -> same_exit x y -> same_builtin (BContext f x) (BContext g y).
(** The same names, in the same order. *)
Definition same_builtins (l : list (rstring * builtin D)) (l' : list (rstring * builtin E)) : Prop :=
  Forall2 (fun a b => fst a = fst b /\ same_builtin (snd a) (snd b)) l l'.
Record same_host (h : host D) (h' : host E) : Prop := {
  sh_enter : forall d e, like d e -> like (h_enter h d) (h_enter h' e);
  sh_leave : forall d e, like d e -> like (h_leave h d) (h_leave h' e);
  sh_clock : h_clock h = h_clock h'; sh_depth : h_depth h = h_depth h'; sh_oracle : h_oracle h = h_oracle h' }.

(** The machines show the same: the traceback and all the globals. *)
Definition same_machine (s : vm D) (t : vm E) : Prop :=
  like (v_data s) (v_data t) /\ trace_back s = trace_back t /\
  v_globals s = v_globals t /\ v_gsyms s = v_gsyms t /\ v_heap s = v_heap t.
End Hosts.

(** What a host does with a machine: run it (for at most [k] instructions), set a global or an
    external, or load another script.  What it sees of that; after an abort, and while the
    program is still running, there is nothing more to do. *)
Inductive use := URun (k : nat) | UGlobal (name : rstring) (v : value) | UExternal (name : rstring) (v : value) | UScript (sc : script).
Inductive seen := SawValue (v : value) | SawError (e : error) (sp : span) (calls : list trace_line) | SawRefused (e : error)
| SawDone | SawAbort | SawRunning.
Section Uses.
Context {D : Type} (m : mode) (h : host D).
Definition use_one (u : use) (s : vm D) : seen * option (vm D) :=
  match u with
  | URun k => match run m h k s with
              | RDone v t => (SawValue v, Some t)
              | RErr e sp t => (SawError e sp (trace_back t), Some t)
              | RPanic => (SawAbort, None)
              | ROut _ => (SawRunning, None)
              end
  | UGlobal n v => (SawDone, Some (insert_global n v s))
  | UExternal n v => match set_external n v s with
                     | Ok t => (SawDone, Some t)
                     | Err e => (SawRefused e, Some s)
                     | Panic => (SawAbort, None)
                     end
  | UScript sc => (SawDone, Some (update_script sc s))
  end.
Fixpoint use_all (us : list use) (s : vm D) : list seen * option (vm D) :=
  match us with
  | [] => ([], Some s)
  | u :: us => match use_one u s with
               | (x, None) => ([x], None)
               | (x, Some t) => let (l, r) := use_all us t in (x :: l, r)
               end
  end.
End Uses.
