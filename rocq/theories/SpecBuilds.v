(** Checked and release builds (C105): [Debug] is a build with overflow checks and debug assertions,
    [Release] one without (Base.v). *)
From Verif Require Import Base RleVec Pool Bytecode Chunk Value Ast Compiler Vm Repl SpecVm.

(** A builtin of the checked build and the one of the release build: the former aborts or does the same.
    What ends a context is the same. *)
Definition checked_fn {D} (f g : bfn D) : Prop := forall d args o, snd (f d args o) = Panic \/ f d args o = g d args o.
Definition checked_builtin {D} (a b : builtin D) : Prop :=
  match a, b with
  | BFn f, BFn g => checked_fn f g
  | BContext f x, BContext g y => checked_fn f g /\ x = y
  | _, _ => False
  end.
Definition checked_builtins {D} : list (rstring * builtin D) -> list (rstring * builtin D) -> Prop :=
  Forall2 (fun a b => fst a = fst b /\ checked_builtin (snd a) (snd b)).

(** Machines that cannot be told apart. *)
Definition same_machine {D} (s t : vm D) : Prop :=
  v_data t = v_data s /\ trace_back t = trace_back s /\ forall x, global_of t x = global_of s x.
(** The first run aborts or both do the same, step by step. *)
Definition checked_run {D} (a b : rres D) : Prop :=
  match a, b with
  | RPanic, _ => True
  | RDone v t, RDone v' t' => v' = v /\ same_machine t t'
  | RErr e sp t, RErr e' sp' t' => e' = e /\ sp' = sp /\ same_machine t t'
  | ROut t, ROut t' => same_machine t t'
  | _, _ => False
  end.

(** Lines of a session: the process ends at the first line that aborts; until then they come to the same. *)
Definition aborted {D} (o : outcome D) : Prop := match o with OPanic | ORun RPanic => True | _ => False end.
Definition checked_outcome {D} (a b : outcome D) : Prop :=
  match a, b with
  | OSyntax, OSyntax => True
  | OCompile e sp, OCompile e' sp' => e' = e /\ sp' = sp
  | ORun x, ORun y => checked_run x y
  | _, _ => False
  end.
Fixpoint checked_session {D} (a b : list (outcome D)) : Prop :=
  match a, b with
  | [], [] => True
  | x :: a, y :: b => aborted x \/ checked_outcome x y /\ checked_session a b
  | _, _ => False
  end.
