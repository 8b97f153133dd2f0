(** Programs and the builtins they mention (C104). *)
From Verif Require Import Base RleVec Pool Bytecode Chunk Value Ast Compiler Vm SpecParse SpecPos.

(** The program calls the builtin [x], or enters it as a context. *)
Definition mentions (ast : list nodeS) (x : rstring) : Prop :=
  exists sp place, (exists args, occurs ast (NBuiltinCall (x, sp) args) place) \/
                   (exists args v body, occurs ast (NContext (x, sp) args v body) place).

(** Runs that cannot be told apart: the same value, or the same error at the same place with the same stack of calls;
    the same done to the data of the host. *)
Definition same_run {D} (a b : rres D) : Prop :=
  match a, b with
  | RDone v t, RDone v' t' => v' = v /\ v_data t' = v_data t
  | RErr e sp t, RErr e' sp' t' => e' = e /\ sp' = sp /\ v_data t' = v_data t /\ trace_back t' = trace_back t
  | ROut t, ROut t' => v_data t' = v_data t
  | RPanic, RPanic => True
  | _, _ => False
  end.
