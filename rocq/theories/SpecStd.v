(** The standard library as the direct evaluation of programs knows it: the same functions
    of values.  Comparing two functions is left open there. *)
From Verif Require Import Base Float NumText Value Ast Arith VmOps Args Builtins Compiler Vm SpecEval.

Definition std_direct {D} (m : mode) (orc : oracle) : list (rstring * sbuiltin (D := D)) :=
  map (fun b => (fst b, SFn (fun d args o =>
         (d, std_call m orc sfi sfn_eq (o_array_max o) (fst b) args))))
      (std_list m orc sfi sfn_eq 0).
(** All of it known by name. *)
Definition std_known {D} (m : mode) (orc : oracle) : rstring -> option (sbuiltin (D := D)) :=
  fold_left with_builtin (std_direct m orc) (fun _ => None).
