(** qstd/src/lib.rs: the standard library registered with a machine. *)
From Verif Require Import Base Float NumText Value Ast Arith VmOps Args Builtins Compiler Vm.

(** lib.rs:19-31: the builtins of Builtins.v.  [feq] compares functions (a builtin does not
    see the machine, so how closures compare is left open); the largest array a builtin may
    make is the one of the machine's options.  @now and @date are in Console.v. *)
Definition std {D} (m : mode) (orc : oracle) (feq : mfn -> mfn -> res bool)
  : list (rstring * builtin D) :=
  map (fun b => (fst b, BFn (fun d args o => (d, std_call m orc mfi feq (o_array_max o) (fst b) args))))
      (std_list m orc mfi feq 0).
