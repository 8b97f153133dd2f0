(** What it means that the counts in compiled code are exact (C15). *)
From Verif Require Import Base RleVec Pool Float NumText Bytecode Chunk Value Ast Compiler Vm SpecPos.

Section Counts.
Context (ast : list nodeS) (globals : list rstring).

(** The name the program keeps under a number. *)
Definition numbered (id : N) (x : rstring) : Prop := exists j, nth_error globals j = Some x /\ id = pool_id_from j.

(** [counted i sp]: if the instruction [i], with the position [sp] of its last byte, has a
    count, then at [sp] stands a construct with exactly that many parts. *)
Definition counted (i : instr) (sp : span) : Prop :=
  match i with
  | ICreateArray k => exists items, occurs ast (NArray items) sp /\ k = N.of_nat (length items)
  | ICallFunction k => exists f args, occurs ast (NCall f args) sp /\ k = N.of_nat (length args)
  | ICallBuiltin id k => exists x args place, occurs ast (NBuiltinCall (x, sp) args) place /\
      numbered id x /\ k = N.of_nat (length args)
  | IEnterContext id k => exists x args v body place, occurs ast (NContext (x, sp) args v body) place /\
      numbered id x /\ k = N.of_nat (length args)
  | IUnpack k => exists names, k = N.of_nat (length names) /\
      ((exists v, occurs ast (NDeclaration (VarMulti names) v) sp) \/
       (exists x args body, occurs ast (NContext x args (Some (VarMulti names)) body) sp) \/
       (exists v body place, occurs ast (NMultiFor names (v, sp) body) place))
  | _ => True
  end.

(** [declared f]: [f] is a function of the program and takes as many arguments as the
    program gives it parameters. *)
Definition declared (f : function) : Prop :=
  (exists x params body place, occurs ast (NFunction x params body) place /\
     (fn_name f, fn_nspan f) = x /\ fn_arity f = N.of_nat (length params)) \/
  (exists params body place, occurs ast (NLambda params body) place /\
     (fn_name f, fn_nspan f) = (str "@__lambda__", place) /\ fn_arity f = N.of_nat (length params)).
End Counts.
