(** Specification of C30 for callables: values without NaN. *)
From Verif Require Import Base Float Bytecode Chunk Value Vm.

(** A constant that is not a function. *)
Definition literal_free (v : value) : Prop :=
  match v with
  | VFloat f => f <> S754_nan
  | VArray _ _ _ | VPair _ _ | VFn _ => False
  | _ => True
  end.
(** No NaN among the constants of a function, nor of the functions inside it. *)
Inductive function_free (f : function) : Prop :=
| ff : (forall v, In v (ck_consts (fn_chunk f)) ->
          literal_free v \/ exists g, v = VFn (MFun g) /\ function_free g) -> function_free f.
(** No NaN anywhere in a value, also inside the code of callables. *)
Inductive all_free : value -> Prop :=
| af_literal v : literal_free v -> all_free v
| af_array d s mx : Forall all_free d -> all_free (VArray d s mx)
| af_pair a b : all_free a -> all_free b -> all_free (VPair a b)
| af_fn f : function_free (mfn_function f) -> all_free (VFn f).
(** Nor in the variables that closures captured. *)
Definition captured_free (h : list upvalue) : Prop := forall v, In (Closed v) h -> all_free v.
