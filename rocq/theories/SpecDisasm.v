(** What a listing should show (C39). *)
From Coq Require Import Sorted.
From Verif Require Import Base RleVec Pool Float NumText Bytecode Chunk Value Ast Compiler Vm SpecReady Disasm.

(** The functions that can come to run: the main function, and those that the code of
    such a function creates. *)
Definition creates (i : instr) : option N :=
  match i with ICreateFunction k | ICreateClosure k => Some k | _ => None end.
Inductive used (s : script) : function -> Prop :=
| us_main : used s (sc_function s)
| us_made f p i next k g : used s f -> boundary (fn_chunk f) p ->
    decode (ck_ops (fn_chunk f)) p = Ok (i, next) -> creates i = Some k ->
    nth_error (ck_consts (fn_chunk f)) (N.to_nat k) = Some (VFn (MFun g)) -> used s g.

(** The functions of a program in the order of their listings: a function, then those among
    its constants, each followed by its own. *)
Inductive functions_of : function -> list function -> Prop :=
| fs_fun f l : constants_of (ck_consts (fn_chunk f)) l -> functions_of f (f :: l)
with constants_of : list value -> list function -> Prop :=
| fs_nil : constants_of [] []
| fs_fn g cs l1 l2 : functions_of g l1 -> constants_of cs l2 -> constants_of (VFn (MFun g) :: cs) (l1 ++ l2)
| fs_other v cs l : (forall g, v <> VFn (MFun g)) -> constants_of cs l -> constants_of (v :: cs) l.

(** Every byte of the code has a source line. *)
Definition has_lines (lineno : span -> option nat) (c : chunk value) : Prop :=
  forall p, p < length (ck_ops c) -> lineno (chunk_get_span c p) <> None.

(** The operands of an instruction. *)
Definition raw_operands (i : instr) : list N :=
  match i with
  | IPopMany v | ILoadConst v | ILoadLocal v | ISetLocal v | IDefineGlobal v | ILoadUpvalue v
  | ISetUpvalue v | ILoadGlobal v | ISetGlobal v | IDefineGlobalDefaulted v
  | ICreateFunction v | ICreateClosure v | IJumpIfFalse v | IJumpIfNotEq v | IJumpForward v
  | IJumpBackward v | IIterNext v | ICreateArray v | ICallFunction v | IUnpack v | ILoadNoneMany v => [v]
  | ICallBuiltin b n | IEnterContext b n => [b; n]
  | _ => []
  end.
Definition global_of_instr (i : instr) : option N :=
  match i with
  | IDefineGlobal k | ILoadGlobal k | ISetGlobal k | IDefineGlobalDefaulted k => Some k
  | _ => None
  end.

(** The builtin or context manager that is called. *)
Definition called_by (i : instr) : option N :=
  match i with ICallBuiltin b _ | IEnterContext b _ => Some b | _ => None end.
(** Operators as they are written in programs. *)
Definition written (o : op) : rstring :=
  match o with
  | OAdd => str "+" | OSub | ONeg => str "-" | OMul => str "*" | ODiv => str "/" | OMod => str "%"
  | OPow => str "**" | OEq => str "==" | ONeq => str "!=" | OLt => str "<" | OGt => str ">"
  | OLte => str "<=" | OGte => str ">=" | OAnd => str "&&" | OOr => str "||" | ONot => str "!"
  | OJoin => str ".." | OBitwiseAnd => str "&" | OBitwiseOr => str "|" | OBitwiseXor => str "^"
  | OBitwiseNot => str "~" | OBitwiseLeftShift => str "<<" | OBitwiseRightShift => str ">>"
  end.

(** A line shows the instruction [i], which the machine finds at [p] and leaves at [next]. *)
Record shows (s : script) (c : chunk value) (p : nat) (i : instr) (next : nat) (ln : line) : Prop := {
  sh_offset : ln_offset ln = p;
  sh_opcode : bc_read_u8 (ck_ops c) p = Ok (ln_opcode ln);
  sh_args : exists rest, ln_args ln = raw_operands i ++ rest /\ 3 * length rest = 2 * trailer c i;
  sh_jump : forall t, jump_target i next = Some t -> ln_hint ln = Some (HJump t);
  sh_no_jump : forall t, ln_hint ln = Some (HJump t) -> jump_target i next = Some t;
  sh_const : forall k v, i = ILoadConst k -> nth_error (ck_consts c) (N.to_nat k) = Some v -> ln_hint ln = Some (HValue v);
  sh_global : forall k n, global_of_instr i = Some k -> pool_get (sc_globals s) k = Some n -> ln_hint ln = Some (HSymbol n);
  sh_builtin : forall k n, called_by i = Some k -> pool_get (sc_globals s) k = Some n -> ln_hint ln = Some (HBuiltin n);
  sh_operator : forall o, i = IBinary o \/ i = IUnary o -> ln_hint ln = Some (HOp (written o)) }.

(** The listing of a function is right: its lines are the instructions, each once, in
    order, and the walk ends where the code ends. *)
Record right_listing (s : script) (c : chunk value) (lines : list line) (stop : nat) : Prop := {
  rl_stop : stop = length (ck_ops c);
  rl_sorted : StronglySorted lt (map ln_offset lines);
  rl_all : forall p, In p (map ln_offset lines) <-> boundary c p /\ p < length (ck_ops c);
  rl_shows : forall ln, In ln lines -> exists i next,
    decode (ck_ops c) (ln_offset ln) = Ok (i, next) /\ shows s c (ln_offset ln) i next ln }.

(** The listing of the function [f]. *)
Record lists (s : script) (f : function) (l : listing) : Prop := {
  ls_name : li_name l = fn_name f;
  ls_span : li_span l = fn_nspan f;
  ls_lines : right_listing s (fn_chunk f) (li_lines l) (length (ck_ops (fn_chunk f))) }.

(** A line is marked exactly when some jump of the function leads to it (C65). *)
Definition target_in (c : chunk value) (t : nat) : Prop :=
  exists p i next, boundary c p /\ p < length (ck_ops c) /\ decode (ck_ops c) p = Ok (i, next) /\ jump_target i next = Some t.
Definition marks_right (c : chunk value) (lines : list line) : Prop :=
  forall ln, In ln lines -> (ln_is_jump ln = true <-> target_in c (ln_offset ln)).
