(** What it means that the machine is never led astray by its code (C03). *)
From Verif Require Import Base RleVec Pool Float NumText Bytecode Chunk Value Ast Compiler Vm SpecParse.

(** How many values an instruction takes from, or looks at on, the stack. *)
Definition operands (i : instr) : nat :=
  match i with
  | IReturn | IPop | ISetLocal _ | IDefineGlobal _ | ISetUpvalue _ | ISetGlobal _
  | IDefineGlobalDefaulted _ | ICloseUpvalue | IBlockResult | IJumpIfFalse _ | IUnpack _
  | IUnary _ => 1
  | ISwap | ISwapPop | ICreatePair | ICreateRange | IJumpIfNotEq _ | IIndexGet | IBinary _ => 2
  | IIterNext _ => 3
  | IPopMany n | ICreateArray n | ICallBuiltin _ n | IEnterContext _ n => N.to_nat n
  | ICallFunction n => S (N.to_nat n)
  | _ => 0
  end.

(** The constant an instruction reads; the captured variable it uses. *)
Definition constant_of (i : instr) : option N :=
  match i with ILoadConst k | ICreateFunction k | ICreateClosure k => Some k | _ => None end.
Definition capture_of (i : instr) : option N :=
  match i with ILoadUpvalue k | ISetUpvalue k => Some k | _ => None end.

(** Where an instruction that ends at [next] can send the machine, other than [next]. *)
Definition jump_target (i : instr) (next : nat) : option nat :=
  match i with
  | IJumpForward off | IJumpIfFalse off | IJumpIfNotEq off | IIterNext off => Some (next + N.to_nat off)
  | IJumpBackward off => if next <? N.to_nat off then None else Some (next - N.to_nat off)
  | _ => None
  end.
Definition jumps (i : instr) : bool :=
  match i with
  | IJumpForward _ | IJumpIfFalse _ | IJumpIfNotEq _ | IIterNext _ | IJumpBackward _ => true
  | _ => false
  end.

(** The bytes behind CreateClosure: three for each variable captured. *)
Definition trailer (c : chunk value) (i : instr) : nat :=
  match i with
  | ICreateClosure k =>
      match nth_error (ck_consts c) (N.to_nat k) with
      | Some (VFn (MFun f)) => 3 * N.to_nat (fn_upcount f)
      | _ => 0
      end
  | _ => 0
  end.

(** Instruction boundaries: reading the code from its beginning gets there. *)
Inductive boundary (c : chunk value) : nat -> Prop :=
| bd_start : boundary c 0
| bd_next p i next : boundary c p -> p < length (ck_ops c) -> decode (ck_ops c) p = Ok (i, next) ->
    boundary c (next + trailer c i).

Section Ready.
Context {D : Type}.

(** The state is ready for its next step. *)
Record ready (s : vm D) : Prop := {
  rd_inside : ip s < length (ck_ops (cur_chunk s));
  rd_boundary : boundary (cur_chunk s) (ip s);
  rd_instr : exists i next, decode (ck_ops (cur_chunk s)) (ip s) = Ok (i, next) /\
    (* the operands are there, and belong to the function that runs *)
    f_st (v_frame s) + operands i <= v_sp s /\
    (i = IBlockReturn -> v_blocks s <> []) /\
    (* what the instruction names exists *)
    (forall k, constant_of i = Some k -> nth_error (ck_consts (cur_chunk s)) (N.to_nat k) <> None) /\
    (forall k, capture_of i = Some k -> N.to_nat k < length (f_ups (v_frame s))) /\
    (* the code goes on behind it, unless it returns or jumps away *)
    (i <> IReturn -> (forall off, i <> IJumpForward off) -> (forall off, i <> IJumpBackward off) ->
       next + trailer (cur_chunk s) i < length (ck_ops (cur_chunk s))) /\
    (* and jumps land on an instruction *)
    (jumps i = true -> exists t, jump_target i next = Some t /\
       t < length (ck_ops (cur_chunk s)) /\ boundary (cur_chunk s) t) }.

(** The variable slot an instruction uses lies below the top of the stack. *)
Definition slot_of_instr (i : instr) : option N :=
  match i with ILoadLocal k | ISetLocal k => Some k | _ => None end.
Definition slots_ready (s : vm D) : Prop :=
  forall i next k, decode (ck_ops (cur_chunk s)) (ip s) = Ok (i, next) -> slot_of_instr i = Some k ->
    f_st (v_frame s) + N.to_nat k < v_sp s.

(** The callables inside a value. *)
Inductive fn_in (f : mfn) : value -> Prop :=
| fi_fn : fn_in f (VFn f)
| fi_array x l s m : In x l -> fn_in f x -> fn_in f (VArray l s m)
| fi_left a b : fn_in f a -> fn_in f (VPair a b)
| fi_right a b : fn_in f b -> fn_in f (VPair a b).

(** A builtin that makes up no callables: those in its result were in its arguments. *)
Definition honest (f : bfn D) : Prop :=
  forall d args o d' v g, f d args o = (d', Ok v) -> fn_in g v -> exists a, In a args /\ fn_in g a.
Definition honest_builtin (b : builtin D) : Prop :=
  match b with BFn f => honest f | BContext e _ => honest e end.

(** A machine set up to run a script: builtins registered, globals and externals given
    values without callables. *)
Inductive prepared (sc : script) : vm D -> Prop :=
| pr_new d o : prepared sc (vm_new d sc o)
| pr_builtins s l : prepared sc s -> Forall (fun nb => honest_builtin (snd nb)) l ->
    prepared sc (add_builtins_list l s)
| pr_global s n v : prepared sc s -> (forall f, ~ fn_in f v) -> prepared sc (insert_global n v s)
| pr_external s n v s' : prepared sc s -> (forall f, ~ fn_in f v) -> set_external n v s = Ok s' ->
    prepared sc s'
| pr_start s : prepared sc s -> prepared sc (set_count 0 0 s).
End Ready.

(** Every body in the program ends in a value or a return, as the parser makes them (C40). *)
Definition complete_program (ast : list nodeS) : Prop := good_body false ast /\ complete_all ast.

(** For the stronger statement about local slots: names are ordinary names, and what a
    [for] loop iterates over declares no variables and creates no functions. *)
Definition ordinary (x : rstring) : Prop := match x with c :: _ => c <> 35%N | [] => True end.
Definition plain (n : node) : Prop :=
  forall d, inside d n ->
  match d with
  | NDeclaration _ _ | NFunction _ _ _ | NLambda _ _ | NFor _ _ _ | NMultiFor _ _ _
  | NContext _ _ (Some _) _ => False
  | _ => True
  end.
Definition tame (n : node) : Prop :=
  forall d, inside d n ->
  match d with
  | NIdentifier x => ordinary x
  | NAssignment x _ => ordinary (fst x)
  | NFor _ i _ | NMultiFor _ i _ => plain (fst i)
  | _ => True
  end.
