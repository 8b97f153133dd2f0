(** Raising limits (C102). *)
From Verif Require Import Base RleVec Pool Float NumText Bytecode Chunk Value Ast Compiler Vm.

(** [o'] allows more stack, more calls and more time.  The sizes of texts and arrays are the same. *)
Definition roomier (o o' : options) : Prop :=
  o_stack_size o <= o_stack_size o' /\ o_call_stack_size o <= o_call_stack_size o' /\
  (o_max_runtime o <= o_max_runtime o')%N /\
  o_string_max o = o_string_max o' /\ o_array_max o = o_array_max o'.

(** Errors that report a limit. *)
Definition limit_error (e : error) : Prop :=
  match e with EStackOverflow | ERuntimeLimit _ => True | _ => False end.

(** Builtins that do not look at the limits of stack, calls and time. *)
Definition fair_fn {D} (f : bfn D) : Prop :=
  forall d args o o', o_string_max o = o_string_max o' -> o_array_max o = o_array_max o' -> f d args o = f d args o'.
Definition fair {D} (b : builtin D) : Prop :=
  match b with BFn f => fair_fn f | BContext f _ => fair_fn f end.

(** Machines that differ in their limits only: they have the same data, variables, calls,
    contexts and values on the stack, and are at the same place of the program. *)
Definition alike {D} (s s' : vm D) : Prop :=
  v_data s = v_data s' /\ v_builtins s = v_builtins s' /\ v_exits s = v_exits s' /\ v_blocks s = v_blocks s' /\
  v_globals s = v_globals s' /\ v_gsyms s = v_gsyms s' /\ v_externals s = v_externals s' /\
  v_opens s = v_opens s' /\ v_heap s = v_heap s' /\ v_frames s = v_frames s' /\ v_frame s = v_frame s' /\
  v_sp s = v_sp s' /\ firstn (v_sp s) (v_stack s) = firstn (v_sp s') (v_stack s') /\
  v_reads s = v_reads s' /\ v_n s = v_n s'.

(** Two machines with the limits [o] and [o'] that were made alike and to which the same was done:
    globals and externals set, programs replaced and run.  Runs ended alike, but not at a limit. *)
Inductive twins {D} (m : mode) (hst : host D) (o o' : options) : vm D -> vm D -> Prop :=
| tw_new d sc bs : (forall l n b, In l bs -> In (n, b) l -> fair b) ->
    twins m hst o o' (vm_new_with d sc o bs) (vm_new_with d sc o' bs)
| tw_global n v s s' : twins m hst o o' s s' -> twins m hst o o' (insert_global n v s) (insert_global n v s')
| tw_external n v s s' t t' : twins m hst o o' s s' -> set_external n v s = Ok t -> set_external n v s' = Ok t' ->
    twins m hst o o' t t'
| tw_data d s s' : twins m hst o o' s s' -> twins m hst o o' (set_data d s) (set_data d s')
| tw_script sc s s' : twins m hst o o' s s' -> twins m hst o o' (update_script sc s) (update_script sc s')
| tw_done k v s s' t t' : twins m hst o o' s s' -> run m hst k s = RDone v t -> run m hst k s' = RDone v t' ->
    twins m hst o o' t t'
| tw_failed k e sp s s' t t' : twins m hst o o' s s' -> run m hst k s = RErr e sp t -> run m hst k s' = RErr e sp t' ->
    ~ limit_error e -> twins m hst o o' t t'.
