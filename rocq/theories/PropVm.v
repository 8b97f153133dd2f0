(** Property theorems about the virtual machine and about compiled programs on it:
    C02, C04-C06, C09, C10, C17-C21, C23, C25, C52. *)
From Verif Require Import Base RleVec Pool Vecc Float NumText Bytecode Chunk Value Ast Arith VmOps
  Compiler Vm SpecVm ProofVm ProofVm2 ProofVm3 ProofVm4 ProofVm5 ProofVars ProofArithEx ExProg ProofVmEx.

(** ** C02  A block means the same thing wherever it is written: false.  The block
    [{ let x = 2  x }] is 2 on its own, and [1 + 2] is 3, but [1 + { let x = 2  x }] is 4. *)
Theorem C02_block_refuted :
  exists block, result [block] = Some (VInt 2) /\
    result [e (NBinary OAdd (int 1) (int 2))] = Some (VInt 3) /\
    result [e (NBinary OAdd (int 1) block)] = Some (VInt 4).
Proof. exact (ex_intro _ two_block block_operand). Qed.
Print Assumptions C02_block_refuted.

(** ** C04  The value stack never exceeds the configured size. *)
Theorem C04_stack_size :
  forall (D : Type) m (hst : host D) s, session m hst s ->
    v_sp s <= o_stack_size (v_opts s) /\ length (live s) = v_sp s.
Proof. exact @stack_size. Qed.
Print Assumptions C04_stack_size.

(** Pushing appends the value or, exactly when the stack is full, reports StackOverflow. *)
Theorem C04_overflow_reported :
  forall (D : Type) m (hst : host D) s v, session m hst s ->
    (v_sp s < o_stack_size (v_opts s) /\ exists s', push v s = AOk tt s' /\ live s' = live s ++ [v])
    \/ (v_sp s = o_stack_size (v_opts s) /\ exists sp, push v s = AErr EStackOverflow sp s).
Proof. exact @push_in_session. Qed.
Print Assumptions C04_overflow_reported.

Example C04_example :
  let s := at_step 22 recursion_vm in
  session Release plain_host s /\ v_sp s = 10 /\ o_stack_size (v_opts s) = 50.
Proof. exact recursion_session. Qed.

(** ** C05  Call depth never exceeds the configured size. *)
Theorem C05_call_depth :
  forall (D : Type) m (hst : host D) s, session m hst s -> depth s <= o_call_stack_size (v_opts s).
Proof. exact @call_depth. Qed.
Print Assumptions C05_call_depth.

(** The call that would exceed it fails. *)
Theorem C05_too_deep :
  forall (D : Type) m (hst : host D) s below v args, session m hst s ->
    live s = below ++ v :: args -> depth s = o_call_stack_size (v_opts s) ->
    exists sp, exec m hst (ICallFunction (N.of_nat (length args))) s = AErr EStackOverflow sp s.
Proof. exact @too_deep. Qed.
Print Assumptions C05_too_deep.

Example C05_example :
  (exists sp s, run Release plain_host 2000 recursion_vm = RErr EStackOverflow sp s) /\
  session Release plain_host (at_step 42 recursion_vm) /\
  depth (at_step 42 recursion_vm) = o_call_stack_size (v_opts (at_step 42 recursion_vm)).
Proof. exact recursion_stops. Qed.

(** ** C06  The runtime limit always stops a script: at most 66 further turns of the loop
    after which it has ended in some way. *)
Theorem C06_stops :
  forall (D : Type) m (hst : host D) s, too_late hst s ->
    match loop m hst 66 s with ROut _ => False | _ => True end.
Proof. exact @stops_66. Qed.
Print Assumptions C06_stops.

(** A run that never passes the limit is never stopped for it. *)
Theorem C06_in_time :
  forall (D : Type) m (hst : host D) s0 s, in_time hst s0 -> v_exits s0 = [] ->
    (forall i b, alookup N.eqb i (v_builtins s0) = Some b -> own_errors b) ->
    reach m hst s0 s -> forall l sp s', step m hst s <> SErr (ERuntimeLimit l) sp s'.
Proof. exact @within_limit. Qed.
Print Assumptions C06_in_time.

(** The bound of 64 instructions given in the source is not kept: 65 more can run. *)
Theorem C06_sixty_four_refuted :
  exists (hst : host unit) s, too_late hst s /\ exists s', loop Release hst 65 s = ROut s'.
Proof. exact sixty_five_witness. Qed.
Print Assumptions C06_sixty_four_refuted.

Example C06_example :
  too_late late_host spin_vm /\
  exists sp s, loop Release late_host 66 spin_vm = RErr (ERuntimeLimit 0) sp s.
Proof. exact (conj (proj1 sixty_five) (proj2 (proj2 sixty_five))). Qed.

(** ** C09  A captured variable is one shared cell for its whole life: any history of
    declarations, captures, reads, writes and scope ends reads on the machine what it
    reads when a variable is one cell. *)
Theorem C09_shared_cell :
  forall (D : Type) m (hst : host D) d sc o (ops : list var_op), length ops <= o_stack_size o ->
    vm_var_run m hst (vm_new d sc o) [] ops = Some (var_run no_vars ops).
Proof. exact @shared_cell. Qed.
Print Assumptions C09_shared_cell.

Example C09_example :
  let ops := [Declare (VInt 1); Capture 0; Capture 0; WriteCap 0 (VInt 2); ReadVar 0; LeaveOne;
              Declare (VInt 9); WriteCap 1 (VInt 3); ReadCap 0; ReadVar 0] in
  length ops <= o_stack_size small /\
  var_run no_vars ops = [None; None; None; None; Some (VInt 2); None; None; None; Some (VInt 3); Some (VInt 9)].
Proof. vm_compute. split; [lia|reflexivity]. Qed.

(** ** C10  return is only accepted inside a function: false for a block at top level. *)
Theorem C10_return_refuted :
  exists ast, existsb (fun e => stray (fst e)) ast = true /\ exists sc, compile Release ast = COk sc.
Proof. exact (ex_intro _ stray_return (conj eq_refl stray_compiles)). Qed.
Print Assumptions C10_return_refuted.

(** ** C17  Reading a global returns the last value given to it since [s0], else the value
    it had then; a name without a value is reported. *)
Theorem C17_globals :
  forall (D : Type) m (hst : host D) s0 log s i,
    run_log m hst s0 log s -> next_instr s = Some (ILoadGlobal i) ->
    (forall s', step m hst s = SNext s' ->
       exists v, live s' = live s ++ [v] /\
         match last_write i log with
         | Some w => v = w
         | None => alookup N.eqb i (v_globals s0) = Some v
         end) /\
    (forall e sp s', step m hst s = SErr e sp s' ->
       is_limit e \/ e = EStackOverflow \/ e = EInstructionOverflow \/
       last_write i log = None /\ alookup N.eqb i (v_globals s0) = None /\
       e = ENameUndefined (match pool_get (v_gsyms s) i with Some n => n | None => str "unkown???" end)).
Proof. exact @global_read. Qed.
Print Assumptions C17_globals.

(** Other globals are unaffected: the whole table is what the log says. *)
Theorem C17_table :
  forall (D : Type) m (hst : host D) s0 log s, run_log m hst s0 log s -> forall i,
    alookup N.eqb i (v_globals s) =
      match last_write i log with Some v => Some v | None => alookup N.eqb i (v_globals s0) end.
Proof. exact @globals_log. Qed.
Print Assumptions C17_table.

(** Assigning a global that was never defined is reported. *)
Theorem C17_assign_undefined :
  forall (D : Type) m (hst : host D) s i below v, v_sp s <= length (v_stack s) ->
    live s = below ++ [v] ->
    exec m hst (ISetGlobal i) s =
      match alookup N.eqb i (v_globals s) with
      | Some _ => AOk tt (set_globals (ainsert i v (v_globals s)) s)
      | None => error_1 (ENameUndefined (match pool_get (v_gsyms s) i with Some n => n | None => str "unkown???" end)) s
      end.
Proof. exact @assign_global. Qed.
Print Assumptions C17_assign_undefined.

Example C17_example :
  exists log s, run_log Release plain_host globals_vm log s /\ next_instr s = Some (ILoadGlobal 0%N) /\
    log = [(0%N, VInt 5); (1%N, VInt 6); (0%N, VInt 7)] /\ last_write 0%N log = Some (VInt 7).
Proof. exact globals_witness. Qed.

(** ** C18  Externals: of the values the host sets, the last per name is what the global
    holds when the run starts; a name not declared external is rejected. *)
Theorem C18_host_sets :
  forall (D : Type) m ast sc d o bs l, compile m ast = COk sc -> @names_fit D sc bs ->
    let s := vm_new_with d sc o bs : vm D in
    if forallb (fun nv => check_external sc (fst nv)) l
    then exists s', set_all l s = Ok s' /\ forall n, global_of s' n = registered n l
    else exists n, In n (map fst l) /\ check_external sc n = false /\
                   set_all l s = Err (EExternalNotDefined n).
Proof. exact @host_sets. Qed.
Print Assumptions C18_host_sets.

(** The script's default is used only where there is no value yet. *)
Theorem C18_default :
  forall (D : Type) m (hst : host D) s s' i below v,
    next_instr s = Some (IDefineGlobalDefaulted i) -> live s = below ++ [v] ->
    step m hst s = SNext s' ->
    forall j, alookup N.eqb j (v_globals s') =
      if (j =? i)%N then Some (match alookup N.eqb i (v_globals s) with Some w => w | None => v end)
      else alookup N.eqb j (v_globals s).
Proof. exact @default_step. Qed.
Print Assumptions C18_default.

Example C18_example :
  exists sc, compile Release extern_x = COk sc /\ names_fit (D := unit) sc [] /\
    check_external sc (str "x") = true /\ check_external sc (str "y") = false /\
    runs (vm_new tt sc small) = Some (VInt 1, tt) /\
    exists s', set_all [(str "x", VInt 4); (str "x", VInt 5)] (vm_new tt sc small) = Ok s' /\
               runs s' = Some (VInt 5, tt).
Proof. exact extern_example. Qed.

(** ** C19  Every entered context is exited exactly once: false.  A return inside the block
    skips the exit; a plain builtin used as an inner context runs the outer exit early. *)
Theorem C19_contexts_refuted :
  events return_in_with = Some [Entered 1; Called 2] /\
  events plain_in_with = Some [Entered 1; Called 2; Left_; Called 3].
Proof. exact (conj (proj1 contexts_witness) (proj1 (proj2 contexts_witness))). Qed.
Print Assumptions C19_contexts_refuted.

(** ** C20  Function enter/exit callbacks balance. *)
Theorem C20_callbacks :
  forall (D : Type) m (f g : D -> D) clock k o d sc opts bs s,
    let hst := counting_host f g clock k o in
    let s0 := vm_new_with d sc opts bs in
    (forall n b, In (n, b) (concat bs) -> uncounted b) ->
    reach m hst s0 s ->
    enters (v_data s) + leaves d = leaves (v_data s) + enters d + depth s /\
    forall v s', step m hst s = SDone v s' ->
      enters (v_data s') + leaves d = leaves (v_data s') + enters d.
Proof. exact @callbacks. Qed.
Print Assumptions C20_callbacks.

Example C20_example :
  forall k, k <= 40 -> exists s, loop Release (counting_host (fun x : unit => x) (fun x => x) (fun _ => 0%N) 10 no_oracle) k
      (vm_new_with (tt, (0, 0)) (script_of recursion) small []) = ROut s /\
    enters (v_data s) = depth s.
Proof. exact callbacks_example. Qed.

(** ** C21  Calls check the callee and the argument count. *)
Theorem C21_call :
  forall (D : Type) m (hst : host D) s below c args, session m hst s ->
    live s = below ++ VFn c :: args -> fn_arity (mfn_function c) = N.of_nat (length args) ->
    depth s < o_call_stack_size (v_opts s) ->
    exists s', exec m hst (ICallFunction (N.of_nat (length args))) s = AOk tt s' /\
      v_frames s' = v_frame s :: v_frames s /\ f_fn (v_frame s') = mfn_function c /\
      f_ip (v_frame s') = 0 /\ live s' = live s /\ f_st (v_frame s') = length below /\
      (forall i a, nth_error args i = Some a ->
         nth_error (v_stack s') (f_st (v_frame s') + 1 + i) = Some a).
Proof. exact @call_accepts. Qed.
Print Assumptions C21_call.

Theorem C21_rejected :
  forall (D : Type) m (hst : host D) s below v args, session m hst s ->
    live s = below ++ v :: args -> depth s < o_call_stack_size (v_opts s) ->
    let n := N.of_nat (length args) in
    (forall c, v = VFn c -> fn_arity (mfn_function c) <> n ->
       exists sp, exec m hst (ICallFunction n) s =
         AErr (EMismatchedArity (fn_name (mfn_function c)) (fn_arity (mfn_function c)) n) sp s) /\
    ((forall c, v <> VFn c) ->
       exists sp, exec m hst (ICallFunction n) s = AErr (ENotCallable (ntype mfi v)) sp s).
Proof. exact @call_rejects. Qed.
Print Assumptions C21_rejected.

Example C21_example :
  session Release plain_host (at_step 5 recursion_vm) /\
  (exists below f, live (at_step 5 recursion_vm) = below ++ [VFn f] /\
     fn_arity (mfn_function f) = 0%N) /\
  depth (at_step 5 recursion_vm) < o_call_stack_size (v_opts (at_step 5 recursion_vm)).
Proof. exact call_example. Qed.

(** ** C23  The traceback lists or counts every active call: with at most nine suspended
    calls it lists them all, newest first. *)
Theorem C23_short_partial :
  forall (D : Type) (s : vm D), depth s <= 9 ->
    shown (trace_back s) = active_calls s /\ counted_hidden (trace_back s) = 0.
Proof. exact @trace_short. Qed.
Print Assumptions C23_short_partial.

(** With more it lists the nine newest and the main script, and counts one too few. *)
Theorem C23_long_partial :
  forall (D : Type) (s : vm D), 10 <= depth s ->
    exists middle main, active_calls s = firstn 9 (active_calls s) ++ middle ++ [main] /\
      shown (trace_back s) = firstn 9 (active_calls s) ++ [main] /\
      S (counted_hidden (trace_back s)) = length middle.
Proof. exact @trace_long. Qed.
Print Assumptions C23_long_partial.

Theorem C23_refuted :
  exists s : vm unit, reach Release plain_host recursion_vm s /\
    length (shown (trace_back s)) + counted_hidden (trace_back s) <> length (active_calls s).
Proof. exact trace_miscounts. Qed.
Print Assumptions C23_refuted.

Example C23_example :
  depth (at_step 20 recursion_vm) = 9 /\ depth (at_step 30 recursion_vm) = 14 /\
  active_calls (at_step 6 recursion_vm) = [str "f"; str "f"; str "@__main__"].
Proof. vm_compute. auto. Qed.

(** ** C25  A builtin call runs the builtin of that name or fails. *)
Theorem C25_by_name :
  forall (D : Type) m (hst : host D) ast sc d o bs s n b below args,
    compile m ast = COk sc -> names_fit sc bs ->
    pool_id seqb (sc_globals sc) n = Some b ->
    reach m hst (vm_new_with d sc o bs) s ->
    next_instr s = Some (ICallBuiltin b (N.of_nat (length args))) ->
    live s = below ++ args ->
    match registered n (concat bs) with
    | None => ends_with (fun e => is_limit e \/ e = EUndefinedBuiltin n) (step m hst s)
    | Some (BContext _ _) =>
        ends_with (fun e => is_limit e \/ e = ENotCallable (str "context manager")) (step m hst s)
    | Some (BFn f) =>
        match f (v_data s) args (v_opts s) with
        | (d', Ok r) =>
            (exists s', step m hst s = SNext s' /\ live s' = below ++ [r] /\ v_data s' = d') \/
            ends_with (fun e => is_limit e \/ e = EStackOverflow /\ args = []) (step m hst s)
        | (_, Err e) => ends_with (fun e' => is_limit e' \/ e' = e) (step m hst s)
        | (_, Panic) => step m hst s = SPanic \/ ends_with is_limit (step m hst s)
        end
    end.
Proof. exact @builtin_by_name. Qed.
Print Assumptions C25_by_name.

(** After a script update the names of the old script still decide: @b runs builtin a. *)
Theorem C25_update_refuted :
  exists sc sc' bs, let s := vm_new_with tt sc small bs in
    runs (vm_new_with tt sc' small bs) = Some (VInt 2, tt) /\
    runs (update_script sc' s) = Some (VInt 1, tt).
Proof. exact (ex_intro _ _ (ex_intro _ _ (ex_intro _ _ update_witness))). Qed.
Print Assumptions C25_update_refuted.

Example C25_example :
  exists sc s, compile Release [bcall "b" [int 3; int 4]] = COk sc /\ names_fit sc [one_two] /\
    reach Release plain_host (vm_new_with tt sc small [one_two]) s /\
    exists b, pool_id seqb (sc_globals sc) (str "b") = Some b /\
      next_instr s = Some (ICallBuiltin b 2%N) /\ live s = [] ++ [VInt 3; VInt 4] /\
      exists f, registered (str "b") (concat [one_two]) = Some (BFn f).
Proof. exact by_name_example. Qed.

(** ** C52  A script update keeps host bindings working: false on both counts. *)
Theorem C52_externals_refuted :
  exists sc sc' n, let s := vm_new tt sc small in
    check_external sc' n = true /\
    set_external n (VInt 5) (update_script sc' s) = Err (EExternalNotDefined n).
Proof. exact externals_lost. Qed.
Print Assumptions C52_externals_refuted.

(** The variable captured by the closure in [g] is 7.  After a run that ended normally a
    later script reads 7 through it; after one that failed while the declaring function was
    active it reads something else. *)
Theorem C52_captures_refuted :
  update_then (keeper none_) = Some (VPair (VInt 8) (VInt 7)) /\
  update_then (keeper (bcall "fail" [])) <> Some (VPair (VInt 8) (VInt 7)).
Proof. exact capture_update. Qed.
Print Assumptions C52_captures_refuted.

(** A variable whose scope had ended keeps its value. *)
Theorem C52_closed_partial :
  forall (D : Type) (s : vm D) sc c v, nth_error (v_heap s) c = Some (Closed v) ->
    up_get c (update_script sc s) = AOk v (update_script sc s).
Proof. exact @closed_survives. Qed.
Print Assumptions C52_closed_partial.
