(** C02, C11, C13 and C19 of running programs: blocks as operands, [for], [switch] and
    contexts.

    The statements speak about runs of the machine on compiled programs.  What the parts of
    a program come to is taken from the language definition of SpecEval.v ([statements_at],
    [value_at], [body_at] of SpecFlow.v); C01 ties it to the machine. *)
From Verif Require Import Base RleVec Pool Float NumText Bytecode Chunk Value Ast Arith VmOps Parse
  Compiler Vm CodeSize SpecArith SpecParse SpecReady SpecRel SpecVm SpecEval ProofArithEx ExProg ProofFlow ProofEvalEx SpecFlow
  ProofFlowEx.

(** ** C02 *)
(** A block that declares variables may stand as the left operand: the program yields the
    operator applied to the value of the block and that of the right operand.  As a right
    operand it may not, see C02_block_refuted; [placed_program] excludes it there. *)
Theorem C02_left_operand_partial : forall D m (hst : host D) ast sc builtins st s pre op body sb c sp fuel r0 s0 v s1 w s2,
  ast = pre ++ [(NBinary op (NBlock body, sb) c, sp)] ->
  compile m ast = COk sc -> weights ast <= N.to_nat 65535 -> placed_program ast -> ordinary_names ast ->
  starts sc builtins st s -> length (p_entries (v_gsyms s)) <= N.to_nat 65536 ->
  statements_at m hst (v_opts s) builtins fuel pre st = Got r0 s0 ->
  body_at m hst (v_opts s) builtins fuel body (snd r0) s0 = Got v s1 ->
  value_at m hst (v_opts s) builtins fuel (fst c) (snd r0) s1 = Got w s2 ->
  stopped_by_limit m hst s \/ ends_with m hst fuel (applied m hst (v_opts s) op v w s2) s.
Proof.
  exact (fun D m hst ast sc b st s pre op body sb c sp fuel r0 s0 v s1 w s2 E H1 H2 H3 H4 H5 H6 Hp Hb Hc =>
    binary_run m hst ast sc b st s pre op (NBlock body, sb) c sp fuel r0 s0 v s1 w s2 E H1 H2 H3 H4 H5 H6 Hp
      (eq_trans (block_value m hst b s body (snd r0) s0 fuel) Hb) Hc).
Qed.
Print Assumptions C02_left_operand_partial.
Example C02_left_example :
  fine left_ast (machine left_ast) /\ starts (script_of left_ast) walk_map empty_start (machine left_ast) /\
  (let '(pre, o, body, c, sb, sp) := left_parts in
   left_ast = pre ++ [(NBinary o (NBlock body, sb) c, sp)] /\ length body = 3) /\
  (let '(pre, o, body, c, sb, sp) := left_parts in
   exists r0 s0 s1 s2, statements_at Release plain_host small walk_map 5 pre empty_start = Got r0 s0 /\
    body_at Release plain_host small walk_map 5 body (snd r0) s0 = Got (VInt 9) s1 /\
    sx (fst c) (snd r0) s1 = Got (VInt 2) s2 /\ applied Release plain_host small o (VInt 9) (VInt 2) s2 = Got (VInt 18) s2) /\
  runs (machine left_ast) = Some (VInt 18, [2]%Z).
Proof.
  split; [exact left_fine|split; [exact (machine_starts left_ast)|split; [exact left_shape|split; [exact left_values|exact left_result]]]].
Qed.

(** ** C13 *)
(** A program that ends in a switch: if the subject comes to [v] and [o] is the body of the
    first case whose expression equals it, or nothing, then the run goes on with that body,
    or the default one, or yields none. *)
Theorem C13_switch_partial : forall D m (hst : host D) ast sc builtins st s pre e cs default sp fuel r0 s0 v s1 o s2,
  ast = pre ++ [(NSwitch e cs default, sp)] ->
  compile m ast = COk sc -> weights ast <= N.to_nat 65535 -> placed_program ast -> ordinary_names ast ->
  starts sc builtins st s -> length (p_entries (v_gsyms s)) <= N.to_nat 65536 ->
  statements_at m hst (v_opts s) builtins fuel pre st = Got r0 s0 ->
  value_at m hst (v_opts s) builtins fuel (fst e) (snd r0) s0 = Got v s1 ->
  choice (fun n s' => value_at m hst (v_opts s) builtins fuel n (snd r0) s') v cs s1 o s2 ->
  stopped_by_limit m hst s \/
  ends_with m hst fuel (option_at m hst (v_opts s) builtins fuel (chosen o default) (snd r0) s2) s.
Proof. exact @switch_run. Qed.
Print Assumptions C13_switch_partial.
Example C13_example :
  fine switch_ast (machine switch_ast) /\ starts (script_of switch_ast) walk_map empty_start (machine switch_ast) /\
  (let '(pre, e, cs, o, sp) := switch_parts in
   switch_ast = pre ++ [(NSwitch e cs o, sp)] /\ length cs = 3 /\ o <> None) /\
  (let '(pre, e, cs, o, sp) := switch_parts in
   exists r0 s0 s1 c s2, statements_at Release plain_host small walk_map 5 pre empty_start = Got r0 s0 /\
    sx (fst e) (snd r0) s0 = Got (VInt 3) s1 /\
    choice (fun n s => sx n (snd r0) s) (VInt 3) cs s1 (Some c) s2 /\ ss_data s2 = [1; 3]%Z /\
    (exists s3, body_at Release plain_host small walk_map 5 c (snd r0) s2 = Got (VInt 30) s3 /\ ss_data s3 = [1; 3; 30]%Z)) /\
  runs (machine switch_ast) = Some (VInt 30, [1; 3; 30]%Z).
Proof.
  split; [exact switch_fine|split; [exact (machine_starts switch_ast)|split; [exact switch_shape|split; [exact switch_choice|exact switch_result]]]].
Qed.

(** ** C11 *)
(** A program that ends in a for loop, with one or several variables: if what it goes over
    is a value with the elements [l] ([visits], SpecArith.v), the run goes on with the body
    once for each of them, in order, and yields what the body yields last. *)
Theorem C11_loop_partial : forall D m (hst : host D) ast sc builtins st s pre n x i body sp fuel r0 s0 it s1 l,
  ast = pre ++ [(n, sp)] ->
  (exists y, n = NFor y i body /\ x = VarDecl y) \/ (exists ys, n = NMultiFor ys i body /\ x = VarMulti ys) ->
  compile m ast = COk sc -> weights ast <= N.to_nat 65535 -> placed_program ast -> ordinary_names ast ->
  starts sc builtins st s -> length (p_entries (v_gsyms s)) <= N.to_nat 65536 ->
  statements_at m hst (v_opts s) builtins fuel pre st = Got r0 s0 ->
  value_at m hst (v_opts s) builtins fuel (fst i) (snd r0) s0 = Got it s1 ->
  value_wf it -> visits it = Some l -> length l < fuel -> (m = Debug -> (Z.of_nat (length l) < 2 ^ 31)%Z) ->
  stopped_by_limit m hst s \/
  ends_with m hst fuel (each (body_with m hst (v_opts s) builtins fuel x body (snd r0)) l VNone s1) s.
Proof. exact @for_run. Qed.
Print Assumptions C11_loop_partial.
Example C11_loop_example :
  fine for_ast2 (machine for_ast2) /\ starts (script_of for_ast2) walk_map empty_start (machine for_ast2) /\
  (let '(xs, i, b, sp) := for_parts in for_ast2 = [] ++ [(NMultiFor xs i b, sp)] /\ length xs = 2) /\
  (let '(xs, i, b, sp) := for_parts in
   exists s0 it s1 l, statements_at Release plain_host small walk_map 5 [] empty_start = Got (None, []) s0 /\
    sx (fst i) [] s0 = Got it s1 /\ value_wf it /\ visits it = Some l /\ length l = 3 /\
    (exists s2, each (body_with Release plain_host small walk_map 5 (VarMulti xs) b []) l VNone s1 = Got (VInt 56) s2 /\
                ss_data s2 = [12; 34; 56]%Z)) /\
  runs (machine for_ast2) = Some (VInt 56, [12; 34; 56]%Z).
Proof.
  split; [exact for_fine|split; [exact (machine_starts for_ast2)|split; [exact for_shape|split; [exact for_elements|exact for_result]]]].
Qed.

(** ** C19 *)
(** If the host writes down which contexts are entered and left, what a run adds to that
    record is properly nested; a run that fails may leave contexts that were entered.  The
    language definition says nothing about a [return] out of a context: there the claim
    fails, see C19_contexts_refuted. *)
Theorem C19_nested_partial : forall D m (hst : host D) ast sc builtins st s (events : D -> list event),
  compile m ast = COk sc -> weights ast <= N.to_nat 65535 -> placed_program ast -> ordinary_names ast ->
  starts sc builtins st s -> length (p_entries (v_gsyms s)) <= N.to_nat 65536 ->
  (forall d, events (h_enter hst d) = events d) -> (forall d, events (h_leave hst d) = events d) ->
  (forall x f, builtins x = Some f -> writes events x f) ->
  forall k fuel, k <= fuel ->
  eval m (h_oracle hst) (v_opts s) (h_enter hst) (h_leave hst) builtins fuel ast st <> Unspecified ->
  match run m hst k s with
  | RDone _ s' => exists w, events (v_data s') = events (v_data s) ++ w /\ nested w
  | RErr e _ s' => (e = EStackOverflow \/ exists l, e = ERuntimeLimit l) \/
                   exists w, events (v_data s') = events (v_data s) ++ w /\ inside_some w
  | _ => True
  end.
Proof. exact @contexts_run. Qed.
Print Assumptions C19_nested_partial.
Example C19_nested_example :
  fine nest_ast (nest_machine nest_ast) /\ starts (script_of nest_ast) nest_map nest_start (nest_machine nest_ast) /\
  (forall x f, nest_map x = Some f -> writes (fun d => d) x f) /\
  eval Release no_oracle small (fun d => d) (fun d => d) nest_map 2000 nest_ast nest_start <> Unspecified /\
  option_map snd (runs (nest_machine nest_ast)) = Some nest_trace /\
  match run Release plain_host 2000 (nest_machine broken_ast) with
  | RErr e _ s => e = ENameUndefined (str "x") /\ v_data s = [Entered outer; Entered inner; Left inner; Entered inner]
  | _ => False
  end.
Proof.
  split; [exact nest_fine|split; [exact (nest_starts nest_ast)|split; [exact nest_writes|split; [exact nest_specified|]]]].
  split; [exact nest_result|exact broken_result].
Qed.
