(** C01: running a compiled program agrees with the language definition.

    SpecEval.v holds the definition of the language, by direct evaluation of the syntax
    tree, and [agrees]: what an evaluation says about a run of the machine. *)
From Verif Require Import Base RleVec Pool Float NumText Bytecode Chunk Value Ast Arith VmOps Parse
  Compiler Vm CodeSize SpecParse SpecReady SpecRel SpecVm SpecEval ProofArithEx ExProg ProofEval ProofSim13 ProofEval2 ProofEvalEx ProofParse5 ProofWrap2.

(** Whatever the evaluation comes to within any bound, the machine comes to as well: the
    same value, the same error, the same data of the host and the same globals; or the run
    is stopped by the size of the stack or the time allowed. *)
Theorem C01_run_partial : forall D m (hst : host D) ast sc builtins st s fuel,
  compile m ast = COk sc -> weights ast <= N.to_nat 65535 ->
  placed_program ast -> ordinary_names ast ->
  starts sc builtins st s -> length (p_entries (v_gsyms s)) <= N.to_nat 65536 ->
  stopped_by_limit m hst s \/
  agrees m hst fuel (eval m (h_oracle hst) (v_opts s) (h_enter hst) (h_leave hst) builtins fuel ast st) s.
Proof. exact @whole_program. Qed.
Print Assumptions C01_run_partial.

(** The same for the text of a program: the names in it are identifiers. *)
Theorem C01_text_partial : forall D m (hst : host D) orc parse_fuel text id ast i sc builtins st s fuel,
  parse_code orc parse_fuel text id = PMatch ast i -> compile m ast = COk sc ->
  weights ast <= N.to_nat 65535 -> placed_program ast ->
  starts sc builtins st s -> length (p_entries (v_gsyms s)) <= N.to_nat 65536 ->
  stopped_by_limit m hst s \/
  agrees m hst fuel (eval m (h_oracle hst) (v_opts s) (h_enter hst) (h_leave hst) builtins fuel ast st) s.
Proof.
  exact (fun D m hst orc pf text id ast i sc b st s fuel Hp Hc Hw Hpl =>
           whole_program m hst ast sc b st s fuel Hc Hw Hpl (parse_code_named orc pf text id ast i Hp)).
Qed.
Print Assumptions C01_text_partial.

(** And the other way round: what the machine comes to after [k] instructions is what the
    evaluation says, unless it says nothing. *)
Theorem C01_back_partial : forall D m (hst : host D) ast sc builtins st s k fuel,
  compile m ast = COk sc -> weights ast <= N.to_nat 65535 ->
  placed_program ast -> ordinary_names ast ->
  starts sc builtins st s -> length (p_entries (v_gsyms s)) <= N.to_nat 65536 ->
  k <= fuel ->
  eval m (h_oracle hst) (v_opts s) (h_enter hst) (h_leave hst) builtins fuel ast st = Unspecified \/
  match run m hst k s with
  | RDone w s' => exists v st',
      eval m (h_oracle hst) (v_opts s) (h_enter hst) (h_leave hst) builtins fuel ast st = Got v st' /\
      same_value v w /\ same_state st' s'
  | RErr e _ s' => (e = EStackOverflow \/ exists l, e = ERuntimeLimit l) \/ exists st',
      eval m (h_oracle hst) (v_opts s) (h_enter hst) (h_leave hst) builtins fuel ast st = Failed e st' /\
      same_state st' s'
  | RPanic => False
  | ROut _ => True
  end.
Proof.
  exact (fun D m hst ast sc b st s k fuel H1 H2 H3 H4 H5 H6 Hk =>
           run_back m hst ast sc b st s H1 H2 H3 H4 H5 H6 k fuel Hk).
Qed.
Print Assumptions C01_back_partial.

(** The bound of an evaluation is only a bound: more of it does not change the result. *)
Theorem C01_definition : forall D m orc opts (on_call on_return : D -> D) builtins ast st k k',
  k <= k' -> eval m orc opts on_call on_return builtins k ast st <> More ->
  eval m orc opts on_call on_return builtins k' ast st = eval m orc opts on_call on_return builtins k ast st.
Proof. exact (fun D m orc opts f g b ast st k k' => eval_fuel m orc opts f g b k k' ast st). Qed.
Print Assumptions C01_definition.

(** A program with closures, loops, a switch, contexts and builtins; a global and the
    builtins come from the host. *)
Example C01_example :
  (exists i, parse_code no_oracle 100 walk 0 = PMatch walk_ast i) /\
  compile Release walk_ast = COk (script_of walk_ast) /\ weights walk_ast <= N.to_nat 65535 /\
  placed_program walk_ast /\ ordinary_names walk_ast /\
  starts (script_of walk_ast) (fold_left with_builtin walk_builtins (fun _ => None)) walk_start walk_vm /\
  length (p_entries (v_gsyms walk_vm)) <= N.to_nat 65536 /\
  told (walk_eval 20 walk_ast) = Some (VArray [VInt 8; VInt 1] 32 1000, [0; -1; 2; -1; 4; 8; -1; 6; 11; -1]%Z) /\
  runs walk_vm = Some (VArray [VInt 8; VInt 1] 32 1000, [0; -1; 2; -1; 4; 8; -1; 6; 11; -1]%Z) /\
  walk_eval 3 walk_ast = More.
Proof.
  exact (conj walk_parses (conj walk_compiles (conj walk_weight (conj walk_placed (conj walk_names
    (conj walk_starts (conj walk_room (conj walk_value (conj walk_runs walk_short))))))))).
Qed.
Example C01_other_ends :
  (walk_eval 20 fails_ast = Failed (ENotCallable (str "int")) (put_data [7; 8]%Z walk_start) /\
   exists sp s', run Release plain_host 2000 fails_vm = RErr (ENotCallable (str "int")) sp s' /\ v_data s' = [7; 8]%Z) /\
  walk_eval 50 spin_ast = More.
Proof. exact (conj fails_both spin_more). Qed.

(** Where variables are declared matters: with a value waiting on the stack the code finds
    another one. *)
Theorem C01_refuted : exists text ast i sc (s : vm (list Z)) v st' w s',
  parse_code no_oracle 100 text 0 = PMatch ast i /\ compile Release ast = COk sc /\ s = vm_new [] sc small /\
  eval Release no_oracle small (fun d => d) (fun d => d) (fun _ => None) 5 ast (mkSst [] [] ([] : list Z)) = Got v st' /\
  run Release plain_host 2000 s = RDone w s' /\ ~ same_value v w.
Proof. exact misplaced_refutes. Qed.
Print Assumptions C01_refuted.

(** The bound on the size of a program is needed: the text "0;1;2;...;n" means [n], and the machine
    comes to [n] modulo 65536, since there are no more identifiers for constants. *)
Theorem C01_size : forall D m (d : D) n, (Z.of_nat n < 2 ^ 63)%Z -> exists ast i sc s',
  parse_code no_oracle (2 + length (number_lines 0 n)) (number_lines 0 n) 0 = PMatch ast i /\
  placed_program ast /\ ordinary_names ast /\ compile m ast = COk sc /\
  (forall builtins fuel (st : sst (D := D)),
     eval m no_oracle small (fun d => d) (fun d => d) builtins fuel ast st = Got (VInt (Z.of_nat n)) st) /\
  run m plain_host (2 * S n) (vm_new d sc small) = RDone (VInt (Z.of_nat n mod 65536)) s'.
Proof. exact counting_wraps. Qed.
Print Assumptions C01_size.
Example C01_size_text : number_lines 0 3 = str "0;1;2;3".
Proof. vm_compute. reflexivity. Qed.

Theorem C01_size_refuted : exists text fuel ast i sc (s : vm (list Z)) k v st' w s',
  parse_code no_oracle fuel text 0 = PMatch ast i /\ placed_program ast /\ ordinary_names ast /\
  compile Release ast = COk sc /\ s = vm_new [] sc small /\
  eval Release no_oracle small (fun d => d) (fun d => d) (fun _ => None) 5 ast (mkSst [] [] ([] : list Z)) = Got v st' /\
  run Release plain_host k s = RDone w s' /\ ~ same_value v w.
Proof. exact counting_refutes. Qed.
Print Assumptions C01_size_refuted.
