(** The data of the host (C95), and the flags of the command line program (C96). *)
From Verif Require Import Base RleVec Pool Vecc Float NumText Bytecode Chunk Value Ast Arith VmOps Args Parse Builtins
  Compiler Vm Std Console Includes Report Repl Lines Disasm Listing Cli Main SpecData SpecMain ProofData ProofMain
  ProofConsoleEx ProofCliEx ProofMainEx ExProg.

(** ** C95  A program sees the data of the host only through the answers of the builtins.  Two
    hosts, even with data of different types, whose builtins have the same names and always give
    the same answers: whatever is done with the machines (runs, globals, externals, new scripts),
    the values, errors, positions and tracebacks seen are the same, and so are all the globals at
    the end. *)
Theorem C95_data : forall D E (like : D -> E -> Prop) m h h', same_host like h h' ->
  forall us d e sc o bs bs', like d e -> Forall2 (same_builtins like) bs bs' ->
  let one := use_all m h us (vm_new_with d sc o bs) in
  let other := use_all m h' us (vm_new_with e sc o bs') in
  fst one = fst other /\
  match snd one, snd other with
  | Some s, Some t => same_machine like s t
  | None, None => True
  | _, _ => False
  end.
Proof. exact (fun D E like m h h' HH us d e sc o bs bs' => uses_same like m h h' HH us d e sc o bs bs'). Qed.
Print Assumptions C95_data.
(** In particular what was printed before does not matter to a program of the command line: it
    does the same, and prints the same behind it. *)
Theorem C95_output : forall m (hst : host world) feq fhash front us w sc o,
  (forall w, h_enter hst w = w) -> (forall w, h_leave hst w = w) ->
  let start w := add_builtins_list (stdio m (h_oracle hst) feq fhash) (vm_new w sc o) in
  fst (use_all m hst us (start w)) = fst (use_all m hst us (start (say front w))) /\
  match snd (use_all m hst us (start w)), snd (use_all m hst us (start (say front w))) with
  | Some s, Some t => exists own, w_out (v_data s) = w_out w ++ own /\ v_data t = put_out (w_out w ++ front ++ own) (v_data s)
  | None, None => True
  | _, _ => False
  end.
Proof. exact printed_same. Qed.
Print Assumptions C95_output.
(** One host counts the calls of @note, the other one keeps what was noted. *)
Example C95_example :
  same_host counts counting keeping /\ counts 0 [] /\ Forall2 (same_builtins counts) [[count_note]] [[keep_note]] /\
  fst (use_all Release counting note_uses (vm_new_with 0 note_script small [[count_note]])) =
    [SawValue (VInt 2); SawDone; SawDone; SawValue (VInt 4)] /\
  option_map v_data (snd (use_all Release keeping note_uses (vm_new_with [] note_script small [[keep_note]]))) =
    Some [VInt 6; VInt 7; VInt 4; VInt 5].
Proof. split; [exact note_hosts|]. split; [reflexivity|]. split; [exact note_same|]. split; vm_compute; reflexivity. Qed.

(** ** C96  The flags --disassemble, --debug and --timeit print more and change nothing else: not
    the exit status, the lines read, the error output, or what the program and the report of its
    end print.  The disassembly and the first times come before all that, the time of the run
    comes between the output of the program and the report of its end. *)
Theorem C96_flags : forall m (hst : host world) orc pr elapsed feq fhash,
  (forall w, h_enter hst w = w) -> (forall w, h_leave hst w = w) ->
  forall k g a name w text ast is sc out, w_file w name = inl text ->
  parse_with_includes (read_text w) (parse_text orc) k name text = IOk ast is -> compile m ast = COk sc ->
  let files := sources w (i_sources is) in
  (g_disassemble g = true -> disassemble (line_of pr files) k sc = Some (Ok out)) ->
  let timed l := l ++ str ": " ++ elapsed l ++ [10%N] in
  let front := (if g_debug g then timed (str "PARSED") ++ timed (str "COMPILED") else []) ++
    (if g_disassemble g then (if g_debug g then timed (str "DISASSEMBLED") else []) ++ printed_listing hst pr files out else []) in
  let took := if g_timeit g then timed (str "TOOK") else [] in
  let all := quilt m hst orc pr elapsed feq fhash k g a name w in
  match cli m hst orc pr feq fhash k a name w with
  | Exited status w' err => exists own last,
      w_out w' = w_out w ++ own ++ last /\
      last = match run m hst k (add_builtins_list (stdio m (h_oracle hst) feq fhash) (vm_new w sc (a_limits a))) with
             | RDone VNone _ => []
             | RDone v _ => if a_result a then str "RETURNED: " ++ display (h_oracle hst) mfi v ++ [10%N] else []
             | RErr e sp s => traceback hst pr files s ++ report pr files e sp
             | _ => []
             end /\
      all = Exited status (put_out (w_out w ++ front ++ own ++ took ++ last) w') err
  | Aborted => all = Aborted
  | Running => all = Running
  end.
Proof.
  intros m hst orc pr elapsed feq fhash H1 H2 k g a name w text ast is sc out HF HI HC files HD timed front took all.
  pose proof (flags_run m hst orc pr elapsed feq fhash H1 H2 k g a name w text ast is sc out HF HI HC HD) as H. cbv zeta in H.
  destruct (cli m hst orc pr feq fhash k a name w) as [st w' err| |]; [|exact H|exact H].
  destruct H as (own & H3 & H4). exists own. eexists. split; [exact H3|]. split; [reflexivity|]. exact H4.
Qed.
Print Assumptions C96_flags.
(** A file that cannot be read, is no program or does not compile: only the time of a parse that
    went well is printed more. *)
Theorem C96_refused : forall m (hst : host world) orc pr elapsed feq fhash k g a name w,
  let all := quilt m hst orc pr elapsed feq fhash k g a name w in
  let bare := cli m hst orc pr feq fhash k a name w in
  match w_file w name with
  | inr _ => all = bare
  | inl text =>
      match parse_with_includes (read_text w) (parse_text orc) k name text with
      | IErr _ _ _ | IDeep => all = bare
      | IOk ast is => forall e sp, compile m ast = CErr e sp ->
          let r := report pr (sources w (i_sources is)) e sp in
          bare = Exited 1 (say r w) [] /\
          all = Exited 1 (say ((if g_debug g then str "PARSED: " ++ elapsed (str "PARSED") ++ [10%N] else []) ++ r) w) []
      end
  end.
Proof. exact flags_early. Qed.
Print Assumptions C96_refused.
(** Without the flags the program is the one of C88. *)
Theorem C96_none : forall m (hst : host world) orc pr elapsed feq fhash k a name w,
  quilt m hst orc pr elapsed feq fhash k (mkFlags false false false) a name w = cli m hst orc pr feq fhash k a name w.
Proof. exact quilt_plain. Qed.
Print Assumptions C96_none.
(** The limits: those named on the command line (the time in milliseconds), and for the others
    no time limit that could be reached within 500 years, 500000 stack slots, 1000 calls and 256 KiB. *)
Theorem C96_limits : forall c n x, let o := chosen c in
  match ch_max_runtime c with Some ms => o_max_runtime o = (ms * 1000000)%N | None => (500 * 366 * 24 * 3600 * 1000000000 < o_max_runtime o)%N end /\
  (ch_stack_size c = Some n -> o_stack_size o = n) /\ (ch_stack_size c = None -> N.of_nat (o_stack_size o) = 500000%N) /\
  (ch_call_stack_size c = Some n -> o_call_stack_size o = n) /\ (ch_call_stack_size c = None -> N.of_nat (o_call_stack_size o) = 1000%N) /\
  (ch_string_max c = Some x -> o_string_max o = x) /\ (ch_string_max c = None -> o_string_max o = 262144%N) /\
  (ch_array_max c = Some x -> o_array_max o = x) /\ (ch_array_max c = None -> o_array_max o = 262144%N).
Proof. exact limits_chosen. Qed.
Print Assumptions C96_limits.
Example C96_example :
  (forall w, h_enter talk_host w = w) /\ (forall w, h_leave talk_host w = w) /\
  (exists text ast is sc out, w_file tiny_world (str "a") = inl text /\
     parse_with_includes (read_text tiny_world) (parse_text talk_oracle) 80 (str "a") text = IOk ast is /\ compile Release ast = COk sc /\
     disassemble (line_of plain_printer (sources tiny_world (i_sources is))) 80 sc = Some (Ok out)) /\
  shown_by (tiny no_flags) = Some (0%N, str "$ 1 RETURNED: 7" ++ [10%N], [], []) /\
  shown_by (tiny (mkFlags true true true)) = Some (0%N, str
"$ PARSED: 1ms
COMPILED: 1ms
DISASSEMBLED: 1ms
Disassembly of <func @__main__, file ""a"", line 1>
1          0    LoadConst       0    (1)
           3    CallBuiltin     1    (<builtin print>)
           7    Pop                  
           8    LoadConst       1    (7)
           11   Return               

1 TOOK: 1ms
RETURNED: 7
", [], []).
Proof.
  split; [reflexivity|]. split; [reflexivity|]. split; [exact tiny_reads|]. split; [exact tiny_bare|exact tiny_all].
Qed.
