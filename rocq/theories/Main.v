(** cli/src/main.rs with all its flags: Cli.v covers --result and the limits; here also
    --disassemble, --debug and --timeit, and the limits named on the command line. *)
From Verif Require Import Base RleVec Pool Float NumText Bytecode Chunk Value Ast Arith VmOps Args Parse Builtins
  Compiler Vm Std Console Includes Report Repl Lines Disasm Listing Cli.

(** main.rs:21-37 *)
Record flags := mkFlags { g_disassemble : bool; g_debug : bool; g_timeit : bool }.
Definition no_flags : flags := mkFlags false false false.

(** main.rs:47-60: the limits named on the command line; the runtime in milliseconds. *)
Record choices := mkChoices {
  ch_max_runtime : option N; ch_stack_size : option nat; ch_call_stack_size : option nat;
  ch_string_max : option N; ch_array_max : option N }.
(** vm.rs:55-65.  The runtime is in nanoseconds; Duration::MAX is 2^64 - 1 seconds and
    999999999 nanoseconds. *)
Definition default_options : options :=
  mkOptions ((2 ^ 64 - 1) * 10 ^ 9 + 999999999) (N.to_nat 500000) (N.to_nat 1000) (1024 * 256) (1024 * 256).
Definition or_else {A} (c : option A) (d : A) : A := match c with Some x => x | None => d end.
(** main.rs:66-86 *)
Definition chosen (c : choices) : options :=
  mkOptions (match ch_max_runtime c with Some ms => ms * 10 ^ 6 | None => o_max_runtime default_options end)%N
            (or_else (ch_stack_size c) (o_stack_size default_options))
            (or_else (ch_call_stack_size c) (o_call_stack_size default_options))
            (or_else (ch_string_max c) (o_string_max default_options))
            (or_else (ch_array_max c) (o_array_max default_options)).

Section Main.
(** [elapsed l] is the time printed behind the label [l]. *)
Context (m : mode) (hst : host world) (orc : oracle) (pr : printer) (elapsed : rstring -> rstring)
        (feq : mfn -> mfn -> res bool) (fhash : mfn -> res (list hitem)).

(** [println!("LABEL: {:?}", elapsed)] *)
Definition timing (label : rstring) : rstring := label ++ str ": " ++ elapsed label ++ newline.
Definition say_if (b : bool) (t : rstring) (w : world) : world := if b then say t w else w.

(** lib.rs:20-25, 36-46 of the disassembler: lines and names from the sources. *)
Definition line_of (c : list source) : span -> option nat := get_lineno (p_offset_line pr) (map src_text c).
Definition file_of (c : list source) (k : nat) : option rstring :=
  match nth_error c k with Some s => Some (src_name s) | None => None end.
Definition printed_listing (c : list source) (out : list listing) : rstring :=
  output_text (h_oracle hst) (debug_text (p_escape pr)) (line_of c) (file_of c) out.

(** main.rs:146-179: the run, and what is printed after it. *)
Definition finish (k : nat) (g : flags) (a : arguments) (c : list source) (sc : script) (w : world) : ended :=
  match run m hst k (add_builtins_list (stdio m (h_oracle hst) feq fhash) (vm_new w sc (a_limits a))) with
  | ROut _ => Running
  | RPanic => Aborted
  | RDone v s =>
      let w := say_if (g_timeit g) (timing (str "TOOK")) (v_data s) in
      match v with
      | VNone => Exited 0 w []
      | _ => Exited 0 (say_if (a_result a) (str "RETURNED: " ++ display (h_oracle hst) mfi v ++ newline) w) []
      end
  | RErr e sp s =>
      let w := say_if (g_timeit g) (timing (str "TOOK")) (v_data s) in
      Exited 1 (say (traceback hst pr c s ++ report pr c e sp) w) []
  end.

(** main.rs:94-179 with a file.  [k] bounds the depth of includes, of nested functions in the
    disassembler, and the run. *)
Definition quilt (k : nat) (g : flags) (a : arguments) (name : rstring) (w : world) : ended :=
  match w_file w name with
  | inr e => Exited 1 w (str "Error reading file '" ++ name ++ str "': " ++ e ++ newline)
  | inl text =>
      match parse_with_includes (read_text w) (parse_text orc) k name text with
      | IDeep => Running
      | IErr e sp is => Exited 1 (say (report pr (sources w (i_sources is)) e sp) w) []
      | IOk ast is =>
          let c := sources w (i_sources is) in
          let w := say_if (g_debug g) (timing (str "PARSED")) w in
          match compile m ast with
          | CPanic => Aborted
          | CErr e sp => Exited 1 (say (report pr c e sp) w) []
          | COk sc =>
              let w := say_if (g_debug g) (timing (str "COMPILED")) w in
              if g_disassemble g then
                let w := say_if (g_debug g) (timing (str "DISASSEMBLED")) w in
                match disassemble (line_of c) k sc with
                | Some (Ok out) => finish k g a c sc (say (printed_listing c out) w)
                | Some _ => Aborted
                | None => Running
                end
              else finish k g a c sc w
          end
      end
  end.
End Main.
