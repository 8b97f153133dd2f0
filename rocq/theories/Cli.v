(** cli/src/main.rs and the loop of cli/src/repl.rs: the command line program. *)
From Verif Require Import Base RleVec Pool Float NumText Bytecode Chunk Value Ast Arith VmOps Args Parse Builtins
  Compiler Vm Std Console Includes Report Repl.

(** What the texts of errors need of other crates (Report.v). *)
Record printer := mkPrinter {
  p_escape : N -> rstring; p_duration : N -> rstring; p_syntax : nat -> rstring;
  p_draw : list source -> rstring -> span -> rstring -> rstring;
  p_offset_line : rstring -> nat -> option nat; p_nth_line : rstring -> nat -> option rstring }.

Section Cli.
Context (m : mode) (hst : host world) (orc : oracle) (pr : printer)
        (feq : mfn -> mfn -> res bool) (fhash : mfn -> res (list hitem)).

Definition report (c : list source) (e : error) (sp : span) : rstring :=
  error_report (p_escape pr) (p_duration pr) (p_syntax pr) (p_draw pr) c e sp.
Definition traceback (c : list source) (s : vm world) : rstring :=
  trace_text (p_offset_line pr) (p_nth_line pr) (o_whitespace (h_oracle hst)) c (trace_back s).

(** [parse_code] with enough fuel for the text (C66). *)
Definition parse_text (t : rstring) (id : nat) : option (list nodeS) :=
  match parse_code orc (2 + length t) t id with PMatch ast _ => Some ast | _ => None end.
Definition read_text (w : world) (n : rstring) : option rstring :=
  match w_file w n with inl t => Some t | inr _ => None end.
(** The source cache: the texts of the files read. *)
Definition sources (w : world) (names : list rstring) : list source :=
  map (fun n => mkSource n (match read_text w n with Some t => t | None => [] end)) names.

(** The flags that are modelled: --result and the limits.  --disassemble, --timeit and --debug
    are in Main.v.  Left out: the parsing of the command line. *)
Record arguments := mkArguments { a_result : bool; a_limits : options }.

(** How the process ends: with a status, having done things to the world and having written to
    the standard error output; by an abort; or not within the steps given. *)
Inductive ended := Exited (status : N) (w : world) (err : rstring) | Aborted | Running.

(** main.rs:61-180 with a file.  [k] bounds the depth of includes and the run.  The
    offset in the report of a syntax error is not modelled (Includes.v). *)
Definition cli (k : nat) (a : arguments) (name : rstring) (w : world) : ended :=
  match w_file w name with
  | inr e => Exited 1 w (str "Error reading file '" ++ name ++ str "': " ++ e ++ newline)
  | inl text =>
      match parse_with_includes (read_text w) parse_text k name text with
      | IDeep => Running
      | IErr e sp is => Exited 1 (say (report (sources w (i_sources is)) e sp) w) []
      | IOk ast is =>
          match compile m ast with
          | CPanic => Aborted
          | CErr e sp => Exited 1 (say (report (sources w (i_sources is)) e sp) w) []
          | COk sc =>
              match run m hst k (add_builtins_list (stdio m (h_oracle hst) feq fhash) (vm_new w sc (a_limits a))) with
              | ROut _ => Running
              | RPanic => Aborted
              | RDone v s =>
                  match v with
                  | VNone => Exited 0 (v_data s) []
                  | _ => Exited 0 (if a_result a then say (str "RETURNED: " ++ display (h_oracle hst) mfi v ++ newline) (v_data s) else v_data s) []
                  end
              | RErr e sp s =>
                  Exited 1 (say (traceback (sources w (i_sources is)) s ++ report (sources w (i_sources is)) e sp) (v_data s)) []
              end
          end
      end
  end.

(** ** cli/src/repl.rs *)

(** repl.rs:5-17: the machine, the compiler, the sources of the lines so far and the number of
    the next line.  The world is the data of the machine. *)
Record interactive := mkInteractive { n_repl : repl world; n_sources : list source; n_next : nat }.
Definition n_world (r : interactive) : world := v_data (rp_vm (n_repl r)).
Definition n_set_world (w : world) (r : interactive) : interactive :=
  mkInteractive (mkRepl (set_data w (rp_vm (n_repl r))) (rp_compiler (n_repl r)) (rp_builtins (n_repl r))) (n_sources r) (n_next r).
Definition n_say (t : rstring) (r : interactive) : interactive := n_set_world (say t (n_world r)) r.
(** main.rs:84-88, repl.rs:23-34 *)
Definition interactive_new (o : options) (w : world) : interactive :=
  mkInteractive (repl_new w o [stdio m (h_oracle hst) feq fhash]) [] 0.

(** repl.rs:80-94: what is printed of an error. *)
Definition complain (c : list source) (e : error) (sp : span) (r : interactive) : interactive :=
  n_say (traceback c (rp_vm (n_repl r)) ++ report c e sp) r.

(** repl.rs:36-59 and 78-95.  [k] bounds the depth of includes and the run.  The offset in the
    report of a syntax error is not modelled (Includes.v). *)
Definition enter_line (k : nat) (line : rstring) (r : interactive) : option interactive :=
  let name := str "@__exec__" ++ int_text (Z.of_nat (n_next r)) in
  let c := n_sources r ++ [mkSource name line] in
  let here := mkSpan 0 0 (length (n_sources r)) in
  let r := mkInteractive (n_repl r) c (S (n_next r)) in
  match parse_text line (sp_src here) with
  | None => Some (complain c (EUnexpectedToken 0) here r)
  | Some ast =>
      match resolve_includes (read_text (n_world r)) parse_text k ast (mkIState (map src_name c) []) with
      | IDeep => None
      | IErr e sp is =>
          let c := c ++ sources (n_world r) (skipn (length c) (i_sources is)) in
          Some (complain c e sp (mkInteractive (n_repl r) c (n_next r)))
      | IOk ast is =>
          let c := c ++ sources (n_world r) (skipn (length c) (i_sources is)) in
          let (o, p) := execute m hst k (n_repl r) (Some ast) in
          let r := mkInteractive p c (n_next r) in
          match o with
          | ORun (RDone VNone _) => Some r
          | ORun (RDone v _) => Some (n_say (display (h_oracle hst) mfi v ++ newline) r)
          | ORun (RErr e sp _) | OCompile e sp => Some (complain c e sp r)
          | _ => None
          end
      end
  end.

(** repl.rs:64-78: one round of the loop.  [None]: the process aborts, or the line does not end
    within [k] steps. *)
Definition round (k : nat) (r : interactive) : option interactive :=
  let r := n_say (str ">>> ") r in
  match w_in (n_world r) with
  | [] => Some r
  | None :: _ => None
  | Some l :: rest =>
      let r := n_set_world (put_in rest (n_world r)) r in
      match trim_both (o_whitespace (h_oracle hst)) l with
      | [] => Some r
      | line => enter_line k line r
      end
  end.
Fixpoint rounds (k n : nat) (r : interactive) : option interactive :=
  match n with O => Some r | S n => match round k r with Some r' => rounds k n r' | None => None end end.
(** repl.rs:62-63 *)
Definition banner : rstring := str "Quilt REPL" ++ newline.
End Cli.
