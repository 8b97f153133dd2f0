(** The command line program, its tracebacks and messages, and its interactive loop (C88-C91).
    The program is [cli] and [rounds] of Cli.v: what they leave of the world (the output, the
    lines still to be read) and the exit status. *)
From Verif Require Import Base RleVec Pool Vecc Float NumText Bytecode Chunk Value Ast Arith VmOps Args Parse Builtins
  Compiler Vm Std Console Includes Report Repl Cli CodeSize SpecArith SpecStatic SpecLib SpecParse SpecReady SpecRel SpecVm SpecEval SpecStd
  SpecLines SpecReport ProofStatic2 ProofLib ProofLines ProofReport ProofReport2 ProofReport3 ProofCli ProofCli2 ProofText ProofConsoleEx
  ProofCliEx PropStatic PropLib SpecText SpecConsole ExProg.

(** ** C88  A file that reads and compiles: the status is 0 if the program ends and 1 if it
    fails, what it printed comes first, and then the result (if asked for) or the traceback and
    the error; as long as the program goes on so does the process.  (Partial as C01 is: programs
    of at most 65535 weights, and no limit is hit.) *)
Theorem C88_ends_partial : forall m (hst : host world) orc pr feq fhash a name w text ast is depth sc fuel,
  let s := add_builtins_list (stdio m (h_oracle hst) feq fhash) (vm_new w sc (a_limits a)) in
  let run_file k := cli m hst orc pr feq fhash k a name w in
  let files := sources w (i_sources is) in
  w_file w name = inl text -> parse_with_includes (read_text w) (parse_text orc) depth name text = IOk ast is ->
  compile m ast = COk sc -> weights ast <= N.to_nat 65535 -> placed_program ast ->
  length (p_entries (v_gsyms s)) <= N.to_nat 65536 ->
  stopped_by_limit m hst s \/
  match eval m (h_oracle hst) (a_limits a) (h_enter hst) (h_leave hst) (stdio_known m (h_oracle hst)) fuel ast (mkSst [] [] w) with
  | Got v st => exists k val, same_value v val /\
      run_file k = Exited 0 (match val with
                             | VNone => ss_data st
                             | _ => if a_result a then say (str "RETURNED: " ++ display (h_oracle hst) mfi val ++ [10%N]) (ss_data st) else ss_data st
                             end) []
  | Failed e st => exists k sp t, run_file k = Exited 1 (say (traceback hst pr files t ++ report pr files e sp) (ss_data st)) []
  | More => forall k, k <= fuel -> run_file k = Running
  | Unspecified => True
  | Returned _ _ => False
  end.
Proof.
  exact (fun m hst orc pr feq fhash a name w text ast is depth sc fuel HF HI HC HW HP HR =>
    cli_ends m hst orc pr feq fhash a name w text ast is depth HF HI sc HC HW HP HR fuel).
Qed.
Print Assumptions C88_ends_partial.
(** The result is shown as written in C69. *)
Theorem C88_result : forall o (v : value), value_wf v -> written (o_f64_text o) v (display o mfi v).
Proof. exact written_display. Qed.
Print Assumptions C88_result.
(** A file that cannot be read, is no program, or does not compile: the status is 1, a message is
    printed, and nothing of the program is run. *)
Theorem C88_refused : forall m (hst : host world) orc pr feq fhash a name w,
  let run_file k := cli m hst orc pr feq fhash k a name w in
  match w_file w name with
  | inr e => forall k, run_file k = Exited 1 w (str "Error reading file '" ++ name ++ str "': " ++ e ++ [10%N])
  | inl text =>
      (parse_text orc text 0 = None -> forall k, exists e sp, run_file k = Exited 1 (say (report pr (sources w [name]) e sp) w) []) /\
      (forall ast is depth e sp, parse_with_includes (read_text w) (parse_text orc) depth name text = IOk ast is ->
         compile m ast = CErr e sp -> forall k, depth <= k -> run_file k = Exited 1 (say (report pr (sources w (i_sources is)) e sp) w) [])
  end.
Proof.
  intros m hst orc pr feq fhash a name w run_file. unfold run_file. destruct (w_file w name) as [text|e] eqn:E.
  - split.
    + intros H k. unfold cli. rewrite E. unfold parse_with_includes. rewrite H. eauto.
    + intros ast is depth e sp HI HC k Hk. exact (cli_refused m hst orc pr feq fhash a name w text ast is depth E HI e sp k HC Hk).
  - intros k. unfold cli. rewrite E. reflexivity.
Qed.
Print Assumptions C88_refused.
(** However the process ends: the status is 0 or 1, what was printed before stays in front, lines
    are read in order, files are not changed, and nothing but status 1 comes with a message on
    the error output. *)
Theorem C88_kept : forall m (hst : host world) orc pr feq fhash,
  (forall w, after w (h_enter hst w)) -> (forall w, after w (h_leave hst w)) ->
  forall k a name w status w' err, cli m hst orc pr feq fhash k a name w = Exited status w' err ->
  after w w' /\ (status = 0 \/ status = 1)%N /\ (status = 0%N -> err = []).
Proof. exact cli_after. Qed.
Print Assumptions C88_kept.
(** A process that has ended stays so. *)
Theorem C88_settled : forall m (hst : host world) orc pr feq fhash a name w k j,
  cli m hst orc pr feq fhash k a name w <> Running -> k <= j ->
  cli m hst orc pr feq fhash j a name w = cli m hst orc pr feq fhash k a name w.
Proof. exact cli_settled. Qed.
Print Assumptions C88_settled.
Example C88_example :
  w_file shop_world main_file = inl shop_text /\
  parse_with_includes (read_text shop_world) (parse_text talk_oracle) 5 main_file shop_text = IOk shop_ast shop_state /\
  compile Release shop_ast = COk (script_of shop_ast) /\ weights shop_ast <= N.to_nat 65535 /\ placed_program shop_ast /\
  length (p_entries (v_gsyms shop_vm)) <= N.to_nat 65536 /\
  shop_eval 30 = Some (VInt 36, str "how many? 3 " ++ [10%N]) /\
  shown_by (shop 500 main_file) =
    Some (0%N, str "how many? 3 " ++ [10%N] ++ str "RETURNED: 36" ++ [10%N], [Some (str "left")], []) /\
  shown_by (shop 500 (str "scope")) = Some (1%N, str "SyntaxError: return outside of function" ++ [10%N], [Some (str "xyz"); Some (str "left")], []) /\
  shown_by (shop 500 (str "nope")) = Some (1%N, [], [Some (str "xyz"); Some (str "left")], str "Error reading file 'nope': no such file" ++ [10%N]).
Proof.
  split; [exact (proj1 shop_reads)|]. split; [exact (proj2 shop_reads)|]. split; [exact (proj1 shop_compiles)|]. split; [exact shop_weight|].
  split; [exact shop_placed|]. split; [exact shop_room|]. split; [exact shop_evals|]. split; [exact shop_runs|].
  split; [exact (proj1 refused_runs)|exact (proj2 (proj2 refused_runs))].
Qed.

(** ** C89  A traceback entry of a call in a text of ASCII characters whose lines end with line
    feeds shows the name of the file, the function and the line of the text the position is in,
    without the white space around it.  (Partial: the line number is one less than the line's.
    Assumed: what the crate that draws reports says of lines.) *)
Theorem C89_entry_partial : forall offset_line nth_line whitespace files src f sp line,
  line_table offset_line -> line_lister whitespace nth_line ->
  nth_error files (sp_src sp) = Some src -> ascii (src_text src) -> only_lf (src_text src) ->
  line_at (src_text src) (sp_start sp) line -> starts_with_dots f = false ->
  exists t shown, is_line (src_text src) (pred line) t /\ indented whitespace t shown /\
    trace_entry offset_line nth_line whitespace files (TFrame f sp) = call_text (src_name src) (pred line) f shown.
Proof. exact entry_shows. Qed.
Print Assumptions C89_entry_partial.
(** Refuted: the number is the line's number, counted from 1. *)
Theorem C89_line_refuted : forall offset_line nth_line whitespace files src f sp line,
  line_table offset_line -> line_lister whitespace nth_line ->
  nth_error files (sp_src sp) = Some src -> ascii (src_text src) -> only_lf (src_text src) ->
  line_at (src_text src) (sp_start sp) line -> starts_with_dots f = false ->
  forall shown, trace_entry offset_line nth_line whitespace files (TFrame f sp) <> call_text (src_name src) line f shown.
Proof. exact entry_line_wrong. Qed.
Print Assumptions C89_line_refuted.
Example C89_example :
  line_table simple_table /\ line_lister (fun c => c =? 32)%N simple_line /\
  ascii broken_text /\ only_lf broken_text /\ line_at broken_text 18 2 /\
  trace_entry simple_table simple_line (fun c => c =? 32)%N [mkSource (str "broken") broken_text] (TFrame (str "f") (mkSpan 18 26 0)) =
    call_text (str "broken") 1 (str "f") (str "a + none") /\
  shown_by (shop 500 (str "broken")) =
    Some (1%N, str "1 Traceback (most recent call last):" ++ [10%N] ++
               call_text (str "broken") 4 (str "@__main__") (str "f(2)") ++ call_text (str "broken") 1 (str "@__lambda__") (str "a + none") ++
               str "TypeError: unsupported binary operation `+` on `int` and `none`" ++ [10%N], [Some (str "xyz"); Some (str "left")], []).
Proof.
  split; [exact simple_ok|]. split; [apply simple_line_ok|].
  split; [repeat constructor|]. split; [repeat constructor; cbn; intros H; repeat destruct H as [H|H]; try discriminate; exact H|].
  split; [exists (firstn 18 broken_text); split; [exists 97%N, (skipn 19 broken_text); split; reflexivity|reflexivity]|].
  split; [reflexivity|exact broken_runs].
Qed.

(** ** C90  Two different errors never have the same text: a message tells what went wrong, and
    with which names, types and numbers.  ([settled]: names are printable and the names of types
    have no backtick.) *)
Theorem C90_distinct : forall escape duration_text syntax_text e e', settled e -> settled e' ->
  error_text escape duration_text syntax_text e = error_text escape duration_text syntax_text e' -> e = e'.
Proof. exact texts_differ. Qed.
Print Assumptions C90_distinct.
(** The words of every message, and the title it is reported under. *)
Theorem C90_words : forall escape duration_text syntax_text e, settled e ->
  filled (snd (fst (message e))) (snd (message e)) (error_text escape duration_text syntax_text e).
Proof. exact texts_filled. Qed.
Print Assumptions C90_words.
Theorem C90_title : forall escape duration_text syntax_text draw files e sp,
  error_report escape duration_text syntax_text draw files e sp =
  draw files (fst (fst (message e))) sp (error_text escape duration_text syntax_text e).
Proof. intros. unfold error_report. rewrite titles. reflexivity. Qed.
Print Assumptions C90_title.
Example C90_words_example :
  settled (EInsufficientValues 3 12) /\ message (EInsufficientValues 3 12) =
    (str "InsufficientValues", str "TypeError: cannot unpack a {} item value into {} values", [ANumber 3; ANumber 12]) /\
  error_text (fun c => [c]) (fun _ => []) (fun _ => []) (EInsufficientValues 3 12) = str "TypeError: cannot unpack a 3 item value into 12 values".
Proof. split; [exact Logic.I|]. split; reflexivity. Qed.
(** The text for an operator used with the wrong types. *)
Theorem C90_operator : forall (Fn : Type) m o (fi : fn_info Fn) feq smax amax op f (a b : gvalue Fn) escape duration_text syntax_text,
  binary_fn m o fi feq smax amax op = Some f -> defined_for op (type_of a) (type_of b) = false ->
  divides op = false \/ ~ zero_number b ->
  exists e, f a b = Err e /\ error_text escape duration_text syntax_text e =
    str "TypeError: unsupported binary operation `" ++ sign op ++ str "` on `" ++ ntype fi a ++ str "` and `" ++ ntype fi b ++ str "`".
Proof.
  intros Fn m o fi feq smax amax op f a b es dt st Hf Hd H. destruct (C77_refused Fn m o fi feq smax amax op f a b Hf Hd) as [_ R].
  eexists. split; [exact (R H)|]. cbn [error_text]. unfold ticked. rewrite <- ?app_assoc. reflexivity.
Qed.
Print Assumptions C90_operator.
(** Refuted: what the message says is not allowed is what is refused.  An array of 256 items is
    refused with the words that more than 256 are too many; so are 256 arguments and parameters. *)
Theorem C90_limit_refuted : forall m f l sp escape duration_text syntax_text, length l = N.to_nat 256 ->
  exists e, compile m [(NArray l, sp)] = CErr e sp /\
    error_text escape duration_text syntax_text e = str "OverflowError: an array cannot have more than 256 items" /\
  exists e', compile m [(NCall f l, sp)] = CErr e' sp /\
    error_text escape duration_text syntax_text e' = str "OverflowError: cannot use more than 256 arguments in a function call".
Proof.
  intros m f l sp es dt st Hl.
  assert (B : exists sc, compile m ([] ++ [(NLiteral LNone, sp)]) = COk sc) by (destruct m; eexists; reflexivity).
  assert (L : 255 < length l) by (rewrite Hl; apply Nat.ltb_lt; vm_compute; reflexivity).
  exists ETooManyItems. split; [|split; [reflexivity|exists ETooManyArgs; split; [|reflexivity]]].
  - exact (C15_error m [] sp (NArray l) [] B I (ex_intro _ _ (conj (or_introl eq_refl) L))).
  - exact (C15_error m [] sp (NCall f l) [] B I (ex_intro _ _ (conj (or_introl eq_refl) L))).
Qed.
Print Assumptions C90_limit_refuted.
Example C90_example :
  settled (ENameUndefined (str "colour")) /\ settled (EMismatchedArity (str "f") 2 12) /\ settled (EIndexError (-3)) /\
  settled (EUnsupportedBinary (str "+") (str "int") (str "none")) /\
  error_text (fun c => [c]) (fun _ => []) (fun _ => []) (ENameUndefined (str "colour")) = str "NameError: name ""colour"" is not defined" /\
  error_text (fun c => [c]) (fun _ => []) (fun _ => []) (EMismatchedArity (str "f") 2 12) =
    str "TypeError: function 'f' expected `2` arguments got `12`" /\
  length (repeat (NLiteral LNone, mkSpan 0 0 0) (N.to_nat 256)) = N.to_nat 256.
Proof.
  split; [repeat constructor; discriminate|]. split; [exact Logic.I|]. split; [exact Logic.I|]. split; [repeat constructor; discriminate|].
  split; [reflexivity|]. split; [reflexivity|]. apply repeat_length.
Qed.

(** ** C91  The interactive loop: whatever is typed, what was printed stays in front, lines are
    taken in order and files are not changed. *)
Theorem C91_kept : forall m (hst : host world) orc pr feq fhash,
  (forall w, after w (h_enter hst w)) -> (forall w, after w (h_leave hst w)) ->
  forall o w k n r, rounds m hst orc pr k n (interactive_new m hst feq fhash o w) = Some r -> after w (n_world r).
Proof. exact rounds_kept. Qed.
Print Assumptions C91_kept.
(** Refuted: the loop ends when the input does.  It goes on asking for ever. *)
Theorem C91_end_refuted : forall m (hst : host world) orc pr k n r, w_in (n_world r) = [] ->
  exists r', rounds m hst orc pr k n r = Some r' /\ w_in (n_world r') = [] /\
             w_out (n_world r') = w_out (n_world r) ++ concat (repeat (str ">>> ") n).
Proof. exact endless. Qed.
Print Assumptions C91_end_refuted.
(** Refuted: the traceback printed with an error is of that error.  A line that is not even a
    program comes with the calls of the line before that failed. *)
Theorem C91_traceback_refuted : exists (hst : host world) orc pr feq fhash o w k r r' line calls,
  rounds Release hst orc pr k 2 (interactive_new Release hst feq fhash o w) = Some r /\
  round Release hst orc pr k r = Some r' /\
  w_in (n_world r) = [Some line] /\ parse_text orc line 2 = None /\
  w_out (n_world r') = w_out (n_world r) ++ str ">>> Traceback (most recent call last):" ++ [10%N] ++ calls ++
      str "SyntaxError: unexpected token at ?" ++ [10%N] /\
  calls = call_text (str "@__exec__1") 0 (str "@__repl__") (str "f(1)") ++
          call_text (str "@__exec__0") 0 (str "f") (str "fn f(a) { a + none }").
Proof.
  destruct wrong_session as (r2 & r3 & H1 & H2 & H3 & H4 & H5).
  exists talk_host, talk_oracle, plain_printer, no_feq, no_fhash, small, (typed wrong_lines), 200, r2, r3, (str ")"), call_lines.
  split; [exact H1|]. split; [exact H2|]. split; [exact H3|]. split; [exact H4|]. split; [exact H5|reflexivity].
Qed.
Print Assumptions C91_traceback_refuted.
Example C91_example :
  (forall w, after w (h_enter talk_host w)) /\
  exists r, session good_lines 3 = Some r /\ w_in (n_world r) = [] /\ w_out (n_world r) = str ">>> >>> 42" ++ [10%N] ++ str ">>> ".
Proof. split; [intros w; apply ProofConsole3.after_refl|exact good_session]. Qed.
