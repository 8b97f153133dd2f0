(** The printed listings of the disassembler (C94). *)
From Verif Require Import Base RleVec Pool Float NumText Bytecode Chunk Value Ast Compiler Vm CodeSize Parse SpecReady ProofCode ProofReadyEx Lines SpecLines ProofLines Disasm SpecDisasm Listing SpecListing ProofListing ProofListing2
  Includes Cli SpecPos ProofDisasm3 ProofTidy ProofTidy2 SpecTold ProofTidy3 ProofArithEx ProofDisasmEx ProofListingEx ProofToldEx ExProg.

(** C94: What is printed tells the listings: how many there are, of each the function's name,
    line and file, and of each row the source line, the jump mark, the offset, the
    instruction, the operand, the jump target and the name or operator beside it.  The texts
    of floats, of quoted strings and of file names, and the names in the listings, are on one
    line; functions' names have no comma. *)
Theorem C94_text (o : oracle) (quoted : rstring -> rstring) (lineno lineno' : span -> option nat) (file file' : nat -> option rstring) out out' :
  (forall s, one_line (quoted s)) -> (forall f, one_line (o_f64_text o f)) ->
  (forall k s, file k = Some s -> one_line s) -> (forall k s, file' k = Some s -> one_line s) ->
  Forall tidy out -> Forall tidy out' ->
  output_text o quoted lineno file out = output_text o quoted lineno' file' out' ->
  Forall2 (same_listing lineno file lineno' file') out out'.
Proof. intros H1 H2 H3 H4. exact (output_same o quoted lineno lineno' file file' H1 H2 H3 H4 out out'). Qed.
Print Assumptions C94_text.

(** The listings of texts of ASCII characters, and of programs of several such files, are like that
    ([listed] in SpecTold.v): programs whose disassemblies are printed alike have the same functions
    with the same instructions.  Partial: less than 2^16 constants and symbols. *)
Theorem C94_same_partial : forall o quoted ol c file out ol' c' file' out',
  (forall s, one_line (quoted s)) -> (forall f, one_line (o_f64_text o f)) ->
  (forall k s, file k = Some s -> one_line s) -> (forall k s, file' k = Some s -> one_line s) ->
  listed o ol c out -> listed o ol' c' out' ->
  output_text o quoted (get_lineno ol c) file out = output_text o quoted (get_lineno ol' c') file' out' ->
  Forall2 (same_listing (get_lineno ol c) file (get_lineno ol' c') file') out out'.
Proof. exact listed_same. Qed.
Print Assumptions C94_same_partial.
(** One text is the other with a space at the end; it is another source of another cache. *)
Example C94_same_ex :
  ((forall s, one_line (one_quoted s)) /\ (forall f, one_line (o_f64_text no_oracle f)) /\
   (forall k s, one_file k = Some s -> one_line s) /\ (forall k s, wide_file k = Some s -> one_line s)) /\
  listed no_oracle simple_table [loop_text] (listing_of [loop_text] loop_ast) /\
  listed no_oracle simple_table [[]; wide_text] (listing_of [[]; wide_text] wide_ast) /\
  output_text no_oracle one_quoted (get_lineno simple_table [loop_text]) one_file (listing_of [loop_text] loop_ast) =
    output_text no_oracle one_quoted (get_lineno simple_table [[]; wide_text]) wide_file (listing_of [[]; wide_text] wide_ast).
Proof.
  split; [split; [exact ex_quoted|split; [intros f []|split; [exact ex_file|exact wide_file_line]]]|].
  split; [exact narrow_listed|]. split; [exact wide_listed|exact wide_printed].
Qed.

(** The output contains, for every function of a compiled program that can run, a page that says
    so ([printed] in SpecListing.v): its heading has the name, the file and the line; each row
    has, in this order, the line where it changes, the mark, the offset, the name of the
    instruction the machine finds there, the operand and the explanation; and the rows are the
    instructions of the function, each once, in order.  Partial: less than 2^16 constants and
    symbols; every instruction has a source line; constants are those a program can have. *)
Theorem C94_printed_partial o quoted lineno file m ast s f depth out : compile m ast = COk s -> weights ast <= u16max ->
  disassemble lineno depth s = Some (Ok out) -> used s f -> has_lines lineno (fn_chunk f) ->
  (forall l r v, In l out -> In r (li_lines l) -> ln_hint r = Some (HValue v) -> sound_value v) ->
  exists a t b lines, output_text o quoted lineno file out = a ++ t ++ [10%N] ++ b /\
    printed (o_f64_text o) quoted lineno file (ck_ops (fn_chunk f)) (mkListing (fn_name f) (fn_nspan f) lines) t /\
    right_listing s (fn_chunk f) lines (length (ck_ops (fn_chunk f))).
Proof. exact (output_printed o quoted lineno file m ast s f depth out). Qed.
Print Assumptions C94_printed_partial.
Example C94_printed_ex :
  compile Release tour_ast = COk (script_of tour_ast) /\ weights tour_ast <= u16max /\
  disassemble line1 10 (script_of tour_ast) = Some (Ok tour_listing) /\
  used (script_of tour_ast) tour_make /\ has_lines line1 (fn_chunk tour_make) /\
  (forall l r v, In l tour_listing -> In r (li_lines l) -> ln_hint r = Some (HValue v) -> sound_value v).
Proof.
  exact (conj tour_compiles (conj tour_weight (conj (proj1 tour_listed) (conj (proj1 tour_used) (conj (line1_lines _) tour_sound))))).
Qed.

(** So the whole output for a text of ASCII characters is the pages of its functions ([page] in
    SpecListing.v), in the order of the constants, each followed by an empty line.  Partial: less than
    2^16 constants and symbols. *)
Theorem C94_output_partial : forall o quoted file m fuel text id ast i s ol c,
  parse_code o fuel text id = PMatch ast i -> compile m ast = COk s -> weights ast <= u16max ->
  line_table ol -> end_line ol -> ascii text -> only_lf text -> text <> [] -> nth_error c id = Some text ->
  exists fs pages d0, functions_of (sc_function s) fs /\ Forall2 (page (o_f64_text o) quoted (get_lineno ol c) file s) fs pages /\
    forall d, d0 <= d -> exists out, disassemble (get_lineno ol c) d s = Some (Ok out) /\
      output_text o quoted (get_lineno ol c) file out = concat (map (fun t => t ++ [10%N]) pages).
Proof. exact text_pages. Qed.
Print Assumptions C94_output_partial.
Example C94_output_ex :
  (exists i, parse_code no_oracle 100 loop_text 0 = PMatch loop_ast i) /\ compile Release loop_ast = COk (script_of loop_ast) /\
  weights loop_ast <= u16max /\ line_table simple_table /\ end_line simple_table /\ ascii loop_text /\ only_lf loop_text /\
  loop_text <> [] /\ functions_of (sc_function (script_of loop_ast)) [sc_function (script_of loop_ast); loop_fn].
Proof.
  exact (conj (proj1 loop_listed) (conj (proj1 (proj2 loop_listed)) (conj loop_weight (conj simple_ok (conj simple_end
    (conj (proj1 loop_chars) (conj (proj2 loop_chars) (conj loop_nonempty loop_functions)))))))).
Qed.
(** ... and for a program of several such files. *)
Theorem C94_files_partial : forall o quoted file m read fuel name text ast is s ol c,
  parse_with_includes read (parse_text o) fuel name text = IOk ast is -> compile m ast = COk s -> weights ast <= u16max ->
  line_table ol -> end_line ol ->
  (forall k t, source_of read name text (i_sources is) k t -> nth_error c k = Some t /\ ascii t /\ only_lf t /\ t <> []) ->
  exists fs pages d0, functions_of (sc_function s) fs /\ Forall2 (page (o_f64_text o) quoted (get_lineno ol c) file s) fs pages /\
    forall d, d0 <= d -> exists out, disassemble (get_lineno ol c) d s = Some (Ok out) /\
      output_text o quoted (get_lineno ol c) file out = concat (map (fun t => t ++ [10%N]) pages).
Proof. exact files_pages. Qed.
Print Assumptions C94_files_partial.

(** The explanation in parentheses does not tell all: an integer and a float are printed
    alike where the float's text has no point, as Rust writes [1.0]. *)
Theorem C94_hint_refuted (o : oracle) quoted lineno file : o_f64_text o (f_of_Z 1) = str "1" ->
  forall last op k n off, row_text o quoted lineno file last (mkLine n false off op (Some k) (Some (HValue (VInt 1))) [k]) =
    row_text o quoted lineno file last (mkLine n false off op (Some k) (Some (HValue (VFloat (f_of_Z 1)))) [k]).
Proof. intros H last op k n off. unfold row_text. cbn [ln_hint ln_number ln_is_jump ln_offset ln_opcode ln_oparg hint_text value_hint]. now rewrite H. Qed.
Print Assumptions C94_hint_refuted.

(** The premises hold of a program with three functions and 89 rows; and a listing in full. *)
Example C94_text_ex :
  ((forall s, one_line (one_quoted s)) /\ (forall f, one_line (o_f64_text no_oracle f)) /\ (forall k s, one_file k = Some s -> one_line s)) /\
  Forall tidy tour_listing /\ map (fun x => length (li_lines x)) tour_listing = [65; 4; 20] /\
  output_text no_oracle one_quoted (get_lineno simple_table [loop_text]) one_file
    (match disassemble (get_lineno simple_table [loop_text]) 5 (script_of loop_ast) with Some (Ok l) => skipn 1 l | _ => [] end) =
  str
"Disassembly of <func @__lambda__, file ""a.ql"", line 3>
3          0    LoadLocal       1    (a)
           3    UnaryNegate          (-)
           4    LoadLocal       2    (b)
       >>  7    BinaryAdd            (+)
           8    Return               

".
Proof.
  split; [split; [exact ex_quoted|split; [intros f []|exact ex_file]]|]. split; [exact tour_tidy|]. split; [exact (proj2 tour_listed)|exact small_printed].
Qed.
Example C94_hint_ex : o_f64_text bare_oracle (f_of_Z 1) = str "1". Proof. exact bare_float. Qed.
