(** Listings of compiled code (C39, C65).  [weights] as in PropReady.v; [right_listing],
    [used] and [has_lines] are in SpecDisasm.v. *)
From Verif Require Import Includes Cli Base RleVec Pool Vecc Float NumText Bytecode Chunk Value Ast Arith VmOps Parse
  Compiler Vm CodeSize SpecReady ProofCode ExProg ProofReadyEx ProofArithEx Lines SpecLines ProofLines Disasm SpecDisasm
  ProofDisasm ProofDisasm2 ProofDisasmEx SpecParse SpecPos ProofDisasm3.

(** ** C39  Where every byte of a function has a source line, its listing is right. *)
Theorem C39_listing_partial :
  forall m ast s f lineno js, compile m ast = COk s -> weights ast <= u16max -> used s f ->
  has_lines lineno (fn_chunk f) ->
  exists lines js' stop, dis_chunk lineno (sc_globals s) (fn_chunk f) js = Ok (lines, js', stop) /\
    right_listing s (fn_chunk f) lines stop.
Proof. exact listing_right. Qed.
Print Assumptions C39_listing_partial.
(** The output has the right listing of every function that can run. *)
Theorem C39_output_partial :
  forall m ast s f lineno depth out, compile m ast = COk s -> weights ast <= u16max ->
  disassemble lineno depth s = Some (Ok out) -> used s f -> has_lines lineno (fn_chunk f) ->
  exists lines, In (mkListing (fn_name f) (fn_nspan f) lines) out /\
    right_listing s (fn_chunk f) lines (length (ck_ops (fn_chunk f))).
Proof. exact output_right. Qed.
Print Assumptions C39_output_partial.
Example C39_example :
  compile Release tour_ast = COk (script_of tour_ast) /\ weights tour_ast <= u16max /\
  used (script_of tour_ast) tour_make /\ has_lines line1 (fn_chunk tour_make) /\
  disassemble line1 10 (script_of tour_ast) = Some (Ok tour_listing) /\
  map (fun x => length (li_lines x)) tour_listing = [65; 4; 20].
Proof.
  exact (conj tour_compiles (conj tour_weight (conj (proj1 tour_used) (conj (line1_lines _) tour_listed)))).
Qed.

(** The whole output: it exists, and it is the right listing of every function of the program
    in order, used or not.  [d] is how deep the model follows functions in constants. *)
Theorem C39_disassembly_partial :
  forall m ast s lineno, compile m ast = COk s -> weights ast <= u16max -> complete_program ast ->
  (forall sp, position_of ast sp -> lineno sp <> None) ->
  exists fs out d0, functions_of (sc_function s) fs /\ Forall2 (lists s) fs out /\
    forall d, d0 <= d -> disassemble lineno d s = Some (Ok out).
Proof. exact whole_output. Qed.
Print Assumptions C39_disassembly_partial.
(** So for a text of ASCII characters ... *)
Theorem C39_text_partial :
  forall m o fuel text id ast i s ol c, parse_code o fuel text id = PMatch ast i -> compile m ast = COk s -> weights ast <= u16max ->
  line_table ol -> end_line ol -> ascii text -> only_lf text -> text <> [] -> nth_error c id = Some text ->
  exists fs out d0, functions_of (sc_function s) fs /\ Forall2 (lists s) fs out /\
    forall d, d0 <= d -> disassemble (get_lineno ol c) d s = Some (Ok out).
Proof. exact text_output. Qed.
Print Assumptions C39_text_partial.
Example C39_text_example :
  (exists i, parse_code no_oracle 100 loop_text 0 = PMatch loop_ast i) /\ compile Release loop_ast = COk (script_of loop_ast) /\
  weights loop_ast <= u16max /\ line_table simple_table /\ end_line simple_table /\ ascii loop_text /\ only_lf loop_text /\
  loop_text <> [] /\ functions_of (sc_function (script_of loop_ast)) [sc_function (script_of loop_ast); loop_fn].
Proof.
  exact (conj (proj1 loop_listed) (conj (proj1 (proj2 loop_listed)) (conj loop_weight (conj simple_ok (conj simple_end
    (conj (proj1 loop_chars) (conj (proj2 loop_chars) (conj loop_nonempty loop_functions)))))))).
Qed.
(** ... and for a text with included files. *)
Theorem C39_files_partial :
  forall m o read fuel name text ast is s ol c, parse_with_includes read (parse_text o) fuel name text = IOk ast is ->
  compile m ast = COk s -> weights ast <= u16max -> line_table ol -> end_line ol ->
  (forall k t, source_of read name text (i_sources is) k t -> nth_error c k = Some t /\ ascii t /\ only_lf t /\ t <> []) ->
  exists fs out d0, functions_of (sc_function s) fs /\ Forall2 (lists s) fs out /\
    forall d, d0 <= d -> disassemble (get_lineno ol c) d s = Some (Ok out).
Proof. exact files_output. Qed.
Print Assumptions C39_files_partial.

(** Refuted where the line table has no line for a position: the walk goes over the
    instruction at 3 in silence. *)
Theorem C39_refuted : exists text ast i s ol lines js stop,
  parse_code no_oracle 100 text 0 = PMatch ast i /\ compile Release ast = COk s /\ line_table ol /\
  dis_chunk (get_lineno ol [text]) (sc_globals s) (fn_chunk (sc_function s)) [] = Ok (lines, js, stop) /\
  exists p, boundary (fn_chunk (sc_function s)) p /\ p < length (ck_ops (fn_chunk (sc_function s))) /\
    ~ In p (map ln_offset lines).
Proof.
  destruct wide_listed as ((i & H1) & H2 & (js & H3) & H4).
  exists wide, wide_ast, i, (script_of wide_ast), simple_table. eexists. exists js, 8.
  split; [exact H1|]. split; [exact H2|]. split; [exact simple_ok|]. split; [exact H3|].
  exists 3. split; [exact H4|]. split; [vm_compute; lia|]. intros [E|[E|[E|[]]]]; discriminate E.
Qed.
Print Assumptions C39_refuted.

(** ** C65  A line that a jump from an earlier line leads to is marked. *)
Theorem C65_forward_partial :
  forall lineno gs c js lines js' stop a b t, dis_chunk lineno gs c js = Ok (lines, js', stop) ->
  In a lines -> In b lines -> ln_hint a = Some (HJump t) -> ln_offset b = t -> ln_offset a < t -> ln_is_jump b = true.
Proof. exact forward_marked. Qed.
Print Assumptions C65_forward_partial.
(** Refuted: the target of a backward jump is not marked, and a line of another function
    at the same offset is. *)
Theorem C65_refuted : exists text ast i s out f,
  parse_code no_oracle 100 text 0 = PMatch ast i /\ compile Release ast = COk s /\
  disassemble line1 5 s = Some (Ok out) /\
  (exists main rest, out = main :: rest /\ target_in (fn_chunk (sc_function s)) 7 /\
    In 7 (map ln_offset (li_lines main)) /\ ~ In 7 (map ln_offset (filter ln_is_jump (li_lines main)))) /\
  used s f /\ (forall t, ~ target_in (fn_chunk f) t) /\
  exists main l, out = [main; l] /\ In 7 (map ln_offset (filter ln_is_jump (li_lines l))).
Proof.
  destruct loop_listed as ((i & H1) & H2 & _). destruct loop_marks as (main & l & E & M1 & M2 & M3).
  exists loop_text, loop_ast, i, (script_of loop_ast), loop_out, loop_fn.
  split; [exact H1|]. split; [exact H2|]. split; [exact loop_disassembled|]. split; [|split; [|split]].
  - exists main, [l]. split; [exact E|]. split; [exact loop_target|]. rewrite M1, M3.
    split; [cbn; auto 10|]. intros [K|[]]; discriminate K.
  - exact loop_used.
  - exact loop_no_target.
  - exists main, l. split; [exact E|]. rewrite M2. left. reflexivity.
Qed.
Print Assumptions C65_refuted.
