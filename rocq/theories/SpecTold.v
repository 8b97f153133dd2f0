(** Listings of programs (C94). *)
From Verif Require Import Base Float NumText Ast Parse Compiler CodeSize Includes Cli Lines Disasm SpecLines SpecPos.

(** [out] are the listings of a program, made with the sources [c] and the table of lines [ol]:
    of a text of ASCII characters with plain line breaks, or of several such files.  The program
    has less than 2^16 constants and symbols. *)
Inductive listed (o : oracle) (ol : rstring -> nat -> option nat) (c : list rstring) (out : list listing) : Prop :=
| ld_text fuel text id ast i m s depth : parse_code o fuel text id = PMatch ast i -> compile m ast = COk s -> weights ast <= N.to_nat 65535 ->
    line_table ol -> end_line ol -> ascii text -> only_lf text -> text <> [] -> nth_error c id = Some text ->
    disassemble (get_lineno ol c) depth s = Some (Ok out) -> listed o ol c out
| ld_files read fuel name text ast is m s depth : parse_with_includes read (parse_text o) fuel name text = IOk ast is ->
    compile m ast = COk s -> weights ast <= N.to_nat 65535 -> line_table ol -> end_line ol ->
    (forall k t, source_of read name text (i_sources is) k t -> nth_error c k = Some t /\ ascii t /\ only_lf t /\ t <> []) ->
    disassemble (get_lineno ol c) depth s = Some (Ok out) -> listed o ol c out.
