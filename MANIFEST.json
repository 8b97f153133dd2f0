{
 "claims": [
  {
   "property": "C01",
   "status": "partial",
   "theorems": [
    "C01_run_partial",
    "C01_text_partial",
    "C01_back_partial",
    "C01_library_partial",
    "C01_stdio_partial",
    "C01_definition",
    "C01_refuted",
    "C01_size",
    "C01_size_refuted"
   ],
   "note": "Both directions, for all programs, hosts and limits. The definition is silent (Unspecified) about: comparing functions, return out of a context, a top-level return in checked builds, operators that abort. The bound on the size is needed: C01_size shows that more than 65536 different literals come to the wrong value. Missing: more than 65536 global names, functions among the starting globals."
  },
  {
   "property": "C02",
   "status": "partial",
   "theorems": [
    "C02_block_refuted",
    "C02_left_operand_partial",
    "C01_run_partial"
   ],
   "note": "False: 1 + { let x = 2  x } is 4. Holds where no operand is pending: programs whose declaring blocks are placed so run as defined (C01_run_partial, C02_left_operand_partial)."
  },
  {
   "property": "C03",
   "status": "partial",
   "theorems": [
    "C03_ready_partial",
    "C03_text_partial",
    "C03_library_partial",
    "C03_stdio_partial",
    "C03_slots_partial",
    "C03_slots_refuted"
   ],
   "note": "Missing: programs so large that 16-bit constant numbers can wrap; slots of local variables lie below the top of the stack except when the iterable of a for loop declares variables (refuted there)."
  },
  {
   "property": "C04",
   "status": "proved",
   "theorems": [
    "C04_stack_size",
    "C04_overflow_reported"
   ],
   "note": "For every machine state a host can produce, any sequence of runs, resets and script updates."
  },
  {
   "property": "C05",
   "status": "proved",
   "theorems": [
    "C05_call_depth",
    "C05_too_deep"
   ],
   "note": ""
  },
  {
   "property": "C06",
   "status": "proved",
   "theorems": [
    "C06_stops",
    "C06_in_time",
    "C06_sixty_four_refuted"
   ],
   "note": "The bound is 66 turns (65 instructions); the 64 of the source comment is refuted."
  },
  {
   "property": "C07",
   "status": "partial",
   "theorems": [
    "C07_builtins_refuted",
    "C07_string_size",
    "C07_too_large_reported_partial",
    "C07_too_large_reported_refuted"
   ],
   "note": "Bound proved for every result; the refusal of larger results is proved up to 2^64 bytes and false beyond (usize overflow in the check)."
  },
  {
   "property": "C08",
   "status": "partial",
   "theorems": [
    "C08_array_expression",
    "C08_join_size",
    "C08_builtins_partial",
    "C08_builtins_refuted"
   ],
   "note": "Holds for array expressions, .., @set, @split and @rainbow_colors; false of @chars (and @slice of a pair), which ignore the limit."
  },
  {
   "property": "C09",
   "status": "proved",
   "theorems": [
    "C09_shared_cell",
    "C09_return"
   ],
   "note": "Against a specification where a variable is one cell; histories up to the stack size (longer ones overflow the stack)."
  },
  {
   "property": "C10",
   "status": "partial",
   "theorems": [
    "C10_return_refuted",
    "C10_no_return_partial",
    "C10_return_error_partial"
   ],
   "note": "False: { return 1 } at top level is accepted. Proved: a return among the top-level statements is rejected, with the right error."
  },
  {
   "property": "C100",
   "status": "proved",
   "theorems": [
    "C100_nested",
    "C100_available",
    "C100_default",
    "C100_errors",
    "C100_runs",
    "C100_honest",
    "C100_cycle_refuted"
   ],
   "note": "The resolver is any function of its state, the cache, the name and the parsing function of the cache. Offsets of syntax errors are not modelled."
  },
  {
   "property": "C101",
   "status": "proved",
   "theorems": [
    "C101_text",
    "C101_files",
    "C101_compiled",
    "C101_apart"
   ],
   "note": ""
  },
  {
   "property": "C102",
   "status": "proved",
   "theorems": [
    "C102_same",
    "C102_lower",
    "C102_library",
    "C102_command"
   ],
   "note": "Limits of stack, calls and time; the sizes of texts and arrays are kept. Nothing is claimed of runs that abort (C01, C29, C60)."
  },
  {
   "property": "C103",
   "status": "proved",
   "theorems": [
    "C103_compile",
    "C103_run",
    "C103_program"
   ],
   "note": "Nothing is claimed of runs that abort. The library prints the names of functions, so C103_program keeps these. Functions are compared with their positions, so a move has to keep different places different (C103_example shows a program that tells)."
  },
  {
   "property": "C104",
   "status": "proved",
   "theorems": [
    "C104_mentioned",
    "C104_alone"
   ],
   "note": "For programs of at most 65535 units of code (weights) and at most 65536 names (names_fit), as the statement says; the builtins of the first machine make up no callables (honest_builtin), those of the second are arbitrary."
  },
  {
   "property": "C105",
   "status": "proved",
   "theorems": [
    "C105_compile",
    "C105_run",
    "C105_library",
    "C105_session",
    "C105_command"
   ],
   "note": "C105_example shows programs on which the checked build aborts and the release build does not (see C27, C28)."
  },
  {
   "property": "C106",
   "status": "proved",
   "theorems": [
    "C106_parse",
    "C106_program"
   ],
   "note": "The empty text is excluded: it is read as one line at the place of nothing. Nothing is claimed of runs that abort. The equality and hash of functions given to the library are assumed to be unchanged by moving all functions alike (C106_example)."
  },
  {
   "property": "C11",
   "status": "partial",
   "theorems": [
    "C11_loop_partial",
    "C11_iteration_partial",
    "C11_not_iterable"
   ],
   "note": "C11_loop_partial: the body runs once for each element, in order, for a loop that ends a program (loops elsewhere follow from C01_run_partial); conditions as for C01."
  },
  {
   "property": "C12",
   "status": "partial",
   "theorems": [
    "C12_range_partial",
    "C12_range_refuted",
    "C12_refused"
   ],
   "note": "32-bit ends; wider ends are truncated."
  },
  {
   "property": "C13",
   "status": "partial",
   "theorems": [
    "C13_switch_partial"
   ],
   "note": "For a switch that ends a program; switches elsewhere follow from C01_run_partial. Conditions as for C01."
  },
  {
   "property": "C14",
   "status": "proved",
   "theorems": [
    "C14_forward",
    "C14_backward",
    "C14_machine"
   ],
   "note": "The jump helpers of the compiler for all code and distances, and the machine's steps; C03_ready_partial shows that all jumps of compiled programs land on instructions."
  },
  {
   "property": "C15",
   "status": "partial",
   "theorems": [
    "C15_counts",
    "C15_error",
    "C15_unpack_error",
    "C15_context_error",
    "C15_context_unpack_error",
    "C15_exact_partial",
    "C15_instructions",
    "C15_parameters"
   ],
   "note": "Rejection is proved for all programs, with the error of every construct; so are the number of parameters of every function and the counts of calls, builtin calls and arrays. Counts of with and unpack are proved exact for programs with less than 2^16 constants and symbols; missing: larger ones."
  },
  {
   "property": "C16",
   "status": "partial",
   "theorems": [
    "C16_ids_distinct_partial",
    "C16_ids_distinct_refuted",
    "C16_update_refuted"
   ],
   "note": "True for up to 65536 distinct values; false beyond (ids wrap) and after Pool::update."
  },
  {
   "property": "C17",
   "status": "proved",
   "theorems": [
    "C17_globals",
    "C17_table",
    "C17_assign_undefined"
   ],
   "note": ""
  },
  {
   "property": "C18",
   "status": "proved",
   "theorems": [
    "C18_host_sets",
    "C18_default",
    "C18_top_level",
    "C18_distinct",
    "C18_redefined",
    "C18_declared"
   ],
   "note": "Host calls, the default, and the compile-time rules."
  },
  {
   "property": "C19",
   "status": "partial",
   "theorems": [
    "C19_contexts_refuted",
    "C19_nested_partial"
   ],
   "note": "False: return skips the exit; a plain builtin in with runs the outer exit early. In all other runs of compiled programs contexts are left once each, inner ones first."
  },
  {
   "property": "C20",
   "status": "proved",
   "theorems": [
    "C20_callbacks"
   ],
   "note": ""
  },
  {
   "property": "C21",
   "status": "proved",
   "theorems": [
    "C21_call",
    "C21_rejected"
   ],
   "note": ""
  },
  {
   "property": "C22",
   "status": "proved",
   "theorems": [
    "C22_spans"
   ],
   "note": ""
  },
  {
   "property": "C23",
   "status": "partial",
   "theorems": [
    "C23_short_partial",
    "C23_long_partial",
    "C23_refuted"
   ],
   "note": "Off by one from ten suspended calls on."
  },
  {
   "property": "C24",
   "status": "partial",
   "theorems": [
    "C24_refuted",
    "C24_machine_partial",
    "C24_syntax_partial"
   ],
   "note": "A rejected line never touches the machine, and a syntax error leaves no trace, but a compile error keeps the names and the code compiled before it (refuted)."
  },
  {
   "property": "C25",
   "status": "partial",
   "theorems": [
    "C25_by_name",
    "C25_update_refuted"
   ],
   "note": "Proved for one script; false across update_script."
  },
  {
   "property": "C26",
   "status": "partial",
   "theorems": [
    "C26_destructure_partial",
    "C26_colour_partial",
    "C26_colour_refuted"
   ],
   "note": "Arrays and pairs exact; colours give a prefix, five or more names abort."
  },
  {
   "property": "C27",
   "status": "partial",
   "theorems": [
    "C27_index",
    "C27_index_debug_partial",
    "C27_index_debug_refuted",
    "C27_not_indexable"
   ],
   "note": "Full for the release build; the checked build aborts on negative indices."
  },
  {
   "property": "C28",
   "status": "partial",
   "theorems": [
    "C28_exact",
    "C28_release_wraps",
    "C28_debug_aborts",
    "C28_negation",
    "C28_min_refuted"
   ],
   "note": "Exact except -2^63 / -1 and -2^63 % -1, which abort."
  },
  {
   "property": "C29",
   "status": "partial",
   "theorems": [
    "C29_crashes_partial",
    "C29_unary_crashes_partial",
    "C29_never_crash_refuted"
   ],
   "note": "False; the crashing operand pairs are characterised exactly."
  },
  {
   "property": "C30",
   "status": "partial",
   "theorems": [
    "C30_integers",
    "C30_mirror",
    "C30_equality",
    "C30_machine_partial",
    "C30_closures",
    "C30_self_refuted"
   ],
   "note": "Symmetric and transitive on the machine, callables included. Reflexive without NaN unless it aborts: a closure that holds itself is compared with itself for ever (refuted). C30_equality is the general form over any equality of callables."
  },
  {
   "property": "C31",
   "status": "partial",
   "theorems": [
    "C31_join_partial",
    "C31_join_refuted"
   ],
   "note": "Holds when the left array has room; false for array literals."
  },
  {
   "property": "C32",
   "status": "proved",
   "theorems": [
    "C32_join",
    "C32_int_text",
    "C32_repeat"
   ],
   "note": "Repetition up to 2^64 bytes; beyond see C07."
  },
  {
   "property": "C33",
   "status": "partial",
   "theorems": [
    "C33_saturating",
    "C33_divide_partial",
    "C33_mean_partial",
    "C33_refuted"
   ],
   "note": "+ - * exact; / aborts on a zero channel, .. overflows above 255."
  },
  {
   "property": "C34",
   "status": "partial",
   "theorems": [
    "C34_rlevec_plain_vector",
    "C34_push_n_zero_refuted"
   ],
   "note": "len/get for every history; first/last/runs for histories without push_n(_, 0), false with it."
  },
  {
   "property": "C35",
   "status": "proved",
   "theorems": [
    "C35_intern_order"
   ],
   "note": "Up to 65536 additions; past that see C16."
  },
  {
   "property": "C36",
   "status": "partial",
   "theorems": [
    "C36_vecc_history_partial",
    "C36_set_refuted",
    "C36_set_size_refuted",
    "C36_extend_refuted"
   ],
   "note": "All histories without set and without a refused extend; false with them."
  },
  {
   "property": "C37",
   "status": "proved",
   "theorems": [
    "C37_bluff_stack"
   ],
   "note": ""
  },
  {
   "property": "C38",
   "status": "proved",
   "theorems": [
    "C38_write_read",
    "C38_patch",
    "C38_patch_u8",
    "C38_insert",
    "C38_insert_u8"
   ],
   "note": ""
  },
  {
   "property": "C39",
   "status": "partial",
   "theorems": [
    "C39_listing_partial",
    "C39_output_partial",
    "C39_disassembly_partial",
    "C39_text_partial",
    "C39_files_partial",
    "C39_refuted"
   ],
   "note": "Holds where every position has a source line, and so for ASCII texts: the disassembly ends well and has the right listing of every function, in order. An instruction whose position has no line (text with multi-byte characters) is left out of the listing (refuted). Missing: programs so large that 16-bit constant numbers can wrap. Assumed of the line table: lines of ASCII texts, and that the end of a text has a line."
  },
  {
   "property": "C40",
   "status": "proved",
   "theorems": [
    "C40_every_body_yields",
    "C40_body"
   ],
   "note": ""
  },
  {
   "property": "C41",
   "status": "partial",
   "theorems": [
    "C41_roundtrip",
    "C41_digits",
    "C41_lengths_partial",
    "C41_seven_refuted"
   ],
   "note": "Seven hexadecimal digits are accepted, the last one is ignored."
  },
  {
   "property": "C42",
   "status": "partial",
   "theorems": [
    "C42_value",
    "C42_literal_partial",
    "C42_refuted"
   ],
   "note": "A literal outside the range reads as 0, and -9223372036854775808 evaluates to 0."
  },
  {
   "property": "C43",
   "status": "partial",
   "theorems": [
    "C43_flat_partial",
    "C43_result",
    "C43_missing",
    "C43_nested_refuted",
    "C43_nested_never_refuted",
    "C43_twice_refuted",
    "C43_cycle_refuted"
   ],
   "note": "Holds for distinct files that include nothing; nested includes and repeated files are reported as circular, real cycles recurse forever."
  },
  {
   "property": "C44",
   "status": "proved",
   "theorems": [
    "C44_fit",
    "C44_misfit",
    "C44_exhaustive"
   ],
   "note": ""
  },
  {
   "property": "C45",
   "status": "partial",
   "theorems": [
    "C45_get_partial",
    "C45_set_partial",
    "C45_get_set_partial",
    "C45_debug_refuted"
   ],
   "note": "Full for release builds; a checked build aborts on negative indices."
  },
  {
   "property": "C46",
   "status": "partial",
   "theorems": [
    "C46_slice_partial",
    "C46_slice_refuted"
   ],
   "note": "An end past the length aborts the process; strings are refused."
  },
  {
   "property": "C47",
   "status": "proved",
   "theorems": [
    "C47_split_join",
    "C47_split_pieces",
    "C47_default_separator"
   ],
   "note": ""
  },
  {
   "property": "C48",
   "status": "partial",
   "theorems": [
    "C48_len_partial",
    "C48_len_refuted",
    "C48_len_missing_refuted",
    "C48_refused"
   ],
   "note": "Holds for lists and ASCII strings; @len counts bytes and refuses pairs and colours."
  },
  {
   "property": "C49",
   "status": "partial",
   "theorems": [
    "C49_int_str",
    "C49_radix_partial",
    "C49_radix_refuted"
   ],
   "note": "Negative numbers do not survive @bin/@oct/@hex."
  },
  {
   "property": "C50",
   "status": "partial",
   "theorems": [
    "C50_short",
    "C50_long_partial",
    "C50_default",
    "C50_refuted"
   ],
   "note": "False when the ellipsis is longer than the limit or the text is not ASCII."
  },
  {
   "property": "C51",
   "status": "proved",
   "theorems": [
    "C51_rgba",
    "C51_rgb",
    "C51_channels",
    "C51_invert",
    "C51_invert_channels"
   ],
   "note": ""
  },
  {
   "property": "C52",
   "status": "partial",
   "theorems": [
    "C52_externals_refuted",
    "C52_captures_refuted",
    "C52_closed_partial"
   ],
   "note": "False on both counts."
  },
  {
   "property": "C53",
   "status": "partial",
   "theorems": [
    "C53_ascii_partial",
    "C53_refuted",
    "C53_missing_refuted"
   ],
   "note": "Holds for ASCII texts; positions are bytes and the line table counts characters, so other texts give a wrong line or none."
  },
  {
   "property": "C54",
   "status": "proved",
   "theorems": [
    "C54_mix_ends",
    "C54_lighten_ends",
    "C54_darken_ends"
   ],
   "note": ""
  },
  {
   "property": "C55",
   "status": "partial",
   "theorems": [
    "C55_complement_refuted"
   ],
   "note": "False: the result is always #00000000."
  },
  {
   "property": "C56",
   "status": "proved",
   "theorems": [
    "C56_replace"
   ],
   "note": ""
  },
  {
   "property": "C57",
   "status": "proved",
   "theorems": [
    "C57_starts_with",
    "C57_ends_with",
    "C57_contains",
    "C57_trim"
   ],
   "note": ""
  },
  {
   "property": "C58",
   "status": "proved",
   "theorems": [
    "C58_chars"
   ],
   "note": ""
  },
  {
   "property": "C59",
   "status": "partial",
   "theorems": [
    "C59_clamp",
    "C59_min_max",
    "C59_abs_partial",
    "C59_refused"
   ],
   "note": "@abs of the least integer overflows."
  },
  {
   "property": "C60",
   "status": "partial",
   "theorems": [
    "C60_builtins_never_abort_partial",
    "C60_release_partial",
    "C46_slice_refuted",
    "C45_debug_refuted",
    "C73_randfloat_refuted"
   ],
   "note": "All but six builtins never abort; in release builds only @slice and the comparison of closures can."
  },
  {
   "property": "C61",
   "status": "proved",
   "theorems": [
    "C61_values",
    "C61_includes"
   ],
   "note": ""
  },
  {
   "property": "C62",
   "status": "proved",
   "theorems": [
    "C62_start",
    "C62_end"
   ],
   "note": ""
  },
  {
   "property": "C63",
   "status": "partial",
   "theorems": [
    "C63_refuted"
   ],
   "note": "False: builtin numbers of earlier lines stay registered. On the first line unknown builtins are reported (C25)."
  },
  {
   "property": "C64",
   "status": "partial",
   "theorems": [
    "C64_refuted"
   ],
   "note": "False: a failed run forgets the open captured variables."
  },
  {
   "property": "C65",
   "status": "partial",
   "theorems": [
    "C65_forward_partial",
    "C65_refuted"
   ],
   "note": "Targets of forward jumps are marked; targets of backward jumps are not, and stay to mark lines of later functions."
  },
  {
   "property": "C66",
   "status": "proved",
   "theorems": [
    "C66_parse_ends",
    "C66_literal_ends"
   ],
   "note": "Native recursion depth is not modelled."
  },
  {
   "property": "C67",
   "status": "proved",
   "theorems": [
    "C67_reading",
    "C67_one_reading"
   ],
   "note": "For the texts described by the relation spelled (SpecExpr.v): one space or more around binary operators. Range operator, strings, collections and other forms of operands are not covered."
  },
  {
   "property": "C68",
   "status": "proved",
   "theorems": [
    "C68_machine",
    "C68_result",
    "C68_parsed",
    "C68_included",
    "C68_compiled",
    "C68_library",
    "C68_stdio",
    "C68_repl",
    "C68_line"
   ],
   "note": "Premise: no list or text the machine holds is longer than 2^63 (it could not be in memory). Values given by the host are proper."
  },
  {
   "property": "C69",
   "status": "proved",
   "theorems": [
    "C69_str",
    "C69_unique"
   ],
   "note": "The text of a float is the standard library's (a parameter)."
  },
  {
   "property": "C70",
   "status": "proved",
   "theorems": [
    "C70_print",
    "C70_println",
    "C70_debug",
    "C70_quiet",
    "C70_kept",
    "C01_stdio_partial"
   ],
   "note": "Host callbacks at function entry and exit may themselves only add output. Writing to the standard output is assumed to succeed."
  },
  {
   "property": "C71",
   "status": "partial",
   "theorems": [
    "C71_input",
    "C71_readfile",
    "C71_end_of_input_refuted"
   ],
   "note": "The end of the input cannot be told from an empty line (refuted)."
  },
  {
   "property": "C72",
   "status": "partial",
   "theorems": [
    "C72_time_partial",
    "C72_date_refuted",
    "C72_now"
   ],
   "note": "The date part is wrong in the code (refuted at the epoch); the time of day is right."
  },
  {
   "property": "C73",
   "status": "partial",
   "theorems": [
    "C73_randint",
    "C73_randint_any",
    "C73_randchoice",
    "C73_randchoice_any",
    "C73_random",
    "C73_randfloat_partial",
    "C73_randfloat_refuted",
    "C73_colors",
    "C73_color_any",
    "C73_rainbow",
    "C73_randbool",
    "C73_randbool_any",
    "C73_rainbow_any"
   ],
   "note": "@randfloat aborts on NaN and on ranges whose width is not finite (refuted)."
  },
  {
   "property": "C74",
   "status": "partial",
   "theorems": [
    "C74_range",
    "C74_given",
    "C74_refused",
    "C74_equal_partial",
    "C74_equal_refuted",
    "C74_distinct_partial",
    "C74_bytes",
    "C74_distinct_refuted"
   ],
   "note": "Refuted for 0.0 and -0.0 and for arrays inside pairs made under different limits, for some hash function: the hasher is a parameter. Different values of one simple kind can be told apart; an integer always shares its hash with a range (refuted)."
  },
  {
   "property": "C75",
   "status": "proved",
   "theorems": [
    "C75_names"
   ],
   "note": "The list of names is in SpecLib.v."
  },
  {
   "property": "C76",
   "status": "proved",
   "theorems": [
    "C76_conditions"
   ],
   "note": ""
  },
  {
   "property": "C77",
   "status": "partial",
   "theorems": [
    "C77_refused",
    "C77_accepted_partial",
    "C77_promotion",
    "C77_unary"
   ],
   "note": "A text times a negative number is refused with the same error as operands of the wrong types."
  },
  {
   "property": "C78",
   "status": "partial",
   "theorems": [
    "C78_tables",
    "C78_short_circuit_refuted"
   ],
   "note": "Both operands are always evaluated (refuted)."
  },
  {
   "property": "C79",
   "status": "proved",
   "theorems": [
    "C79_floor",
    "C79_ceil",
    "C79_round",
    "C79_special",
    "C79_fix"
   ],
   "note": "@fix is stated in terms of float multiplication, rounding and division; the power of ten is the standard library's powi (a parameter)."
  },
  {
   "property": "C80",
   "status": "partial",
   "theorems": [
    "C80_int_text",
    "C80_int_radix",
    "C80_int_number",
    "C80_float",
    "C80_bool",
    "C80_char",
    "C80_color_int",
    "C80_color_text",
    "C80_color_text_refuted",
    "C80_refused"
   ],
   "note": "@color also accepts texts that are not colours (refuted). Reading a float from a text is the standard library's (a parameter). @char takes the code modulo 2^32."
  },
  {
   "property": "C81",
   "status": "proved",
   "theorems": [
    "C81_assert",
    "C81_assert_eq",
    "C81_failures"
   ],
   "note": ""
  },
  {
   "property": "C82",
   "status": "proved",
   "theorems": [
    "C82_gettype"
   ],
   "note": ""
  },
  {
   "property": "C83",
   "status": "proved",
   "theorems": [
    "C83_one",
    "C83_others"
   ],
   "note": "The functions themselves are the platform's (parameters); square root, addition and multiplication are IEEE operations of the standard library."
  },
  {
   "property": "C84",
   "status": "partial",
   "theorems": [
    "C84_wheel",
    "C84_grey",
    "C84_alpha",
    "C84_contrast_color",
    "C84_brightness",
    "C84_luma",
    "C84_opaque",
    "C84_rainbow",
    "C84_saturate_refuted"
   ],
   "note": "@saturate and @desaturate mix a colour with itself (refuted). The wheel is proved for whole degrees at full saturation, grey for whole degrees."
  },
  {
   "property": "C85",
   "status": "proved",
   "theorems": [
    "C85_capitalize",
    "C85_title",
    "C85_case",
    "C85_trim_ends"
   ],
   "note": "Case tables and white space are the standard library's (parameters). @lowercase of a final sigma is simplified in the model."
  },
  {
   "property": "C86",
   "status": "proved",
   "theorems": [
    "C86_reading",
    "C86_one_reading",
    "C86_comment_refuted",
    "C86_range_refuted"
   ],
   "note": "Texts that spell a program are described in SpecProg.v independently of the grammar. A comment at the very end of the text without an end of line is not part of the description; nothing is claimed about texts that spell no program."
  },
  {
   "property": "C87",
   "status": "partial",
   "theorems": [
    "C87_accepted",
    "C87_meaning",
    "C87_library",
    "C87_run_partial"
   ],
   "note": "Acceptance and meaning are proved in full. The run of the machine is proved under the conditions of C01 (program size, places of declarations, limits of stack and time, behaviour settled by the definition of programs); for layouts that keep different places different, C103_run proves it of every run."
  },
  {
   "property": "C88",
   "status": "partial",
   "theorems": [
    "C88_ends_partial",
    "C88_result",
    "C88_refused",
    "C88_kept",
    "C88_settled"
   ],
   "note": "The status and output of a program that runs are proved under the conditions of C01 (program size, places of declarations, limits of stack and time, behaviour settled by the definition of programs). The flags of the command line are C96; reports of errors in the reading of the text point to the start of the main file."
  },
  {
   "property": "C89",
   "status": "partial",
   "theorems": [
    "C89_entry_partial",
    "C89_line_refuted"
   ],
   "note": "The line shown is the right one, but the number printed is one less than the line's number, always (refuted). ASCII texts with line feeds; what the crate that draws reports says of lines is assumed and the assumption is met by a simple implementation."
  },
  {
   "property": "C90",
   "status": "partial",
   "theorems": [
    "C90_distinct",
    "C90_words",
    "C90_title",
    "C90_operator",
    "C90_limit_refuted"
   ],
   "note": "Names are printable and names of types have no backtick; the texts of syntax errors and durations belong to other crates. The messages about 256 items and arguments are wrong by one (refuted)."
  },
  {
   "property": "C91",
   "status": "partial",
   "theorems": [
    "C91_kept",
    "C91_end_refuted",
    "C91_traceback_refuted"
   ],
   "note": "The loop never ends at the end of the input, and prints the traceback of an earlier error (both refuted)."
  },
  {
   "property": "C92",
   "status": "proved",
   "theorems": [
    "C92_parse",
    "C92_includes",
    "C92_include_error",
    "C92_compile_error",
    "C92_run_error",
    "C92_files"
   ],
   "note": "All programs, files and runs. The exact offset of a syntax error is not modelled."
  },
  {
   "property": "C93",
   "status": "partial",
   "theorems": [
    "C93_blame_partial",
    "C93_calls_partial",
    "C93_outermost_refuted",
    "C93_arity_refuted"
   ],
   "note": "Every error is traced to the construct and the values that caused it, with the kinds of errors reported elsewhere listed exactly; that wrong arity is reported at the call, and that the last line of a traceback is a call, is false (refuted). Less than 2^16 constants and symbols."
  },
  {
   "property": "C94",
   "status": "partial",
   "theorems": [
    "C94_text",
    "C94_same_partial",
    "C94_printed_partial",
    "C94_output_partial",
    "C94_files_partial",
    "C94_hint_refuted"
   ],
   "note": "The printed text determines the listings and consists of the pages, rows and words it should (less than 2^16 constants and symbols); that the explanation of a constant determines the constant is false (refuted). Colours are not modelled."
  },
  {
   "property": "C95",
   "status": "proved",
   "theorems": [
    "C95_data",
    "C95_output"
   ],
   "note": "For hosts that answer alike, with any relation between their data; C95_output is the instance of the standard library with callbacks that leave the world alone."
  },
  {
   "property": "C96",
   "status": "proved",
   "theorems": [
    "C96_flags",
    "C96_refused",
    "C96_none",
    "C96_limits"
   ],
   "note": "Times are what the clock gives (a parameter); the parsing of the command line belongs to another crate. That the disassembly does not fail is C39."
  },
  {
   "property": "C97",
   "status": "proved",
   "theorems": [
    "C97_program",
    "C97_session",
    "C97_texts"
   ],
   "note": "The drawing itself (another crate) is a parameter. The disassembly printed with --disassemble is not covered."
  },
  {
   "property": "C98",
   "status": "partial",
   "theorems": [
    "C98_literal",
    "C98_program",
    "C98_apart",
    "C98_refuted",
    "C98_float_refuted",
    "C98_least_refuted"
   ],
   "note": "Texts, whole floats and (as a program) the smallest integer do not read back (refuted). Floats are read and written by the standard library: those with a point that it reads back. Floats below zero are covered as literals only."
  },
  {
   "property": "C99",
   "status": "proved",
   "theorems": [
    "C99_registered",
    "C99_lookup",
    "C99_documented",
    "C99_defaults",
    "C99_defaults_all"
   ],
   "note": "The descriptions in the documentation are not modelled; the tables of parameters, types and defaults are those the macros generate."
  }
 ]
}