# Formal model of quilt: design

quilt is a small scripting language: a PEG parser, a one-pass bytecode compiler, a stack VM with
closures, and a library of builtins. The model is written in Gallina (Coq 8.16.1), function by
function, and every theorem is about that model.

## 1. Layout (rocq/theories)

| files | contents |
|---|---|
| `Base.v` | results, panics, build modes, machine integers, strings, spans, errors |
| `RleVec.v Pool.v Vecc.v Bluff.v` | containers of `common/` |
| `Bytecode.v Chunk.v` | `bytecode/` |
| `Float.v Value.v Arith.v` | values and operators of `interpreter/` |
| `Ast.v Parse.v Includes.v` | `parser/`: syntax trees, the whole PEG grammar, includes |
| `ExTests.v` | the programs of `src/tests/*.ql`, parsed, compiled and run inside the model (tests of the model, not proofs) |
| `Compiler.v` | `compiler/` |
| `Vm.v` | `interpreter/src/vm.rs` |
| `Args.v Builtins.v` | argument matching and `qstd/`, the builtins whose results depend on their arguments alone |
| `Console.v` | the rest of `qstd/`: io, time, random numbers, `@hash`, as functions of a world outside |
| `SpecLib.v ProofLib*.v PropLib.v` | operators, conversions, rounding, colours and texts |
| `Docs.v SpecDocs.v ProofDocs*.v PropDocs.v` | the documented signatures of the builtins (C99) |
| `Embed.v SpecEmbed.v ProofEmbed*.v PropEmbed.v` | src/lib.rs: building scripts for a host, with any resolver of includes (C100) |
| `Std.v` | registration of the standard library with a machine (`qstd/src/lib.rs`) |
| `Items.v CodeRel.v CodeSize.v ProofCode*.v` | the code each syntax tree compiles to, as a relation, and the proof that the compiler emits it |
| `ProofHeight*.v ProofReady*.v ProofRel.v` | stack heights of compiled code; the machine invariant built on them; values related through their callables |
| `SpecEval.v SpecRel.v SpecFlow.v` | the language definition by direct evaluation of the syntax tree; values related through their callables; what single constructs mean |
| `ProofSim*.v ProofEval*.v ProofFlow*.v` | the simulation between the language definition and the machine running compiled code, both directions; its consequences for `for`, `switch`, blocks and contexts |
| `SpecExpr.v ProofExpr*.v` | how expressions are written; each such text is read as its expression |
| `SpecProg.v ProofProg*.v PropProg.v` | how whole programs are written; each such text is read as its program (C86) |
| `SpecLayout.v ProofLayout*.v PropLayout.v` | two texts of one program behave the same, whatever their layout (C87) |
| `Report.v Cli.v` | common/src/error.rs, cli/src/main.rs, the loop of cli/src/repl.rs |
| `SpecReport.v ProofReport*.v ProofCli*.v PropCli.v` | the command line program, tracebacks, messages, the loop (C88-C91) |
| `SpecPos.v ProofPos*.v PropPos.v` | positions of errors and tracebacks (C92, C93) |
| `SpecDrawn.v ProofSpans*.v ProofDrawnEx.v PropDrawn.v` | all positions in code and reports lie in the texts (C92, C97) |
| `SpecListing.v SpecTold.v ProofListing*.v ProofTidy*.v ProofToldEx.v PropListing.v` | printed listings (C94) |
| `SpecNames.v ProofNames*.v PropNames.v` | names (C101) |
| `SpecLimits.v ProofLimits*.v PropLimits.v` | raising limits (C102) |
| `SpecRename.v ProofRename*.v PropRename.v` | renaming and moving (C103) |
| `SpecOnly.v ProofOnly*.v PropOnly.v` | builtins a program does not mention (C104) |
| `SpecBuilds.v ProofBuilds*.v PropBuilds.v` | checked and release builds (C105) |
| `SpecMove.v ProofMove*.v PropMove.v` | white space before a program, the number of its source (C106) |
| `Main.v SpecData.v SpecMain.v ProofData.v ProofMain*.v PropMain.v` | cli/src/main.rs with all flags; hosts that answer alike (C95, C96) |
| `SpecEq.v ProofEq.v ProofTight.v PropTight.v` | more about C12, C30, C48, C59, C72, C73, C74, C80: refusals, equality of callables, clock, random choices, hashes |
| `ProofStatic*.v ProofJump.v` | the checks of the compiler as a judgement on its monad; jump distances |
| `Disasm.v Listing.v Repl.v Lines.v` | `disassembler/` (without colours), `cli/src/repl.rs`, `common/src/sourcecache.rs` |
| `Spec*.v` | small specifications written independently of the model |
| `Proof*.v` | lemmas |
| `Prop*.v` | the property theorems only, each with `Print Assumptions` and an `Example` |

## 2. Modelling decisions

* **Results.** Rust `Result`/`Option` stay data. A panic (index out of bounds, failed `debug_assert`,
  arithmetic overflow in a checked build, `unreachable!`) is an explicit outcome `Panic`; nothing is
  silently defined away. Fuel exhaustion is a separate outcome, excluded by statement.
* **Build mode.** `mode := Debug | Release`. `Debug` = overflow checks and debug assertions on;
  `Release` = the profile in Cargo.toml (wrapping arithmetic, no debug assertions).
* **Integers.** `i64`, `i32`, `u16`, `u8`, `usize` are `Z`/`N`/`nat` with explicit wrapping at every
  arithmetic step of the source where a script or caller can make it overflow. `usize` is 64 bit.
* **Floats.** `f64` is `spec_float` with precision 53 and exponent bound 1024 from the standard library's
  `Coq.Floats.SpecFloat` (pure Gallina, no axioms). NaN payloads are not distinguished. `powf`, the
  libm functions and float formatting/parsing are parameters (a record of host functions).
* **Strings.** A Rust `String` is a list of Unicode scalar values; `len()` is the UTF-8 byte length.
* **`Rc`/`RefCell`.** Immutable shared data is plain data. Upvalue cells live in an explicit heap.
* **Hash maps and sets.** Association lists with the map's observable semantics (hash quality, iteration
  order and capacity are not modelled; no modelled function iterates over a map).
* **Time.** The k-th clock reading is an arbitrary function of k.
* **Host.** Builtins are arbitrary functions on host data and argument values.
* **Not modelled:** memory exhaustion, native stack overflow (except where a theorem speaks about unbounded
  recursion), error message formatting with ariadne, documentation generation, threads (`arc` feature).
* **World.** For builtins that reach outside (Console.v) the host data is a record: the text written so far,
  the lines that can still be read, the files by name, the clock by number of the reading, the random numbers
  by number of the draw, and the standard library's hasher as a function of the bytes fed to it. All of them
  are arbitrary; writing to the standard output never fails.

## 3. Properties

How each property will be modelled and proved ("refuted" = the full statement is false of the code; the
counterexample is proved as a theorem `..._refuted` and the part that holds as `..._partial`).

| id | model | proof |
|---|---|---|
| C01 | reference evaluator over syntax trees (environment + store), compiler, VM | forward simulation by induction on the evaluator's fuel, with a relation between variables and stack slots / upvalue cells |
| C02 | compiler + VM | refuted by running the compiled example; partial (block as left operand) from the simulation |
| C03 | compiler + VM | invariant: every compiled function has a consistent stack-height typing; preserved by each VM step |
| C04 | VM | invariant over `step` |
| C05 | VM | invariant over `step` |
| C06 | VM with a clock oracle | counting argument over the instruction counter |
| C07 | operators | case analysis; wrapping multiplication refuted |
| C08 | operators, CreateArray | case analysis + induction over pushes |
| C09 | upvalue heap of the VM | refinement to one abstract cell per variable, over all operation histories |
| C10 | compiler (SpecStatic.v, ProofStatic*.v) | refuted for top-level blocks; partial: rejected among the top-level statements |
| C11 | VM IterNext; compiler + VM | induction over the iteration; the whole loop from the simulation |
| C12 | VM CreateRange | refuted beyond 32 bits; partial inside |
| C13 | compiler + VM | corollary of the simulation, stated on the reference semantics and on code |
| C14 | compiler jump helpers + VM (SpecJump.v, ProofJump.v) | arithmetic on offsets, both directions; the machine's step |
| C15 | compiler (SpecStatic.v, SpecCount.v, ProofStatic*.v, ProofCount*.v, PropCount.v) | induction on the tree for every count; an invariant of the compiler for the number of parameters of every function; the cut of code into pieces (C93) for the counts in instructions |
| C16 | pools | invariant over add sequences; refuted past 65536 entries |
| C17 | VM globals | invariant over operation histories |
| C18 | VM externals + compiler | invariant over host call histories |
| C19 | compiler + VM contexts | refuted (return, plain function); partial: runs of compiled programs add properly nested events, from the simulation |
| C20 | VM callbacks | invariant over `step` |
| C21 | VM CallFunction | case analysis |
| C22 | chunk | invariant over operation histories |
| C23 | VM trace_back | refuted (count is off by one); partial |
| C24 | REPL session | refuted; partial |
| C25 | VM builtin table | invariant; refuted across update_script |
| C26 | VM Unpack | case analysis; refuted for colours (panic) |
| C27 | fix_index | arithmetic; both build modes |
| C28 | operators | arithmetic |
| C29 | operators | refuted; exact characterisation of the crashing operands |
| C30 | operators, equality | induction on values |
| C31 | join + Vecc | refuted for literal left operands; partial |
| C32 | operators | induction |
| C33 | operators | refuted for `..`; partial |
| C34-C37 | containers | refinement to lists over all histories; Vecc refuted for `set`/failed `extend` |
| C38 | bytecode | list reasoning |
| C39 | disassembler | instruction-boundary induction |
| C40 | add_implicit_none | induction on the tree |
| C41 | hex parsing | computation on all digits; 7-digit form refuted |
| C42 | INT rule | round trip; overflow refuted |
| C43 | includes | refuted (nested includes, cycles); partial for flat includes |
| C44 | argument container | induction on argument lists |
| C45-C51 | qstd builtins | list reasoning; refuted parts as found |
| C52 | VM update_script | refuted; partial |
| C54-C60 | qstd builtins | exhaustive evaluation over bytes lifted by `forallb` for C54/C55, list reasoning, case analysis over the whole builtin table for C60 |
| C53 | source cache | the line table belongs to the `ariadne` crate, which is not in the repository: its contract is a parameter (`line_table`; for C39 also `end_line`: the end of a text is on one of its lines) |
| C61 | compiler (SpecStatic.v, ProofStatic*.v) | induction on the tree |
| C65 | disassembler | refuted; partial |
| C62 | REPL session (Repl.v, SpecRepl.v) | invariant over sessions: the name table only grows |
| C66 | PEG combinators (Parse.v, ProofParse4.v) | every rule that recurses has consumed input; induction on the input length |
| C67 | grammar of Parse.v against the notation defined in SpecExpr.v (`spelled`) | induction on how the text is built: each operand is read up to what may follow it; every operator text is told apart from every entry of the table |
| C68 | everything a machine holds (`holds`, SpecHeld.v), the parser, the compiler, Builtins.v registered by Std.v | an invariant kept by every instruction and host action; every literal rule, every operator and every builtin keeps values within their types |
| C69 | `@str` and the text of values | `written` (SpecText.v) is a relation between values and texts; the model's text is related and the relation is functional |
| C70 | printing builtins, the machine with `stdio` | computation with `written`; `after` (SpecConsole.v) is an invariant of every step, `ProofVm.stable` |
| C71 | `@input`, `@readfile` | case analysis; `trimmed` is the specification of trimming |
| C72 | `@date` | refuted against the Gregorian calendar of SpecConsole.v; the time of day is proved |
| C73 | random builtins | range and membership lemmas; every member can come out |
| C74 | `@hash` | equal plain values are the same value; refuted for signed zeros and arrays inside pairs |
| C75 | names of the library | membership both ways by computation on the registration lists |
| C76 | `is_truthy` | case analysis on the value |
| C77 | operators | table of operand types (SpecLib.v) against every pair of constructors |
| C78 | `&&`, `\|\|`, `!` | truth tables; refuted: both sides run |
| C79 | rounding | whole numbers below 2^53 normalise to themselves; then integer division against `Qfloor` |
| C80 | conversions | numerals as sign and digits with a value, both directions |
| C81 | assertions | case analysis, messages in full |
| C82 | `@gettype` | case analysis |
| C83 | mathematical functions | unfolding to the platform's function |
| C84 | colours | all 360 degrees by computation; grey by algebra of zeros and NaN; refuted: saturation |
| C85 | texts | words as a relation, functional and total |
| C86 | the grammar of Parse.v against the notation defined in SpecProg.v (`spelled_body`) | one induction on how the text is built (45 ways), with an eventual-fuel logic (`M`, `F`) for the parsers; what may follow each construct is a separate relation (`follow`) |
| C87 | parser, compiler, evaluator and machine on two layouts of one program (trees that agree once positions are erased) | a relation between trees, compiler states, evaluator states; induction on the tree for the compiler and on fuel for the evaluator; the machine through C01 |
| C88 | `cli` of Cli.v: reading, includes, compiling, running, status and output | composition of C01 with the monotonicity of every part in its fuel; the invariant of C70 for what is kept |
| C89 | `trace_entry` of Report.v with the line table as a parameter | the line around a position by induction on the text; refuted: the number |
| C90 | `error_text` of Report.v | texts are cut at quotes, backticks and spaces; 43 x 43 kinds; refuted: the limits in the words |
| C91 | `round`, `rounds` of Cli.v | invariant over rounds; refuted: end of the input, traceback |
| C92 | positions in `Ast.v`, `Parse.v`, `Includes.v`; span tables of `Chunk.v`; errors of `Vm.v` | parser combinator invariant; positions kept by compiler and machine (ProofSpans*.v) |
| C93 | the same; `trace_back` of Vm.v | the piece at the instruction pointer names its node; each instruction's error is that of the node on the values on the stack; refuted: arity, last line |
| C94 | Listing.v: the text of listings, a row and a heading at a time | fields end at a space, rows at a line break, headings at a comma: cut and compare; the words of a row against those of the decoded instruction; that listings of programs are tidy (names on one line, without commas) from C101's invariant; refuted: constants' explanations |
| C95 | Vm.v over two types of data | a relation between machines that is equality but for the data and the builtins; each instruction keeps it; instance: worlds that differ in what was printed |
| C96 | `quilt` of Main.v | composition of C95 with the parts of `main`; without flags it is `cli` of Cli.v by computation |
| C97 | `cli`, `rounds` with the printer as a parameter | the positions in the code of all functions are in the texts: invariant of compiler, machine and sessions, for a predicate that grows with the cache |
| C98 | `display`, the literal and code parsers, compiler and machine (SpecRound.v, ProofRound*.v, PropRound.v) | induction on the value: the text shown is a spelling of a literal (C86); C01 for the run |
| C99 | the documentation tables of the builtins and the standard library (Docs.v, SpecDocs.v, ProofDocs*.v, PropDocs.v) | the documented kinds of a parameter agree with its conversion, builtin by builtin; results by cases on each body |
| C100 | `build_script` of src/lib.rs with the traits of parser/src/includes.rs, resolvers as records of functions (Embed.v, SpecEmbed.v, ProofEmbed*.v, PropEmbed.v) | induction on the fuel and the program; the files as a relation; positions by an invariant on the cache |
| C101 | names in programs (Parse.v) and in what the compiler makes of them (Compiler.v); `identifier`, `said`, `knows`, `made_up` in SpecNames.v (ProofNames*.v, PropNames.v) | induction over the parser's grammar; an invariant of the compiler for any predicate on names that holds of the source's and of the made up ones |
| C102 | runs of two machines with different limits of stack, calls and time (Vm.v, Cli.v); `roomier`, `limit_error`, `fair`, `alike`, `twins` in SpecLimits.v (ProofLimits*.v, PropLimits.v) | simulation of the machine by one with a longer stack, instruction by instruction; that the library's builtins do not look at these limits. Runs that abort are left out |
| C103 | the compiler (Compiler.v) on a program and on the program with its names replaced and its positions moved (different places to different places), and runs of both (Vm.v); `renaming`, `rename_program`, `renamed_script` in SpecRename.v (ProofRename*.v, PropRename.v) | simulation of the compiler by itself, operation by operation: tables and locals correspond under the renaming, runs of positions under the move; induction on the syntax tree. The names the compiler makes up are kept by a renaming. Runs: simulation of the machine by itself, instruction by instruction, with the names in functions and tables replaced; every builtin of the library reports errors without names and does the same with functions whose names are kept |
| C104 | runs of one program on machines with different builtins (Vm.v); `mentions`, `same_run` in SpecOnly.v (ProofOnly*.v, PropOnly.v) | simulation of the machine by itself with other tables, with the invariant of C93 that every instruction that runs belongs to a construct of the source |
| C105 | the compiler, the machine, the library, sessions and the command with `Debug` and with `Release` (all modules that take a mode); `checked_run`, `checked_session` in SpecBuilds.v (ProofBuilds*.v, PropBuilds.v) | a checked operation panics or gives the same result; induction on the syntax tree, simulation instruction by instruction, induction on the lines |
| C106 | `Parse.v` at two positions of the text, then C103; `slide`, `after_text` in SpecMove.v (ProofMove*.v, PropMove.v) | rule by rule of the grammar: on the same rest of the text a rule takes the same and gives the same tree, moved; induction on the fuel of the grammar, and on the pieces of white space |
| C63, C64 | REPL session | refuted by concrete sessions |

## 4. Trusted base

* Coq's kernel.
* The reading of the Rust sources recorded in the comments of the model, and the parameters listed in
  section 2.
* The semantics of the `peg` 0.8.1 crate, which is not in the repository. `Parse.v` models a grammar as
  PEG combinators: ordered choice without backtracking into a choice already made, greedy repetition,
  `x ** s` consumes a separator only together with the item behind it. `precedence!` is modelled as
  precedence climbing: the rules that start with a token are tried in order at every level, an infix rule
  applies when its level is at least the current one, its right operand is one level higher, calls and
  indices bind tightest.
* `Print Assumptions` is printed under every property theorem and says "Closed under the global context"
  for each of them. The constants `Coq.ssr.ssrunder.Under_rel.*` that a listing of the whole environment
  shows belong to Coq's standard library (`ssreflect` files it loads); no theorem depends on them.
* No axioms of our own, no `Admitted`, no section-less `Variable`, no functors.

## 5. What is not modelled

How often the random generator draws and the distribution of its results; the offsets inside syntax errors (the file is); the `Rc` pointer shortcut of
equality; the final-sigma rule of `to_lowercase`; the drawing of error reports (their texts are in Report.v); the descriptions of builtins in the documentation; web bindings;
benchmarks; macro crates (their expansion is modelled where it is used: argument matching in `Args.v`).

## 6. Findings: where the code does not do what a user would expect

Each is proved as a `..._refuted` theorem or recorded in the model's comments.

1. Pool ids are 16 bits and wrap silently after 65536 entries; `Pool::update` leaves the old key behind (C16).
2. `Vecc::set` past the end and a failed `extend` (C34-C37); literal arrays have no spare room (C31).
3. A negative index panics in a checked build (C27, C45).
4. A block that declares variables while an operand is pending reads the wrong slots (C02).
5. `return` inside `with` skips the exit function; a plain function used in `with` (C19).
6. The runtime limit is looked at every 66 instructions (C06).
7. `update_script` keeps the externals of the old script; `reset_state` forgets open upvalues (C52); builtin ids
   go stale across scripts (C25); a REPL line that fails to compile leaves the compiler dirty (C24).
8. Nested includes are rejected as circular, repeated files too, real cycles recurse forever (C43).
9. Colours of seven digits are accepted (C41); integers out of range read as 0, the least integer cannot be
   written (C42); `\u{..}` escapes are never processed; `**=` cannot be parsed; `x ~ y` makes the compiler
   panic; `&&` and `||` share one level and do not short-circuit; `let x = 1; x` (a space after the semicolon)
   is a syntax error; a line that begins with `-` or `[` continues the line before it.
10. `@slice` aborts when the end is past the length (C46); `@len` counts bytes (C48); `@truncate` (C50);
    `@int_from_radix(@bin(n))` fails for negative n (C49); `@complement` is always #00000000 (C55); NaN passed
    as a colour channel becomes 255.
11. `1 == 1.0` is false though `1 <= 1.0` and `1 >= 1.0` (C30).
12. `return` in a top-level block is accepted (C10).
13. Array items are evaluated right to left; an index before its target.
14. The stack trace is off by one from ten frames on (C23).
15. `for` reserves its hidden variables before compiling the iterable, so a declaring block inside the iterable
    uses slots one above the top of the stack (C03).
16. Unpacking a colour into more than four names panics (C26).
17. Comparing closures that capture themselves recurses forever (C60).
18. Line numbers: spans count bytes, the line table counts characters (C53).
19. In the REPL a call of an unknown builtin can reach a builtin registered by an earlier line (C63).
20. After a run that failed, closures kept in globals read whatever lies in their old stack slot (C64).
21. The disassembler leaves out instructions whose position has no line (C39), does not mark the targets of
    backward jumps and marks lines of other functions instead (C65); it looks local names up in a pool of
    distinct names, so slots of blocks can show another variable's name.
22. `let a, a = v` binds the first part when the variables are local and the last one when they are global: the
    language definition of SpecEval.v follows the code here.
23. `@date` treats every year as 365 days and every month as 30, and counts months and days from zero: at the
    epoch it says `1970-0-0 0:0:0` (C72).
24. `@randfloat` aborts when an end is NaN or the range is too wide (C73).
25. `0.0 == -0.0`, and pairs that hold equal arrays made under different limits are equal, but `@hash` feeds
    different items to the hasher for them (C74).
26. `@input` gives the empty text at the end of the input (C71), so a program cannot tell; `@readfile` makes
    texts longer than the limit on texts.
27. `@float` of a value that is not a number says it cannot be converted to `int`; a text times a negative
    integer is reported as an unsupported operand type (C77).
28. `@color` accepts any text of three, six or at least eight characters; what is not hexadecimal counts as 0,
    and `+f` is a digit pair (C80).
29. `@saturate` and `@desaturate` mix a colour with itself; `@hue` computes the brightness and `@saturation`
    the contrast (C84). `@char` takes its argument modulo 2^32 (C80).
30. A semicolon ends a comment: in `1 // a;b` the name `b` is part of the program (C86).
31. Two integers with a colon between them are a literal range before any operator is looked at: `x + 1 : 2`
    adds the range `1 : 2` to `x`, though every operator binds tighter than the colon (C86).
32. `if` is not reserved: `if = 3` is an assignment to a variable called `if` (SpecProg.v).
33. Line numbers in tracebacks are counted from 0, those of the drawn reports from 1 (C89).
34. 256 items, arguments or parameters are refused with the words that more than 256 are too many (C90).
35. The interactive loop does not end at the end of the input: it prints its prompt for ever (C91).
36. A line that does not parse or compile is reported with the traceback of an earlier failed line (C91).
37. The last line of a traceback (the main program) is computed without going one back, so it shows the code after the call, e.g. another element of a list (C93).
38. A wrong number of arguments, like stack overflow and a context manager called as a builtin, is reported at the code that would run next, not at the call (C93).
39. `@hash` feeds no mark of the kind to the hasher, so an integer always has the hash of some range, e.g. 0 and 0..0 (C74).
40. A closure that holds itself in a captured variable (`let g = 1; fn f() { g }; g = f`) crashes the process when it is compared with `==`: the comparison has no end (C30).
41. In a listing an integer and a float without fraction are printed alike: `1` and `1.0` both as `(1)` (C94).
42. What is shown does not read back for texts (no quotes), whole floats (`1.0` is shown as `1`) and the smallest integer, which as a program is 0 (C98).
43. `build_script` drops the source cache when it succeeds, so a host cannot draw the run-time errors of a script with includes; the positions refer to the dropped texts (C100).
44. With a resolver that does not refuse repeated files itself, a file that includes itself overflows the stack (C100).
45. Identifiers of constants have sixteen bits and wrap without a warning: the program `0;1;…;65536` compiles and comes to 0 (C01_size_refuted). The same holds of the identifiers of names.
