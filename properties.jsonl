{"id": "C01", "title": "Running a compiled program agrees with the language definition", "statement": "If a program in which every variable-declaring block stands where no operand is pending compiles, then running the script returns the value, performs the same builtin calls on the host data, leaves the same globals, or stops with the same kind of error, as evaluating the program directly by the rules of the language (lexical scopes, closures over variables, expressions yielding values, left-to-right calls), unless the VM reports that a configured resource limit was hit.", "quantifier": "all programs (syntax trees of any size and nesting), all host builtins, all VM limits, all host data", "why_tests_cant": "A test runs one program; agreement must hold for every nesting of blocks, loops, closures, contexts and returns, and for every way variables can be captured.", "anchors": ["compiler/src/lib.rs: Compiler::compile, compile_stmnt, compile_expr, exit_scope", "interpreter/src/vm.rs: VM::run", "interpreter/src/arith.rs"]}
{"id": "C02", "title": "A block means the same thing wherever it is written", "statement": "The value of an expression does not depend on whether one of its operands is a block that declares variables: `1 + { let x = 2  x }` is 3. Locals declared in a block never overwrite operands of the enclosing expression that are still pending.", "quantifier": "all expressions and all positions of a variable-declaring block inside them", "why_tests_cant": "Whether a local collides with a pending operand depends on how many operands are pending at that position, for every operator and nesting.", "anchors": ["compiler/src/lib.rs: define_local, set_variable, compile_block", "interpreter/src/vm.rs: SetLocal, LoadLocal"]}
{"id": "C03", "title": "Compiled code is always well formed", "statement": "Whatever the program, a script produced by a successful compile never makes the VM pop an empty stack, read an operand or constant that does not exist, jump outside the code or into the middle of an instruction, or run past the end of a function.", "quantifier": "all syntax trees as the parser builds them (every body ends in a value or a return), all executions", "why_tests_cant": "The fault would be an out-of-bounds access or a wrapped stack pointer on some path of some program; no finite set of programs covers all paths.", "anchors": ["compiler/src/lib.rs: Compiler::compile", "interpreter/src/vm.rs: VM::run, pop, pop_many, peekn, read_constant"]}
{"id": "C04", "title": "The value stack never exceeds the configured size", "statement": "In every state reachable while running any script, the number of live stack values is at most VmOptions.stack_size, and an attempt to go beyond it is reported as StackOverflow instead of writing out of bounds.", "quantifier": "all scripts, all reachable VM states, all stack sizes", "why_tests_cant": "The bound must hold after every instruction of every execution, including deep recursion and large unpacks.", "anchors": ["interpreter/src/vm.rs: push, push_unchecked, push_many, VmOptions.stack_size"]}
{"id": "C05", "title": "Call depth never exceeds the configured size", "statement": "In every reachable VM state the number of suspended calls is at most VmOptions.call_stack_size; the call that would exceed it fails with StackOverflow, so unbounded recursion always stops with an error.", "quantifier": "all scripts, all reachable states, all call-depth limits", "why_tests_cant": "Must hold along every execution, not just for one recursive test function.", "anchors": ["interpreter/src/vm.rs: CallFunction, VmOptions.call_stack_size"]}
{"id": "C06", "title": "The runtime limit always stops a script", "statement": "Once the clock has passed VmOptions.max_runtime, the VM executes only a bounded number of further instructions (the code comment says 64) before it reports RuntimeLimitExceeded, whatever the script does; a run that never passes the limit is never stopped for it.", "quantifier": "all scripts, all clock behaviours (any sequence of elapsed-time readings), all points of the execution", "why_tests_cant": "Needs every script and every schedule of clock readings; a test sees one wall clock.", "anchors": ["interpreter/src/vm.rs: VM::run (n > 64), has_runtime_exceeded, VmOptions.max_runtime"]}
{"id": "C07", "title": "String operators respect the string size limit", "statement": "Every string produced by +, * or .. is at most VmOptions.string_max_size bytes long; a larger result is reported as StringTooLarge and never built.", "quantifier": "all operands and all limits", "why_tests_cant": "The size check is integer arithmetic on arbitrary lengths and counts; only particular overflowing operands break it.", "anchors": ["interpreter/src/arith.rs: add, multiply, join"]}
{"id": "C08", "title": "Arrays respect the array size limit", "statement": "Every array built by an array expression, .. or the list builtins records exactly the total size of its elements and that size is at most VmOptions.array_max_size; anything larger is reported as ArrayTooLarge.", "quantifier": "all element values and all limits", "why_tests_cant": "Sizes of nested arrays, pairs and strings are unbounded.", "anchors": ["interpreter/src/vm.rs: CreateArray", "interpreter/src/arith.rs: join", "interpreter/src/value.rs: make_value_array, get_size"]}
{"id": "C09", "title": "A captured variable is one shared cell for its whole life", "statement": "All closures that capture the same variable, and the scope that declared it, read and write one and the same cell: after any interleaving of reads and writes through any of them, before and after the declaring scope has ended, each read returns the most recently written value, and writes to one variable never show up in another.", "quantifier": "all histories of capture, read, write and scope-exit operations over any number of variables and closures", "why_tests_cant": "Depends on the whole history of captures and closes; a test fixes one interleaving.", "anchors": ["interpreter/src/vm.rs: capture_upvalue, close_upvalues, LoadUpvalue, SetUpvalue", "interpreter/src/value.rs: Upvalue"]}
{"id": "C10", "title": "return is only accepted inside a function", "statement": "A program with a return statement that is not inside a function body is rejected at compile time with ReturnOutsideFunction.", "quantifier": "all programs and all positions of return", "why_tests_cant": "The position of return can be nested arbitrarily deep in blocks, loops and contexts.", "anchors": ["compiler/src/lib.rs: compile_stmnt (Node::Return)"]}
{"id": "C11", "title": "for visits every element once, in order", "statement": "A for loop over an array, range, string or colour runs its body once per element, in order from first to last, and for nothing else; the loop's value is the body's last value, or none if there were no elements.", "quantifier": "all iterable values, including empty ones and ranges with start >= end", "why_tests_cant": "Must hold for every length and every start/end pair; tests fix a few.", "anchors": ["interpreter/src/vm.rs: NewLoopCtx, IterNext", "compiler/src/lib.rs: Node::ForLoop"]}
{"id": "C12", "title": "A range expression covers exactly the integers between its ends", "statement": "start:end, with integer-valued ends, iterates start, start+1, ..., end-1.", "quantifier": "all pairs of 64-bit integers", "why_tests_cant": "Ends are arbitrary 64-bit integers; only some lie outside 32 bits.", "anchors": ["interpreter/src/vm.rs: CreateRange, IterNext"]}
{"id": "C13", "title": "switch runs the first equal case only", "statement": "switch evaluates its subject once, then the case expressions in order until one equals the subject, runs exactly that case's body, else the default body, else yields none.", "quantifier": "all subjects, all lists of cases", "why_tests_cant": "The number of cases and the position of the match are unbounded.", "anchors": ["compiler/src/lib.rs: Node::SwitchCase", "interpreter/src/vm.rs: JumpIfNotEq"]}
{"id": "C14", "title": "Jumps never silently land in the wrong place", "statement": "Every forward or backward jump the compiler writes lands exactly on the instruction it was meant for, at every distance; code for which a jump would not fit 16 bits is rejected with JumpTooLarge.", "quantifier": "all code sizes and all jump positions", "why_tests_cant": "Distances near and beyond 65535 do not occur in tests.", "anchors": ["compiler/src/lib.rs: write_jump, patch_jump, write_jump_backward", "interpreter/src/vm.rs: JumpForward, JumpBackward, JumpIfFalse, IterNext"]}
{"id": "C15", "title": "Too many arguments, parameters or items are compile errors", "statement": "A call, builtin call, context, function, lambda, unpack or computed array with more than 255 parts is rejected with the matching error; with 255 or fewer the count in the compiled code is exact.", "quantifier": "all counts", "why_tests_cant": "An off-by-one or a truncating cast only shows at the boundary.", "anchors": ["compiler/src/lib.rs: Node::Call, Node::BuiltinCall, Node::Array, Node::Function, Node::Lambda, Var::MultiDeclaration"]}
{"id": "C16", "title": "Different constants and names never share an identifier", "statement": "Interning two values in the same pool gives the same id only if the values are equal, and looking an id up returns the value that was interned under it, for the whole life of the pool.", "quantifier": "all sequences of add operations on a pool, of any length", "why_tests_cant": "The ids are 16 bit; a collision needs more than 65536 distinct entries.", "anchors": ["common/src/pool.rs: Pool::add, get, id, from_usize", "compiler/src/lib.rs: add_constant, add_global_symbol"]}
{"id": "C17", "title": "Global variables keep the last value given to them", "statement": "Reading a global returns the most recent value defined or assigned under that name; reading or assigning a name never defined is reported as an undefined-name error naming that name; other globals are unaffected.", "quantifier": "all sequences of define/assign/read operations over any names", "why_tests_cant": "A history property over all programs.", "anchors": ["interpreter/src/vm.rs: DefineGlobal, SetGlobal, LoadGlobal, insert_global", "compiler/src/lib.rs: add_global_symbol"]}
{"id": "C18", "title": "External variables: the host's value wins over the default", "statement": "A value set for a declared external before the run is the value the script sees, the script's default is used otherwise, setting a name the script does not declare external is rejected, and declaring the same external twice or outside the top level is a compile error.", "quantifier": "all scripts, all names, all host values, all orders of set_external calls", "why_tests_cant": "Depends on all combinations of host calls and declarations.", "anchors": ["interpreter/src/vm.rs: set_external, DefineGlobalDefaulted", "compiler/src/lib.rs: Node::ExternalDeclaration"]}
{"id": "C19", "title": "Every entered context is exited exactly once, innermost first", "statement": "For every with-block whose entry succeeded, its exit function runs exactly once when control leaves the block, also when it leaves through return, and never while an inner part of the block is still running.", "quantifier": "all programs with arbitrarily nested with-blocks and returns", "why_tests_cant": "Needs all nestings and all ways of leaving a block.", "anchors": ["interpreter/src/vm.rs: EnterContext, ExitContext, exit_fn_stack", "compiler/src/lib.rs: Node::ContextWrapped, Node::Return"]}
{"id": "C20", "title": "Function enter/exit callbacks balance", "statement": "In every run the host's on_enter_function callbacks minus its on_exit_function callbacks equals the current call depth; after a run that returns a value they balance.", "quantifier": "all scripts and all reachable states", "why_tests_cant": "A history property over all executions.", "anchors": ["interpreter/src/vm.rs: CallFunction, Return", "interpreter/src/builtins/mod.rs: VmData"]}
{"id": "C21", "title": "Calls check the callee and the argument count", "statement": "A call transfers control only to a function value whose arity equals the number of arguments, which become its parameters in order; anything else is reported (NotCallable, MismatchedArity) with the machine state unchanged.", "quantifier": "all callee values and all argument lists", "why_tests_cant": "Unbounded values and counts.", "anchors": ["interpreter/src/vm.rs: CallFunction"]}
{"id": "C22", "title": "Every code byte has a source position", "statement": "After any sequence of chunk writes and patches there is exactly one span per code byte; looking up a byte's span gives the span passed when that byte was written, and an index past the end gives the default span.", "quantifier": "all sequences of chunk operations", "why_tests_cant": "History property over run-length encoded data.", "anchors": ["bytecode/src/chunk.rs", "common/src/rlevec.rs"]}
{"id": "C23", "title": "The traceback lists or counts every active call", "statement": "A traceback shows the current call, the main script and the calls between them, newest first, and when it leaves some out it says exactly how many.", "quantifier": "all call depths", "why_tests_cant": "Depths around the cut-off are not tested.", "anchors": ["interpreter/src/vm.rs: trace_back"]}
{"id": "C24", "title": "A rejected REPL line leaves the session unchanged", "statement": "After a line that fails to compile, the next line behaves exactly as if the failed line had not been entered.", "quantifier": "all sequences of lines", "why_tests_cant": "Session histories are unbounded.", "anchors": ["cli/src/repl.rs: Repl::execute", "compiler/src/lib.rs: reset_state, compile_stmnts, clone_as_script"]}
{"id": "C25", "title": "A builtin call runs the builtin of that name or fails", "statement": "Calling @name runs the builtin registered under that name, with the arguments in order, or reports UndefinedBuiltin; it never runs a builtin registered under another name, also across REPL lines and script updates.", "quantifier": "all sets of builtins, all scripts, all sequences of update_script and add_builtins", "why_tests_cant": "Depends on the history of symbol ids.", "anchors": ["interpreter/src/vm.rs: add_builtins_list, update_script, CallBuiltin", "cli/src/repl.rs"]}
{"id": "C26", "title": "Destructuring binds the right parts", "statement": "let a1, ..., an = v binds ai to the i-th component of an n-element array, a pair (n=2) or the channels of a colour, and reports an error for any other value or count.", "quantifier": "all values and all counts", "why_tests_cant": "Unbounded values and counts.", "anchors": ["interpreter/src/vm.rs: Unpack", "compiler/src/lib.rs: Var::MultiDeclaration"]}
{"id": "C27", "title": "Indexing accepts exactly the indices -len..len-1", "statement": "v[i] returns element i for 0 <= i < len, element len+i for -len <= i < 0, and an index error for every other i, for arrays, strings, colours and pairs.", "quantifier": "all 64-bit indices and all lengths", "why_tests_cant": "Boundary arithmetic on 64-bit integers.", "anchors": ["interpreter/src/arith.rs: fix_index", "interpreter/src/vm.rs: IndexGet", "qstd/src/core.rs: @get, @set"]}
{"id": "C28", "title": "Integer arithmetic is exact when the result fits", "statement": "On integers, + - * ** negation, division (truncating), remainder (sign of the dividend), shifts and bit operators give the mathematical result whenever it is representable in 64 bits (and the shift/exponent is in range); otherwise the release build wraps modulo 2^64 and a checked build aborts.", "quantifier": "all pairs of 64-bit integers", "why_tests_cant": "2^128 operand pairs.", "anchors": ["interpreter/src/arith.rs: add, subtract, multiply, divide, modulo, power, negate, bitwise_*"]}
{"id": "C29", "title": "Operators never crash the host", "statement": "Applying any operator to any values returns a value or an error to the caller; it never aborts the process.", "quantifier": "all operators, all values", "why_tests_cant": "The crashing operands are rare combinations.", "anchors": ["interpreter/src/arith.rs", "interpreter/src/vm.rs: Unpack"]}
{"id": "C30", "title": "Comparison operators agree with each other", "statement": "On integers <, <=, >, >= and == are the usual total order; on any two numbers a < b is b > a and a <= b is b >= a; == is symmetric and != is its negation for all values, reflexive and transitive for values containing no NaN.", "quantifier": "all values", "why_tests_cant": "All pairs and triples of nested values.", "anchors": ["interpreter/src/arith.rs: less_than, less_than_or_equal, greater_than, greater_than_or_equal, equal, not_equal", "interpreter/src/value.rs: PartialEq"]}
{"id": "C31", "title": "Joining arrays concatenates them", "statement": "a .. b for arrays is the array of a's elements followed by b's whenever the combined size is within array_max_size, and ArrayTooLarge otherwise.", "quantifier": "all arrays, however they were produced", "why_tests_cant": "Whether it works depends on how the left operand was made, not only on its contents.", "anchors": ["interpreter/src/arith.rs: join", "common/src/vecc.rs: extend, force_new", "compiler/src/lib.rs: literal_to_value"]}
{"id": "C32", "title": "Joining and repeating strings", "statement": "s .. t concatenates, converting ints, bools and none to their text; s * n is s repeated n times for n >= 0 and an error for n < 0.", "quantifier": "all strings and counts", "why_tests_cant": "Unbounded operands.", "anchors": ["interpreter/src/arith.rs: join, multiply, add"]}
{"id": "C33", "title": "Colour operators stay in range", "statement": "Colour + - * saturate per channel at 0 and 255, / divides per channel, and .. gives the per-channel mean; the result is always a valid colour.", "quantifier": "all pairs of colours", "why_tests_cant": "2^64 pairs.", "anchors": ["interpreter/src/arith.rs: add, subtract, multiply, divide, join"]}
{"id": "C34", "title": "RleVec behaves like a plain vector", "statement": "After any sequence of push and push_n, len, get, first and last answer as a plain vector holding the same sequence would, and the number of stored runs is the number of maximal runs of equal elements.", "quantifier": "all operation sequences and element values", "why_tests_cant": "History property.", "anchors": ["common/src/rlevec.rs"]}
{"id": "C35", "title": "Interning is idempotent and order preserving", "statement": "Adding a value already in a pool returns its existing id and changes nothing; a new value gets the next id; ids handed out earlier keep resolving to the same value.", "quantifier": "all operation sequences", "why_tests_cant": "History property.", "anchors": ["common/src/pool.rs"]}
{"id": "C36", "title": "Vecc tracks the size of its contents", "statement": "After any sequence of operations the recorded size of a Vecc equals the sum of the sizes of the items it holds and never exceeds its maximum; a rejected operation changes nothing; contents change as for a plain vector.", "quantifier": "all operation sequences and item sizes", "why_tests_cant": "History property; a single wrong update only shows after later operations.", "anchors": ["common/src/vecc.rs"]}
{"id": "C37", "title": "Bluff behaves like a stack", "statement": "After any sequence of push, pop, peek, init, clear and drain, every answer is what a plain stack would give; values left in the reused buffer are never visible.", "quantifier": "all operation sequences", "why_tests_cant": "History property; stale buffer contents only show after particular interleavings.", "anchors": ["common/src/bluff.rs"]}
{"id": "C38", "title": "Bytecode writes and reads round-trip", "statement": "A u16 written at any position reads back unchanged, patching changes exactly the patched bytes, and inserting shifts the rest without loss.", "quantifier": "all 16-bit values, all positions, all code", "why_tests_cant": "All values and positions.", "anchors": ["bytecode/src/bytecode.rs: write_u16, read_u16, patch_u16, insert_u16"]}
{"id": "C39", "title": "The disassembler sees the instructions the VM executes", "statement": "Walking compiled code with the disassembler visits exactly the instruction boundaries the VM can stop at, each once, ends exactly at the end of the code, and shows jump targets equal to the VM's. The disassembly of a program never fails, and lists every function of the program, each before those defined in it.", "quantifier": "all compiled programs", "why_tests_cant": "All programs, including closures with any number of captured variables.", "anchors": ["disassembler/src/lib.rs", "interpreter/src/vm.rs: VM::run"]}
{"id": "C40", "title": "Every body produces a value", "statement": "After parsing, every block ends in an expression (or return) and every function body ends in a return of its last expression, none when there is nothing to return; nothing else in the body changes.", "quantifier": "all statement lists", "why_tests_cant": "All shapes of bodies.", "anchors": ["parser/src/parser.rs: add_implicit_none", "parser/src/node.rs: is_expression"]}
{"id": "C41", "title": "Colour text round-trips", "statement": "The text of any colour parses back to the same colour; 3-, 6- and 8-digit hex forms give the documented channels, every other length is rejected.", "quantifier": "all colours, all hex strings", "why_tests_cant": "2^32 colours and unbounded strings.", "anchors": ["parser/src/parser.rs: hex_to_rgba", "interpreter/src/value.rs: Display", "qstd/src/core.rs: @color"]}
{"id": "C42", "title": "Integer literals denote the number written", "statement": "A decimal integer literal evaluates to the integer it spells; one that does not fit 64 bits is rejected.", "quantifier": "all digit strings", "why_tests_cant": "Unbounded digit strings.", "anchors": ["parser/src/parser.rs: INT"]}
{"id": "C43", "title": "Includes splice each file once and detect cycles", "statement": "Resolving includes replaces every include by the parsed contents of its file, to any depth; a file that directly or indirectly includes itself is reported as CircularInclude; acyclic includes are never reported as circular.", "quantifier": "all finite file systems and include graphs", "why_tests_cant": "Include graphs are unbounded.", "anchors": ["parser/src/includes.rs: DefaultIncludeResolver, parse_with_includes, resolve_includes"]}
{"id": "C44", "title": "Builtins receive exactly the arguments they declare", "statement": "A builtin's arguments are matched left to right to its parameters with the documented conversions; missing, surplus or wrongly typed arguments are errors, and integer arguments for byte parameters are clamped to 0..255.", "quantifier": "all argument lists", "why_tests_cant": "Unbounded argument lists.", "anchors": ["interpreter/src/builtins/mod.rs: BuiltinArgsContainer", "interpreter/src/builtins/macros.rs"]}
{"id": "C45", "title": "@get and @set obey the array laws", "statement": "@set(l,i,v) returns a new list of the same length whose element at i is v and whose others equal l's, @get reads it back, l itself is unchanged, and bad indices are errors.", "quantifier": "all lists, indices and values", "why_tests_cant": "Unbounded lists.", "anchors": ["qstd/src/core.rs: @get, @set"]}
{"id": "C46", "title": "@slice returns the requested part or an error", "statement": "@slice(v,a,b) returns elements a..b-1 of a list or string, and an index error when the bounds are outside the value; it never crashes.", "quantifier": "all values and bounds", "why_tests_cant": "All bounds around the length.", "anchors": ["qstd/src/core.rs: @slice"]}
{"id": "C47", "title": "@split and @join are inverse", "statement": "Joining the pieces of @split(s, sep) with sep gives s back.", "quantifier": "all strings and separators", "why_tests_cant": "Unbounded strings, overlapping separators.", "anchors": ["qstd/src/strings.rs: @split, @join"]}
{"id": "C48", "title": "@len is the number of valid indices", "statement": "For every list, string, pair or colour v, v[i] succeeds exactly for -@len(v) <= i < @len(v).", "quantifier": "all values", "why_tests_cant": "Only non-ASCII strings differ.", "anchors": ["qstd/src/core.rs: @len", "interpreter/src/vm.rs: IndexGet"]}
{"id": "C49", "title": "Number text round-trips", "statement": "@int(@str(n)) is n for every integer n, and @int_from_radix undoes @bin, @oct and @hex.", "quantifier": "all 64-bit integers", "why_tests_cant": "2^64 integers.", "anchors": ["qstd/src/core.rs: @int, @str, @bin, @oct, @hex, @int_from_radix"]}
{"id": "C50", "title": "@truncate never exceeds the requested length", "statement": "@truncate(s, n) has at most n characters and leaves strings of at most n characters unchanged.", "quantifier": "all strings and lengths", "why_tests_cant": "Unbounded strings, multi-byte characters.", "anchors": ["qstd/src/strings.rs: @truncate"]}
{"id": "C51", "title": "Colour builtins", "statement": "@invert is its own inverse, @r/@g/@b/@a read back what @rgba was given (clamped to 0..255), and @rgb has full alpha.", "quantifier": "all colours and integer arguments", "why_tests_cant": "2^32 colours.", "anchors": ["qstd/src/colors.rs: @invert, @rgba, @rgb, @r, @g, @b, @a"]}
{"id": "C52", "title": "A script update keeps host bindings working", "statement": "After update_script, set_external works for the externals declared by the new script, and variables captured by closures kept from earlier runs still hold their values.", "quantifier": "all sequences of runs and script updates", "why_tests_cant": "Depends on how the previous run ended.", "anchors": ["interpreter/src/vm.rs: update_script, reset_state, set_external"]}
{"id": "C53", "title": "Source positions map to the right line", "statement": "The line number reported for an offset is one more than the number of line breaks before it.", "quantifier": "all sources and offsets", "why_tests_cant": "All offsets of all texts.", "anchors": ["common/src/sourcecache.rs: get_lineno"]}
{"id": "C54", "title": "Mixing colours reaches its end points", "statement": "@mix(a, b, t) is a for t <= 0 and b for t >= 1, @lighten is its argument at 0 and white at 1, @darken its argument at 0 and transparent black at 1; factors outside 0..1 behave like the nearest end.", "quantifier": "all colours and all factors, including infinities and NaN", "why_tests_cant": "2^64 factors and 2^64 pairs of colours.", "anchors": ["qstd/src/colors.rs: @mix, @lighten, @darken"]}
{"id": "C55", "title": "@complement gives the complementary colour", "statement": "@complement(c) is a colour that differs from c unless c is grey, and complementing twice gives c back.", "quantifier": "all colours", "why_tests_cant": "2^32 colours.", "anchors": ["qstd/src/colors.rs: @complement"]}
{"id": "C56", "title": "@replace replaces exactly the occurrences", "statement": "@replace(s, old, new) is s cut at the leftmost non-overlapping occurrences of old and put together with new.", "quantifier": "all strings", "why_tests_cant": "Unbounded strings, overlapping occurrences.", "anchors": ["qstd/src/strings.rs: @replace"]}
{"id": "C57", "title": "String tests and trimming mean what they say", "statement": "@starts_with, @ends_with and @contains hold exactly when the text is a prefix, a suffix or occurs inside; @trim removes exactly the white space at both ends.", "quantifier": "all strings", "why_tests_cant": "Unbounded strings.", "anchors": ["qstd/src/strings.rs: @starts_with, @ends_with, @contains, @trim"]}
{"id": "C58", "title": "@chars lists the characters of a string", "statement": "@chars(s) is the list of the characters of s in order, and @join of it is s.", "quantifier": "all strings", "why_tests_cant": "Unbounded strings, multi-byte characters.", "anchors": ["qstd/src/strings.rs: @chars, @join"]}
{"id": "C59", "title": "@clamp, @min, @max and @abs are correct", "statement": "@clamp(a, lo, hi) lies between lo and hi and is a when a does; an empty interval is an error; @min, @max and @abs of integers are the mathematical ones.", "quantifier": "all numbers", "why_tests_cant": "2^192 triples of floats.", "anchors": ["qstd/src/math.rs: @clamp, @min, @max, @abs"]}
{"id": "C60", "title": "Builtins never crash the interpreter", "statement": "Whatever arguments a script passes, a standard builtin returns a value or an error; it never aborts the process.", "quantifier": "all builtins, all argument lists", "why_tests_cant": "Unbounded argument lists and values.", "anchors": ["qstd/src/core.rs", "qstd/src/math.rs", "qstd/src/colors.rs", "qstd/src/strings.rs", "qstd/src/testing.rs"]}
{"id": "C61", "title": "Statements and includes are only accepted where they may stand", "statement": "A program in which a declaration, function statement, external, include or return stands where a value is needed, or an include stands anywhere but at the top level or was not resolved, is rejected at compile time.", "quantifier": "all programs, all positions at any depth", "why_tests_cant": "The position can be nested arbitrarily deep.", "anchors": ["compiler/src/lib.rs: compile_stmnt, compile_expr"]}
{"id": "C62", "title": "A REPL session keeps its globals from line to line", "statement": "When a line is run, every name the session already knows has the value the previous lines left it with; afterwards it has the value the line left it with, whether the line ended or failed at run time.", "quantifier": "all sessions (sequences of lines), all names", "why_tests_cant": "Sessions are unbounded.", "anchors": ["cli/src/repl.rs: execute", "interpreter/src/vm.rs: update_script, reset_state"]}
{"id": "C63", "title": "In a REPL session unknown builtins are reported", "statement": "A call of a builtin that the host does not supply fails with the undefined-builtin error on every line of a session.", "quantifier": "all sessions, all builtin names", "why_tests_cant": "Builtin numbers are assigned anew by every line, so only long sessions show it.", "anchors": ["cli/src/repl.rs: execute", "interpreter/src/vm.rs: add_builtins, CallBuiltin"]}
{"id": "C64", "title": "A closure kept in a global keeps its variables after a failed line", "statement": "When a line stores a closure in a global and then fails, later lines that call it see the last value of the variables it captured.", "quantifier": "all sessions, all closures", "why_tests_cant": "Needs an error at the right point and a later history.", "anchors": ["interpreter/src/vm.rs: reset_state, close_upvalues"]}
{"id": "C65", "title": "The disassembly marks the jump targets", "statement": "In a listing a line is marked as a jump target exactly when some jump of the same function leads to it.", "quantifier": "all compiled programs", "why_tests_cant": "All programs and all orders of functions.", "anchors": ["disassembler/src/lib.rs: disassemble_chunk (jump_stack)"]}
{"id": "C66", "title": "Every text is parsed or rejected", "statement": "Parsing ends on every text, with a syntax tree or a syntax error.", "quantifier": "all texts", "why_tests_cant": "A backtracking parser can loop or recurse without consuming input; no finite set of texts excludes it.", "anchors": ["parser/src/parser.rs: grammar", "parser/src/lib.rs: parse_code, parse_literal"]}
{"id": "C67", "title": "Operators bind as written", "statement": "An expression written with names, numbers, unary and binary operators, calls, indices and parentheses is read by the table of levels: tighter operators take their operands first, operators of one level group to the left, unary operators bind tighter than binary ones and calls and indices tightest; parentheses override all of it. No such text has two readings.", "quantifier": "all expressions built from names, integer numbers, operators, calls and indices; all ways to put parentheses and spaces", "why_tests_cant": "Expressions nest without bound and every pair of operators has to be ordered right in every context.", "anchors": ["parser/src/parser.rs: node (precedence! table), args, ws_, IDENT, INT, literal"]}
{"id": "C68", "title": "Values stay within their types", "statement": "At every moment of every run, every value a program can see (on the stack, in variables, globals, captured variables, constants and nested inside lists, pairs and functions) is within its type: integers are 64-bit, ends of ranges 32-bit, colour channels bytes, and the recorded size of a list is the size of its items.", "quantifier": "all programs (with includes), all builtins of the standard library and all operators, all sequences of host actions, all machine states", "why_tests_cant": "Values are built up by unbounded sequences of operations; one operator or builtin that forgets to truncate breaks it only for rare inputs.", "anchors": ["parser/src/parser.rs: literal rules", "compiler/src/lib.rs: add_constant", "interpreter/src/value.rs", "interpreter/src/vm.rs: execute_once", "qstd/src"]}
{"id": "C69", "title": "Values have one text", "statement": "@str of a value gives the text documented for it: integers and range ends in decimal, colours as eight hexadecimal digits, lists and pairs with the texts of their items separated by a comma and a space, strings verbatim; no value has two texts.", "quantifier": "all values, nested without bound", "why_tests_cant": "The text of a nested value is built recursively from the texts of all its parts.", "anchors": ["interpreter/src/value.rs: Display", "qstd/src/strings.rs: str"]}
{"id": "C70", "title": "Printing writes exactly the arguments, and what was written stays written", "statement": "@print, @println and @debug write the text of each argument followed by one space (and the line end or colour codes), change nothing else and return none. No other builtin writes except the prompt of @input. During any run, however it ends, the output is only added to, the input lines are only taken from the front, and no file changes. What a whole program prints and reads is what the language definition says it prints and reads.", "quantifier": "all argument lists, all programs, all runs and machine states, all inputs and file contents", "why_tests_cant": "The order and content of output depends on the whole history of a run.", "anchors": ["qstd/src/io.rs: println, print, debug", "interpreter/src/vm.rs: run", "qstd/src/lib.rs: stdio"]}
{"id": "C71", "title": "Reading takes each line once", "statement": "@input writes its prompt, takes the next line of the input and returns it without the white space around it; @readfile returns the content of the file; both report what cannot be read as a catchable message. A program can tell the end of the input from an empty line.", "quantifier": "all prompts, inputs, and file contents", "why_tests_cant": "Inputs are unbounded.", "anchors": ["qstd/src/io.rs: input, readfile"]}
{"id": "C72", "title": "@date gives the calendar date and time", "statement": "@date gives the year, month and day of the Gregorian calendar and the time of day in UTC of the current moment.", "quantifier": "all readings of the clock", "why_tests_cant": "There are unboundedly many moments, and leap years and month lengths are irregular.", "anchors": ["qstd/src/time.rs: date"]}
{"id": "C73", "title": "Random functions stay in their range and reach all of it", "statement": "@randint(a, b) gives an integer at least a and below b, and can give each; @randfloat likewise; @random gives a float from 0 to below 1; @randchoice gives an item of the list and can give each; @random_color, @random_pastel_color and @random_rainbow_color give an opaque colour, one with channels of at least 127, one of @rainbow_colors. Impossible ranges are reported as errors.", "quantifier": "all arguments, all random numbers", "why_tests_cant": "Which number comes out is not under the control of a test.", "anchors": ["qstd/src/math.rs: random, randint, randfloat, randchoice", "qstd/src/colors.rs: random_color, random_pastel_color, random_rainbow_color"]}
{"id": "C74", "title": "Equal values have equal hashes", "statement": "@hash gives an integer from 0 to 2^31-1, refuses lists, functions and other reference values, and gives the same result for values that are equal with ==.", "quantifier": "all pairs of values, nested without bound", "why_tests_cant": "There are unboundedly many pairs of equal values.", "anchors": ["qstd/src/math.rs: hash", "interpreter/src/value.rs: Hash", "common/src/vecc.rs: Vecc"]}
{"id": "C75", "title": "The library consists of the documented builtins", "statement": "A program can call exactly the builtins listed in the documentation by name; every other name is reported as unknown.", "quantifier": "all names", "why_tests_cant": "There are unboundedly many names.", "anchors": ["qstd/src/lib.rs: stdlib, stdio", "interpreter/src/builtins/macros.rs: generic_builtins"]}
{"id": "C76", "title": "What counts as true in a condition", "statement": "In if, while and ?: none, false, 0, 0.0, -0.0, the empty text and the all-zero colour count as false, every other boolean, number, text and colour counts as true, and every other value is reported as an error that names its type.", "quantifier": "all values", "why_tests_cant": "Values are unbounded.", "anchors": ["interpreter/src/value.rs: is_truthy"]}
{"id": "C77", "title": "Operators accept exactly the operands they are defined for", "statement": "Each operator has a table of operand types. Operands outside the table give an error that names the operator and both types (division by the number zero is reported first); operands inside it never do. An integer next to a float is converted to a float first.", "quantifier": "all operators, all pairs of values", "why_tests_cant": "There are unboundedly many values per pair of types.", "anchors": ["interpreter/src/arith.rs: add, subtract, multiply, divide, modulo, pow, and, or, join"]}
{"id": "C78", "title": "Logic follows the truth tables", "statement": "&&, || and ! on booleans follow their truth tables, and the right operand is evaluated only if the left one does not settle the result.", "quantifier": "all booleans, all expressions as operands", "why_tests_cant": "What the right operand does is an arbitrary program.", "anchors": ["interpreter/src/arith.rs: and, or, not", "compiler/src/lib.rs: compile_node"]}
{"id": "C79", "title": "Rounding is exact", "statement": "@floor, @ceil and @round of any float give the greatest integer not above it, the least not below it and the nearest one with halves away from zero, limited to 64 bits; NaN gives 0 and the infinities the limits. Integers are unchanged. @fix rounds to decimal places.", "quantifier": "all 2^64 floats", "why_tests_cant": "There are too many floats, and the edges (53 bits, halves, subnormals) are easy to miss.", "anchors": ["qstd/src/math.rs: round, floor, ceil, fix"]}
{"id": "C80", "title": "Conversions accept exactly what they document", "statement": "@int of a text succeeds exactly for an optional sign followed by digits whose value fits 64 bits, and gives that value; @int_from_radix likewise for any radix from 2 to 36. @int of a float drops the fraction. @bool, @float, @char and @color convert the documented values and report the others. @color accepts only colours.", "quantifier": "all values, all texts", "why_tests_cant": "Texts are unbounded.", "anchors": ["qstd/src/core.rs: int, int_from_radix, float, bool, char, color"]}
{"id": "C81", "title": "Assertions fail exactly when they should, and say why", "statement": "@assert, @assert_eq and @assert_ne return none if the condition holds and otherwise stop the program with a message that shows both values; @panic, @todo and @unreachable always stop it with their message.", "quantifier": "all values", "why_tests_cant": "Values are unbounded.", "anchors": ["qstd/src/testing.rs: assert, assert_eq, assert_ne, panic, todo, unreachable"]}
{"id": "C82", "title": "@gettype names the type", "statement": "@gettype gives the name of the type of any value.", "quantifier": "all values", "why_tests_cant": "Values are unbounded.", "anchors": ["qstd/src/core.rs: gettype", "interpreter/src/value.rs: ntype"]}
{"id": "C83", "title": "Mathematical functions apply the function they are named after", "statement": "@sin, @cos, @tan, @asin, @acos, @atan, @atan2, @log2, @log10, @sqrt and @interp give the named function of their numbers, integers being converted first; @log is @log10.", "quantifier": "all numbers", "why_tests_cant": "There are too many floats.", "anchors": ["qstd/src/math.rs: log, log2, log10, sin, cos, tan, asin, acos, atan, atan2, sqrt, interp"]}
{"id": "C84", "title": "Colour functions follow their definitions", "statement": "@hsl and @hsv give the colour of the wheel for each degree, a grey without saturation, and an opaque colour; @alpha sets the transparency to the nearest of 255 steps; @luma and @brightness are the weighted sums with the documented weights; @contrast_color is black on colours brighter than 186 and white on others; @saturate and @desaturate change the saturation.", "quantifier": "all colours, all numbers", "why_tests_cant": "There are 2^32 colours and more numbers.", "anchors": ["qstd/src/colors.rs: hsl, hsv, alpha, luma, brightness, contrast_color, saturate, desaturate, rainbow_colors"]}
{"id": "C85", "title": "Text functions change only what they say", "statement": "@capitalize changes only the first character; @title capitalises every word and leaves one space between words; @uppercase and @lowercase map every character; @trim_start and @trim_end remove the white space at one end and nothing else.", "quantifier": "all texts", "why_tests_cant": "Texts are unbounded.", "anchors": ["qstd/src/strings.rs: capitalize, title, uppercase, lowercase, trim_start, trim_end"]}
{"id": "C86", "title": "Every text written as the notation says is read as the program it spells", "statement": "A text built from white space, comments, literals, names, operators, calls, indices, ranges, pairs, arrays, assignments, functions, blocks, if/else, switch, while, for, with and statements as the notation describes is accepted, and the syntax tree is the one of the program it spells, whatever the layout; a text has one reading.", "quantifier": "all programs of any size and nesting, all layouts", "why_tests_cant": "The texts are unbounded in length and nesting, and each construct can stand next to every other.", "anchors": ["parser/src/parser.rs: code, node, literal, range, if_statement, switch, block", "parser/src/lib.rs: parse_code"]}
{"id": "C87", "title": "Layout does not matter", "statement": "Two texts of one program that differ in white space, comments, redundant parentheses or the spelling of literals are accepted or refused together with the same error; accepted, they declare the same globals and externals, compile to code of the same size, and run to the same result or error with the same globals.", "quantifier": "all programs, all pairs of layouts, all hosts and libraries that do not look inside functions", "why_tests_cant": "Pairs of texts of unbounded size and their unbounded executions.", "anchors": ["parser/src/lib.rs: parse_code", "compiler/src/lib.rs: Compiler::compile", "interpreter/src/vm.rs: VM::run"]}
{"id": "C88", "title": "The command line program: status and output", "statement": "Running a file exits with status 0 when the program ends and with status 1 when it fails, does not compile, does not parse or cannot be read; everything the program printed comes first, in order, then the result if asked for, or the traceback and the error; a refused file runs nothing; the process goes on exactly as long as the program does.", "quantifier": "all files with all their includes, all inputs, clocks and random numbers, all limits, all ways of drawing reports", "why_tests_cant": "The programs, their inputs and their lengths of execution are unbounded; a process that does not end cannot be observed by a test.", "anchors": ["cli/src/main.rs: main", "parser/src/includes.rs: parse_with_includes", "interpreter/src/vm.rs: run, trace_back", "common/src/error.rs: print"]}
{"id": "C89", "title": "Tracebacks show the calls' lines", "statement": "Each entry of a traceback names the file, the line number and the function of a call and shows that line of the text without its indentation.", "quantifier": "all texts, all positions in them, all functions", "why_tests_cant": "The texts and positions are unbounded; where lines are counted from is only seen with every position.", "anchors": ["common/src/error.rs: TraceBack::print, Display", "interpreter/src/vm.rs: trace_back", "common/src/sourcecache.rs: SourceCache"]}
{"id": "C90", "title": "Messages tell errors apart", "statement": "Two different errors never produce the same message, so a message determines the kind of the error and the names, types, operators and numbers in it; it has the documented words for its kind of error with these things filled in; the message states the rule that was broken.", "quantifier": "all errors, all names, all numbers", "why_tests_cant": "Names and numbers are unbounded and any two of infinitely many messages could coincide.", "anchors": ["common/src/error.rs: Error, TypeError, NameError, OverflowError, IncludeError, SyntaxError, BuiltinError"]}
{"id": "C91", "title": "The interactive loop", "statement": "In an interactive session lines are taken in order, what was printed stays, the session ends when the input ends, and the traceback printed with an error is of that error.", "quantifier": "all inputs of any number of lines, all limits", "why_tests_cant": "Sessions are unbounded, and the state left by each line is the start of the next.", "anchors": ["cli/src/repl.rs: start, execute", "interpreter/src/vm.rs: update_script, trace_back"]}
{"id": "C92", "title": "Every reported position lies in the text it is reported for", "statement": "Whatever text is given, every position the parser attaches to a part of the program lies in that text (two byte offsets that cut it between characters, the first not behind the second) and carries the number of the file the text came from; with included files the number names a file that was read and the offsets lie in that file's text. A file that cannot be read or is included again is reported at its name in an include statement. Every error of the compiler, every error of a run and every line of the traceback is reported at such a position.", "quantifier": "all texts, all includes, all programs that parse and compile (with less than 2^16 constants and symbols), all runs and hosts", "why_tests_cant": "positions travel through the parser, the compiler's run-length encoded tables and the frames of the machine; a wrong offset shows only for particular texts and particular failures, as a wrong caret or a panic in the report", "anchors": ["parser/src/parser.rs: parse_code", "parser/src/includes.rs", "compiler/src/lib.rs: Compiler", "interpreter/src/vm.rs: error, error_1, errorf, trace_back", "common/src/span.rs: Span"]}
{"id": "C93", "title": "Errors are blamed on the construct that failed, tracebacks name the calls", "statement": "When a run fails, the position reported is that of the operator, index, range, list, call, name, condition, loop, unpacking, builtin or with statement that failed, applied to the values then on the stack; and every line of the traceback but the first is the position of a call. Exceptions: an exhausted stack or time, a function called with a wrong number of arguments and a context manager called as a builtin are reported at what runs next; the last line of a traceback shows what follows the call.", "quantifier": "all programs that parse and compile (with less than 2^16 constants and symbols), all runs, all hosts and builtins", "why_tests_cant": "which instruction carries which position depends on every arm of the compiler and on jumps and captures in between; tests see single failures", "anchors": ["compiler/src/lib.rs: Compiler", "interpreter/src/vm.rs: run, error, error_1, trace_back", "bytecode/src/chunk.rs: Chunk"]}
{"id": "C94", "title": "Printed listings tell the instructions", "statement": "The text the disassembler prints consists of a page for each function, with a row for each instruction the machine would find, that has the columns it should. It tells which functions are listed (name, line, file), and of every row the source line, the mark of a jump target, the offset, the instruction, its operand, where it jumps and the name or operator it concerns: two outputs with the same text agree in all of these. The explanation of a constant does not always tell it: 1 and 1.0 are printed alike.", "quantifier": "all lists of listings of any length whose names are on one line, all files", "why_tests_cant": "columns are padded to fixed widths and blank cells repeat earlier ones, so two different listings could print alike only for long numbers or names; there are infinitely many pairs", "anchors": ["disassembler/src/structure.rs: Hint, Line::display, FunctionDisassembly", "bytecode/src/bytecode.rs: ByteCodeName", "cli/src/main.rs: main"]}
{"id": "C95", "title": "A program sees the host's data only through its builtins", "statement": "Two hosts, even with data of different types, whose builtins have the same names and always give the same answers cannot be told apart by any program: whatever is done with the machines (runs, globals set, externals set, scripts replaced), the values, errors, positions and tracebacks are the same and so are all globals. In particular what was printed before does not change what a program does.", "quantifier": "all pairs of hosts and data, all builtins, all scripts and limits, all sequences of uses", "why_tests_cant": "it compares two executions of any length on different data; tests run one host", "anchors": ["interpreter/src/vm.rs: VM::run, new, update_script, set_external, insert_global", "interpreter/src/builtins/mod.rs: BuiltinFn, VmData"]}
{"id": "C96", "title": "Flags of the command line only print more", "statement": "--disassemble, --debug and --timeit change neither the exit status, nor the lines read, nor the error output, nor what the program and the report of its end print; the disassembly and the times of parsing and compiling are printed before the program's output, the time of the run between it and the report of its end. A file that is refused is refused in the same way. The limits are the ones named, and the documented defaults otherwise.", "quantifier": "all files, all programs, all flags and limits, all inputs", "why_tests_cant": "it compares two executions of any program with and without the flags", "anchors": ["cli/src/main.rs: main", "interpreter/src/vm.rs: VmOptions", "disassembler/src/lib.rs: Disassembler"]}
{"id": "C97", "title": "Reports are only drawn of places in the texts", "statement": "The command line program and its interactive loop ask for reports, source lines and line numbers only at places that lie in the texts of the source cache they pass along: however the drawing crate behaves elsewhere (panics, prints nothing), the output, the exit status and the state of the session are the same. In a session every entered line is kept as a source under its number, followed by the files it includes.", "quantifier": "all files and include graphs, all programs, all sessions of any length, all ways of drawing", "why_tests_cant": "a single bad offset in any error path of any program would make the drawing crate panic; tests see a few errors", "anchors": ["cli/src/main.rs: main", "cli/src/repl.rs: Repl::run, Repl::execute", "common/src/error.rs: print, print_trace", "common/src/sourcecache.rs: SourceCache", "interpreter/src/vm.rs: trace_back"]}
{"id": "C98", "title": "What is shown reads back", "statement": "The text that shows a number, boolean, range, colour, none, or a list or pair of them at any depth is a literal of the language that stands for the same data, and a program that comes to it; different data of this kind is shown differently. Texts (shown without quotes), floats the standard library writes without a point, and the smallest integer as a program do not read back.", "quantifier": "all such values at any depth and of any length", "why_tests_cant": "values nest without bound; printing and parsing must agree on every separator, sign and digit", "anchors": ["interpreter/src/value.rs: Display", "parser/src/lib.rs: literal, code", "compiler/src/lib.rs: Compiler"]}
{"id": "C99", "title": "Builtins do what their documented signatures say", "statement": "The builtins of the standard library a program can call are exactly the documented ones, each name documented once. A call with arguments that do not fit the documented parameters (types, number, optional ones left out from the right) is refused before it does anything; a call that succeeds had fitting arguments and returns a value of a documented type, or none where no type is documented; leaving an optional parameter out is the same as passing its documented default.", "quantifier": "all documented builtins, all argument lists of any length and content, all states of the world", "why_tests_cant": "about a hundred builtins times every list of arguments; tests call each with a few arguments", "anchors": ["interpreter/src/builtins/docs.rs", "interpreter/src/builtins/macros.rs: generate_builtins", "qstd/src/core.rs", "qstd/src/math.rs", "qstd/src/colors.rs", "qstd/src/strings.rs", "qstd/src/testing.rs", "qstd/src/io.rs", "qstd/src/time.rs"]}
{"id": "C100", "title": "Hosts build scripts with their own includes", "statement": "A host that builds a script gets either a script or an error with the texts the error is about. With a resolver that only looks files up and parses them, includes are carried out to any depth (whenever the files exist and parse and no chain of includes is infinite) and the script is that of the program with the contents of all files in place. With the resolver the crate comes with it is what the command line program runs. Whatever the resolver, as long as it keeps to the texts, errors of building lie in the texts that come with them and errors of running, with their tracebacks, in the texts the script was built from. A file that includes itself is not detected by the former resolver.", "quantifier": "all programs, file tables, include graphs of any depth, stateful resolvers, and runs of any length", "why_tests_cant": "resolvers are arbitrary code of the host; include graphs are unbounded", "anchors": ["src/lib.rs: build_script, EZError", "parser/src/includes.rs: IncludeResolver, Cache, DefaultIncludeResolver", "common/src/sourcecache.rs: SourceCache::add"]}
{"id": "C101", "title": "A program cannot name what the compiler makes up", "statement": "Every name of a variable, parameter, function or builtin in a text that is accepted, or in a file it includes, is an identifier: a letter or underscore followed by letters, digits and underscores, and no reserved word (if and else are not reserved). The names a compiled program shows in tracebacks and listings (globals, functions at any depth, local variables) are names of the source, or one of the few the compiler makes up for the main program, for lambdas and for temporaries; no identifier is one of these.", "quantifier": "all texts, include graphs and programs of any size and depth", "why_tests_cant": "names are arbitrary strings; tests use a handful", "anchors": ["parser/src/lib.rs: ident, reserved", "compiler/src/lib.rs: compile, add_symbol, add_global_symbol", "bytecode/src/chunk.rs: Chunk::add_symbol"]}
{"id": "C102", "title": "Raising limits does not change what a program does", "statement": "A run that does not stop because of the limit of the stack, of calls or of time is the same on a machine with higher limits: the same value, or the same error at the same place with the same traceback, after the same number of instructions, leaving machines that cannot be told apart. This holds on new machines and after any session (globals and externals set, programs replaced and run). So a lower limit can only turn a result into the report of the limit. The command line ends with the same status and output, unless the limit is reported. It holds with any builtins of the host that do not look at these limits themselves, and those of the library do not.", "quantifier": "all programs, sessions, hosts, limits and runs of any length", "why_tests_cant": "the stack is a vector of the size of the limit whose unused part keeps old values; that it is not seen must hold for every instruction and history", "anchors": ["interpreter/src/vm.rs: VmOptions, VM::run, push, push_many, has_runtime_exceeded", "cli/src/main.rs: main"]}
{"id": "C103", "title": "Renaming the names of a program, or moving it, changes nothing but the names and positions", "statement": "Replacing the names of a program consistently, different names by different names (also those of builtins), and its positions, different places by different places, gives a program with the same code, at the moved positions, with the same constants, parameters and captured variables, in which every global has the number it had; only the names of functions, symbols and globals are replaced. A program that does not compile is reported for the same reason at the moved place. A run of the renamed program does the same as a run of the first when the names of its functions and of the builtins are kept: the same value or the same error (with the name of an undefined variable replaced) at the moved place with the same traceback, at the moved places, after the same number of instructions, with the same effects on the data of the host.", "quantifier": "all programs, renamings, moves, hosts, limits and runs of any length", "why_tests_cant": "names are compared in many places (locals, captured variables, globals, externals, symbols); that none looks at anything but whether two are equal must hold for every program and set of names", "anchors": ["compiler/src/lib.rs: resolve_local, resolve_upvalue, add_global_symbol, Compiler::compile", "bytecode/src/chunk.rs: Chunk::add_symbol", "interpreter/src/vm.rs: VM::run"]}
{"id": "C104", "title": "A program uses no builtins but those it mentions", "statement": "A program does the same on two machines that have the same builtins under the names it calls (or enters as contexts), whatever other builtins are registered, in whatever order, or in place of those it does not mention: the same value, or the same error at the same place with the same traceback, and the same effects on the data of the host. A program that mentions no builtins runs as if there were none. This is for programs within the 16 bit numbers of the bytecode (65535 units of code) and hosts with at most 65536 names.", "quantifier": "all programs within the format, hosts, lists of builtins and runs of any length", "why_tests_cant": "builtins share their numbers with the globals of the program; that no registration moves or replaces one the program uses must hold for every set of names", "anchors": ["interpreter/src/vm.rs: VM::new, add_builtins, add_builtin, OpCode::CallBuiltin", "compiler/src/lib.rs: Compiler::compile_node (BuiltinCall, Context)"]}
{"id": "C105", "title": "A checked build aborts or does what the release build does", "statement": "A build with overflow checks and debug assertions either aborts or compiles the same code (or reports the same error at the same place), and a run of it either aborts or does the same as the release build: the same value, or the same error at the same place with the same traceback, after the same number of instructions, with the same globals and effects on the data of the host. This holds with any builtins that do so themselves, and those of the library do. The lines of an interactive session come to the same until one aborts, and the command ends with the same status having written the same unless it aborts. So what is tested with a checked build carries over to the release build.", "quantifier": "all programs, sessions, hosts, limits, builtins and runs of any length", "why_tests_cant": "a wrap that one build accepts and the other turns into another result (rather than an abort) would show for few values only", "anchors": ["Cargo.toml: profile", "interpreter/src/arith.rs", "interpreter/src/vm.rs: VM::run", "compiler/src/lib.rs: compile_expr (Unary)", "qstd/src/core.rs: get, set, slice", "qstd/src/math.rs: abs", "cli/src/main.rs: main", "cli/src/repl.rs"]}
{"id": "C106", "title": "White space before a program and the number of its source change nothing but the positions", "statement": "Blanks, ends of lines, continued lines and comments put before a text that is not empty: the text is read into the same program, every position being later by the length in bytes of what was put before, or is rejected as before; the number given to the source is in the positions and nowhere else. A program read so compiles to the same or is refused for the same reason, that much later; and run with the same limits in the same world it leaves the same world, gives a value that looks the same, or fails with the same error and the same stack, at places that much later.", "quantifier": "all texts, all white space with comments before them, all numbers of sources, all limits, worlds and runs of any length", "why_tests_cant": "a grammar rule that looks at what is before it, a position counted in characters, or a place that is compared with a constant would show in few programs only", "anchors": ["parser/src/parser.rs: code, _ (white space), node, block", "parser/src/lib.rs: parse_code", "compiler/src/lib.rs: Compiler::compile", "interpreter/src/vm.rs: VM::run"]}
