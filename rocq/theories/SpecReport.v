(** What is said of the texts of errors and tracebacks (C89, C90). *)
From Verif Require Import Base Float NumText SpecBuiltins SpecText Value Ast Compiler Vm Report SpecLines.

(** Printable ASCII characters; no backtick. *)
Definition plain (s : rstring) : Prop := Forall (fun c => 32 <= c <= 126)%N s.
Definition tickless (s : rstring) : Prop := Forall (fun c => c <> 96)%N s.

(** Errors of which the texts are settled: the names in them are printable, the names of types
    and operators have no backtick.  The texts of syntax errors and of durations are the business
    of other crates. *)
Definition settled (e : error) : Prop :=
  match e with
  | ENameUndefined n | ENameAlreadyDefined n | EUndefinedBuiltin n | EExternalNotGlobal n | EExternalRedefined n
  | EExternalNotDefined n | EUnresolvedInclude n | ECouldNotResolve n | ECircularInclude n => plain n
  | EExpected a b | ECannotConvert a b | ECannotCompare a b | EUnsupportedUnary a b => tickless a /\ tickless b
  | EUnsupportedBinary a b c => tickless a /\ tickless b /\ tickless c
  | ENotCallable t | EUnpackable t | ENotIterable t | ECannotHash t | EParseError _ t => tickless t
  | EUnexpectedToken _ | ERuntimeLimit _ => False
  | _ => True
  end.

(** [t] is line [k] (from 0) of a text whose lines end with line feeds; it is not the empty end of
    the text. *)
Definition is_line (s : rstring) (k : nat) (t : rstring) : Prop :=
  exists a b, s = a ++ t ++ b /\ breaks a = k /\ (a = [] \/ exists a', a = a' ++ [10%N]) /\ breaks t = 0 /\
              (b = [] \/ exists b', b = 10%N :: b') /\ t ++ b <> [].
(** What is assumed of the crate's lines: they are the lines, perhaps without white space at the end. *)
Definition line_lister (whitespace : N -> bool) (nth_line : rstring -> nat -> option rstring) : Prop :=
  forall s k t, only_lf s -> is_line s k t ->
  exists u rest, nth_line s k = Some u /\ t = u ++ rest /\ Forall (fun c => whitespace c = true) rest.

(** What a traceback says of a call: the file, the line (a number), the function and the line. *)
Definition call_text (file : rstring) (line : nat) (function shown : rstring) : rstring :=
  str "   File " ++ [34%N] ++ file ++ [34%N] ++ str ", line " ++ int_text (Z.of_nat line) ++ str ", in " ++ function ++ [10%N] ++
  str "      " ++ shown ++ [10%N].
(** [shown] is [t] without white space in front, and perhaps without some at the end. *)
Definition indented (whitespace : N -> bool) (t shown : rstring) : Prop :=
  exists a b, t = a ++ shown ++ b /\ Forall (fun c => whitespace c = true) a /\ Forall (fun c => whitespace c = true) b /\
              match shown with c :: _ => whitespace c = false | [] => True end.

(** ** The messages: the title of the report, the words with a hole [{}] for each thing named, and
    the things. *)
Inductive thing := AName (n : rstring) | AWord (w : rstring) | ANumber (z : Z).
Definition message (e : error) : rstring * rstring * list thing :=
  match e with
  | ENameUndefined n => (str "Undefined", str "NameError: name {} is not defined", [AName n])
  | ENameAlreadyDefined n => (str "AlreadyDefined", str "NameError: name {} is already defined", [AName n])
  | EUndefinedBuiltin n => (str "UndefinedBuiltin", str "NameError: builtin {} is not defined", [AName n])
  | EExternalNotGlobal n => (str "ExternalNotGlobal", str "NameError: external {} is not in the global scope", [AName n])
  | EExternalRedefined n => (str "ExternalRedefined", str "NameError: external {} is aldready defined", [AName n])
  | EExternalNotDefined n => (str "ExternalNotDefined", str "NameError: external {} is not defined", [AName n])
  | ETooManyItems => (str "TooManyItems", str "OverflowError: an array cannot have more than 256 items", [])
  | ETooManyParams => (str "TooManyParams", str "OverflowError: cannot define more than 256 parameters in a function", [])
  | ETooManyArgs => (str "TooManyArgs", str "OverflowError: cannot use more than 256 arguments in a function call", [])
  | ETooMuchToUnpack => (str "TooMuchToUnpack", str "OverflowError: cannot unpack more than 256 values", [])
  | EStackOverflow => (str "StackOverflow", str "OverflowError: stack overflow", [])
  | EStackUnderflow => (str "StackUnderflow", str "OverflowError: stack underflow", [])
  | EInstructionOverflow => (str "InstructionOverflow", str "OverflowError: instruction overflow", [])
  | EJumpTooLarge => (str "JumpTooLarge", str "OverflowError: jump too large", [])
  | EStringTooLarge => (str "StringTooLarge", str "OverflowError: string too large", [])
  | EArrayTooLarge => (str "ArrayTooLarge", str "OverflowError: array too large", [])
  | EExpected a b => (str "Expected", str "TypeError: expected `{}` got `{}`", [AWord a; AWord b])
  | ECannotConvert a b => (str "CannotConvert", str "TypeError: cannot convert `{}` to `{}`", [AWord a; AWord b])
  | ECannotCompare a b => (str "CannotCompare", str "TypeError: cannot compare `{}` and `{}`", [AWord a; AWord b])
  | EParseError t ty => (str "ParseError", str "TypeError: cannot parse '{}' as `{}`", [AWord t; AWord ty])
  | EMismatchedArity n e g => (str "MismatchedArity", str "TypeError: function '{}' expected `{}` arguments got `{}`",
      [AWord n; ANumber (Z.of_N e); ANumber (Z.of_N g)])
  | ENotCallable t => (str "NotCallable", str "TypeError: cannot use `{}` as a function", [AWord t])
  | EUnsupportedBinary op a b => (str "UnsupportedBinaryOperation",
      str "TypeError: unsupported binary operation `{}` on `{}` and `{}`", [AWord op; AWord a; AWord b])
  | EUnpackable t => (str "Unpackable", str "TypeError: cannot unpack `{}`", [AWord t])
  | EInsufficientValues h w => (str "InsufficientValues", str "TypeError: cannot unpack a {} item value into {} values",
      [ANumber (Z.of_N h); ANumber (Z.of_N w)])
  | EUnsupportedUnary op a => (str "UnsupportedUnaryOperation", str "TypeError: unsupported unary operation `{}` on `{}`", [AWord op; AWord a])
  | ENotIterable t => (str "NotIterable", str "TypeError: cannot iterate over `{}`", [AWord t])
  | EFailedToIterate => (str "FailedToIterate", str "TypeError: failed to iterate :(", [])
  | ECannotHash t => (str "CannotHash", str "TypeError: cannot hash `{}`", [AWord t])
  | EBuiltin msg => (str "BuiltinError", str "BuiltinError: {}", [AWord msg])
  | EIncludeNotTopLevel => (str "IncludeNotTopLevel", str "IncludeError: includes can only be at the top level of a file", [])
  | EUnresolvedInclude n => (str "UnresolvedInclude", str "IncludeError: unresolved include: {}", [AName n])
  | ECouldNotResolve n => (str "CouldNotResolve", str "IncludeError: could not resolve include: {}", [AName n])
  | ECircularInclude n => (str "CircularInclude", str "IncludeError: circular include: {}", [AName n])
  | EUnexpectedToken _ => (str "UnexpectedToken", str "SyntaxError: unexpected token at {}", [])
  | EStatementAsExpression => (str "StatementAsExpression", str "SyntaxError: statement was used in place of expression", [])
  | EReturnOutsideFunction => (str "ReturnOutsideFunction", str "SyntaxError: return outside of function", [])
  | EIndexError i => (str "IndexError", str "index `{}` out of bounds", [ANumber i])
  | EZeroDivision => (str "ZeroDivisionError", str "Division by zero", [])
  | ERuntimeLimit _ => (str "RuntimeLimitExceeded", str "Runtime limit exceeded: {}", [])
  | EMemoryLimit => (str "MemoryLimitExceeded", str "Memory limit exceeded", [])
  | EHalt => (str "Halt", str "Halt", [])
  end.
(** A name stands in quotes, with a backslash before quotes and backslashes in it; a word stands
    as it is, a number in decimal. *)
Definition written_as (a : thing) (t : rstring) : Prop :=
  match a with
  | AName n => t = [34%N] ++ flat_map (fun c => if (c =? 34) || (c =? 92) then [92; c] else [c])%N n ++ [34%N]
  | AWord w => t = w
  | ANumber z => integer_text z t
  end.
(** [filled words things text]: the text is the words with the things in the holes. *)
Inductive filled : rstring -> list thing -> rstring -> Prop :=
| fl_end : filled [] [] []
| fl_char c words things text : c <> 123%N -> filled words things text -> filled (c :: words) things (c :: text)
| fl_hole a t words things text : written_as a t -> filled words things text ->
    filled (123%N :: 125%N :: words) (a :: things) (t ++ text).
