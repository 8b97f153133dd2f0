(** common/src/error.rs: the texts of errors and tracebacks.  common/src/sourcecache.rs: the
    sources they refer to. *)
From Verif Require Import Base Float NumText Value Ast Arith VmOps Args Builtins Compiler Vm.

Section Report.
(** What other crates give: how [{:?}] writes a character of a text outside of printable ASCII,
    how it writes a duration, the text of a syntax error (the tokens [peg] expected there). *)
Context (escape : N -> rstring) (duration_text : N -> rstring) (syntax_text : nat -> rstring).

(** [{:?}] of a [String]. *)
Definition debug_char (c : N) : rstring :=
  if (c =? 34)%N then [92; 34]%N else if (c =? 92)%N then [92; 92]%N
  else if ((32 <=? c) && (c <=? 126))%N then [c] else escape c.
Definition debug_text (s : rstring) : rstring := [34%N] ++ flat_map debug_char s ++ [34%N].

Definition ticked (s : rstring) : rstring := [96%N] ++ s ++ [96%N].
Definition n_text (n : N) : rstring := int_text (Z.of_N n).

(** error.rs:195-236, the [#[error]] texts of [TypeError]; 255-274 of [NameError]; 290-321 of
    [OverflowError]; 341-354 of [IncludeError]; 387-402 of [SyntaxError]; 27-61 of [Error]; 466-470
    of [BuiltinError]. *)
Definition error_text (e : error) : rstring :=
  match e with
  | ENameUndefined n => str "NameError: name " ++ debug_text n ++ str " is not defined"
  | ENameAlreadyDefined n => str "NameError: name " ++ debug_text n ++ str " is already defined"
  | EUndefinedBuiltin n => str "NameError: builtin " ++ debug_text n ++ str " is not defined"
  | EExternalNotGlobal n => str "NameError: external " ++ debug_text n ++ str " is not in the global scope"
  | EExternalRedefined n => str "NameError: external " ++ debug_text n ++ str " is aldready defined"
  | EExternalNotDefined n => str "NameError: external " ++ debug_text n ++ str " is not defined"
  | ETooManyItems => str "OverflowError: an array cannot have more than 256 items"
  | ETooManyParams => str "OverflowError: cannot define more than 256 parameters in a function"
  | ETooManyArgs => str "OverflowError: cannot use more than 256 arguments in a function call"
  | ETooMuchToUnpack => str "OverflowError: cannot unpack more than 256 values"
  | EStackOverflow => str "OverflowError: stack overflow"
  | EStackUnderflow => str "OverflowError: stack underflow"
  | EInstructionOverflow => str "OverflowError: instruction overflow"
  | EJumpTooLarge => str "OverflowError: jump too large"
  | EStringTooLarge => str "OverflowError: string too large"
  | EArrayTooLarge => str "OverflowError: array too large"
  | EExpected a b => str "TypeError: expected " ++ ticked a ++ str " got " ++ ticked b
  | ECannotConvert a b => str "TypeError: cannot convert " ++ ticked a ++ str " to " ++ ticked b
  | ECannotCompare a b => str "TypeError: cannot compare " ++ ticked a ++ str " and " ++ ticked b
  | EParseError t ty => str "TypeError: cannot parse '" ++ t ++ str "' as " ++ ticked ty
  | EMismatchedArity n e g => str "TypeError: function '" ++ n ++ str "' expected " ++ ticked (n_text e) ++ str " arguments got " ++ ticked (n_text g)
  | ENotCallable t => str "TypeError: cannot use " ++ ticked t ++ str " as a function"
  | EUnsupportedBinary op a b => str "TypeError: unsupported binary operation " ++ ticked op ++ str " on " ++ ticked a ++ str " and " ++ ticked b
  | EUnpackable t => str "TypeError: cannot unpack " ++ ticked t
  | EInsufficientValues h w => str "TypeError: cannot unpack a " ++ n_text h ++ str " item value into " ++ n_text w ++ str " values"
  | EUnsupportedUnary op a => str "TypeError: unsupported unary operation " ++ ticked op ++ str " on " ++ ticked a
  | ENotIterable t => str "TypeError: cannot iterate over " ++ ticked t
  | EFailedToIterate => str "TypeError: failed to iterate :("
  | ECannotHash t => str "TypeError: cannot hash " ++ ticked t
  | EBuiltin msg => str "BuiltinError: " ++ msg
  | EIncludeNotTopLevel => str "IncludeError: includes can only be at the top level of a file"
  | EUnresolvedInclude n => str "IncludeError: unresolved include: " ++ debug_text n
  | ECouldNotResolve n => str "IncludeError: could not resolve include: " ++ debug_text n
  | ECircularInclude n => str "IncludeError: circular include: " ++ debug_text n
  | EUnexpectedToken p => str "SyntaxError: unexpected token at " ++ syntax_text p
  | EStatementAsExpression => str "SyntaxError: statement was used in place of expression"
  | EReturnOutsideFunction => str "SyntaxError: return outside of function"
  | EIndexError i => str "index " ++ ticked (int_text i) ++ str " out of bounds"
  | EZeroDivision => str "Division by zero"
  | ERuntimeLimit d => str "Runtime limit exceeded: " ++ duration_text d
  | EMemoryLimit => str "Memory limit exceeded"
  | EHalt => str "Halt"
  end.

(** error.rs:175-191, 238-256, 276-287, 323-338, 356-365, 404-412, 460-464: [NamedError::name]. *)
Definition error_name (e : error) : rstring :=
  match e with
  | ENameUndefined _ => str "Undefined" | ENameAlreadyDefined _ => str "AlreadyDefined"
  | EUndefinedBuiltin _ => str "UndefinedBuiltin" | EExternalNotGlobal _ => str "ExternalNotGlobal"
  | EExternalRedefined _ => str "ExternalRedefined" | EExternalNotDefined _ => str "ExternalNotDefined"
  | ETooManyItems => str "TooManyItems" | ETooManyParams => str "TooManyParams" | ETooManyArgs => str "TooManyArgs"
  | ETooMuchToUnpack => str "TooMuchToUnpack" | EStackOverflow => str "StackOverflow" | EStackUnderflow => str "StackUnderflow"
  | EInstructionOverflow => str "InstructionOverflow" | EJumpTooLarge => str "JumpTooLarge"
  | EStringTooLarge => str "StringTooLarge" | EArrayTooLarge => str "ArrayTooLarge"
  | EExpected _ _ => str "Expected" | ECannotConvert _ _ => str "CannotConvert" | ECannotCompare _ _ => str "CannotCompare"
  | EParseError _ _ => str "ParseError" | EMismatchedArity _ _ _ => str "MismatchedArity" | ENotCallable _ => str "NotCallable"
  | EUnsupportedBinary _ _ _ => str "UnsupportedBinaryOperation" | EUnpackable _ => str "Unpackable"
  | EInsufficientValues _ _ => str "InsufficientValues" | EUnsupportedUnary _ _ => str "UnsupportedUnaryOperation"
  | ENotIterable _ => str "NotIterable" | EFailedToIterate => str "FailedToIterate" | ECannotHash _ => str "CannotHash"
  | EBuiltin _ => str "BuiltinError"
  | EIncludeNotTopLevel => str "IncludeNotTopLevel" | EUnresolvedInclude _ => str "UnresolvedInclude"
  | ECouldNotResolve _ => str "CouldNotResolve" | ECircularInclude _ => str "CircularInclude"
  | EUnexpectedToken _ => str "UnexpectedToken" | EStatementAsExpression => str "StatementAsExpression"
  | EReturnOutsideFunction => str "ReturnOutsideFunction"
  | EIndexError _ => str "IndexError" | EZeroDivision => str "ZeroDivisionError" | ERuntimeLimit _ => str "RuntimeLimitExceeded"
  | EMemoryLimit => str "MemoryLimitExceeded" | EHalt => str "Halt"
  end.

(** sourcecache.rs:4-12 *)
Record source := mkSource { src_name : rstring; src_text : rstring }.

(** The crate ariadne: how a report with a title, a position and a message is drawn, the 0-based
    line of a character of a text, and the lines of a text. *)
Context (draw : list source -> rstring -> span -> rstring -> rstring)
        (offset_line : rstring -> nat -> option nat) (nth_line : rstring -> nat -> option rstring)
        (whitespace : N -> bool).

(** error.rs:63-84.  The help of a [BuiltinError] is left out: no function of the library sets it. *)
Definition error_report (c : list source) (e : error) (sp : span) : rstring := draw c (error_name e) sp (error_text e).

Definition starts_with_dots (s : rstring) : bool :=
  match s with a :: b :: d :: _ => ((a =? 46) && (b =? 46) && (d =? 46))%N | _ => false end.
Definition newline : rstring := [10%N].

(** error.rs:104-133 and 137-169, which write the same text; vm.rs:241-245 for the counted calls. *)
Definition trace_entry (c : list source) (t : trace_line) : rstring :=
  match t with
  | TMore n => str "   ... " ++ int_text (Z.of_nat n) ++ str " more frame" ++ (if n =? 1 then [] else str "s") ++ newline
  | TFrame name sp =>
      if starts_with_dots name then str "   " ++ name ++ newline else
      match nth_error c (sp_src sp) with
      | None => []
      | Some src =>
          match src_text src with
          | [] => []
          | _ =>
              match offset_line (src_text src) (sp_start sp) with
              | None => []
              | Some l =>
                  match nth_line (src_text src) l with
                  | None => []
                  | Some line =>
                      str "   File " ++ [34%N] ++ src_name src ++ [34%N] ++ str ", line " ++ int_text (Z.of_nat l) ++ str ", in " ++ name ++ newline ++
                      str "      " ++ trim_start whitespace line ++ newline
                  end
              end
          end
      end
  end.
Definition trace_text (c : list source) (t : list trace_line) : rstring :=
  str "Traceback (most recent call last):" ++ newline ++ flat_map (trace_entry c) (rev t).
End Report.
