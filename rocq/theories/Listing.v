(** disassembler/src/structure.rs: how listings are printed.  Simplification: without the
    colours (the [colored] crate adds escape sequences around the pieces when the output is a
    terminal). *)
From Verif Require Import Base RleVec Pool Float NumText Bytecode Chunk Value Ast Compiler Disasm.

(** bytecode.rs:8-24: the names, by opcode number. *)
Definition op_names : list rstring :=
  [ str "Halt"; str "Return"; str "Pop"; str "PopMany"; str "Swap"; str "SwapPop"; str "LoadConst";
    str "LoadLocal"; str "SetLocal"; str "DefineGlobal"; str "LoadUpvalue"; str "SetUpvalue"; str "LoadGlobal";
    str "SetGlobal"; str "DefineGlobalDefaulted"; str "CloseUpvalue"; str "CreateFunction"; str "CreateClosure";
    str "CreatePair"; str "CreateArray"; str "CreateRange"; str "CallFunction"; str "CallBuiltin";
    str "EnterContext"; str "ExitContext"; str "BlockResult"; str "BlockReturn"; str "JumpIfFalse";
    str "JumpIfNotEq"; str "JumpForward"; str "JumpBackward"; str "Unpack"; str "LoadNone"; str "LoadNoneMany";
    str "NewLoopCtx"; str "IterNext"; str "IndexGet"; str "IndexSet"; str "UnaryNegate"; str "UnaryNot";
    str "UnarySpread"; str "BinaryAdd"; str "BinarySubtract"; str "BinaryMultiply"; str "BinaryDivide";
    str "BinaryModulo"; str "BinaryPower"; str "BinaryEqual"; str "BinaryNotEqual"; str "BinaryGreater";
    str "BinaryGreaterEqual"; str "BinaryLess"; str "BinaryLessEqual"; str "BinaryAnd"; str "BinaryOr";
    str "BinaryJoin"; str "BitwiseAnd"; str "BitwiseOr"; str "BitwiseXor"; str "BitwiseNot";
    str "BitwiseLeftShift"; str "BitwiseRightShift" ].
Definition op_name (op : N) : rstring :=
  match nth_error op_names (N.to_nat op) with Some s => s | None => str "Unknown" end.

(** [usize::to_string] and [u16::to_string]. *)
Definition dec (n : nat) : rstring := int_text (Z.of_nat n).
Definition decN (n : N) : rstring := int_text (Z.of_N n).
(** [format!("{: <n}", s)] *)
Definition pad (n : nat) (s : rstring) : rstring := s ++ repeat 32%N (n - length s).

Section Listing.
(** [f64::to_string]; [format!("{:?}", s)] of a string; SourceCache::get_lineno (Lines.v) and
    the name of the source with a number (sourcecache.rs:18-21). *)
Context (o : oracle) (quoted : rstring -> rstring) (lineno : span -> option nat) (file : nat -> option rstring).

(** lib.rs:36-46 *)
Definition fn_line (sp : span) : nat := match lineno sp with Some n => n | None => 0 end.
Definition fn_file (sp : span) : rstring := match file (sp_src sp) with Some s => s | None => str "unknown" end.
Definition fn_at (sp : span) : rstring :=
  str ", file """ ++ fn_file sp ++ str """, line " ++ dec (fn_line sp).

(** structure.rs:93-107: at most ten items are shown, of longer arrays nine. *)
Fixpoint items_from (first : bool) (l : list rstring) : rstring :=
  match l with
  | [] => []
  | x :: t => (if first then [] else str ", ") ++ x ++ items_from false t
  end.
Definition items_text (l : list rstring) : rstring := items_from true l.

(** lib.rs:332-372 and structure.rs:60-139: the hint of a value, printed. *)
Fixpoint value_hint (v : value) : rstring :=
  match v with
  | VNone => str "none"
  | VBool b => if b then str "true" else str "false"
  | VInt i => int_text i
  | VFloat f => o_f64_text o f
  | VRange a b => int_text a ++ str ":" ++ int_text b
  | VColor r g b a => str "#" ++ hex2 r ++ hex2 g ++ hex2 b ++ hex2 a
  | VString s => quoted s
  | VSpecial n i => str "<" ++ n ++ str " id=" ++ decN i ++ str ">"
  | VArray l _ _ =>
      str "[" ++
      (if length l <=? 10 then items_text (map value_hint l)
       else items_text (firstn 9 (map value_hint l)) ++ str ", ...") ++ str "]"
  | VPair a b => str "(" ++ value_hint a ++ str ", " ++ value_hint b ++ str ")"
  | VFn (MFun f) => str "<func " ++ fn_name f ++ fn_at (fn_nspan f) ++ str ">"
  | VFn (MClo f us) => str "<closure " ++ fn_name f ++ fn_at (fn_nspan f) ++ str ", (upvalues=" ++ decN (N.of_nat (length us) mod 65536) ++ str ")>"
  | VLoopCtx _ => str "none"
  end.
(** structure.rs:60-139 *)
Definition hint_text (h : hint) : rstring :=
  match h with
  | HJump t => str ">> " ++ dec t
  | HNone => str "none"
  | HValue v => value_hint v
  | HClosure f => str "<closure " ++ fn_name f ++ fn_at (fn_nspan f) ++ str ", (upvalues=" ++ decN (fn_upcount f) ++ str ")>"
  | HBuiltin s => str "<builtin " ++ s ++ str ">"
  | HSymbol s => s
  | HOp s => s
  end.

(** structure.rs:143-181; the line break at its end is added in [listing_text]. *)
Definition row_text (last : nat) (l : line) : rstring :=
  (if last =? ln_number l then str "       " else pad 4 (dec (ln_number l)) ++ str "   ") ++
  (if ln_is_jump l then str ">>  " else str "    ") ++
  pad 4 (dec (ln_offset l)) ++ str " " ++
  pad 15 (op_name (ln_opcode l)) ++ str " " ++
  match ln_oparg l with Some k => pad 4 (decN k) ++ str " " | None => str "     " end ++
  match ln_hint l with
  | Some (HJump t) => (if ln_offset l <? t then str ">> " else str "<< ") ++ dec t
  | Some h => str "(" ++ hint_text h ++ str ")"
  | None => []
  end.

(** structure.rs:204-217: an empty line where the line number changes, but not at the
    beginning. *)
Fixpoint rows_text (first : bool) (last : nat) (ls : list line) : rstring :=
  match ls with
  | [] => []
  | l :: rest =>
      (if negb (ln_number l =? last) && negb first then [10%N] else []) ++
      row_text last l ++ [10%N] ++ rows_text false (ln_number l) rest
  end.
(** structure.rs:189-221 *)
Definition listing_text (l : listing) : rstring :=
  str "Disassembly of <func " ++ li_name l ++ fn_at (li_span l) ++ str ">" ++ [10%N] ++
  rows_text true 0 (li_lines l).
(** cli/src/main.rs:141-143 *)
Definition output_text (out : list listing) : rstring := concat (map (fun l => listing_text l ++ [10%N]) out).
End Listing.
