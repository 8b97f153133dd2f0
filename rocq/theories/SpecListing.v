(** What a printed listing must tell (C94). *)
From Verif Require Import Base Float Bytecode Chunk Value Ast Compiler Vm Disasm SpecBuiltins SpecDisasm SpecText.

(** On one line. *)
Definition one_line (s : rstring) : Prop := ~ In 10%N s.
(** A value that can be shown on one line: so are the names in it. *)
Inductive tidy_value : value -> Prop :=
| tv_plain v : match v with VSpecial _ _ | VArray _ _ _ | VPair _ _ | VFn _ => False | _ => True end -> tidy_value v
| tv_special n i : one_line n -> tidy_value (VSpecial n i)
| tv_array l s mx : Forall tidy_value l -> tidy_value (VArray l s mx)
| tv_pair a b : tidy_value a -> tidy_value b -> tidy_value (VPair a b)
| tv_fn f : one_line (fn_name (mfn_function f)) -> tidy_value (VFn f).
Definition tidy_hint (h : hint) : Prop :=
  match h with
  | HJump _ | HNone => True
  | HValue v => tidy_value v
  | HClosure f => one_line (fn_name f)
  | HBuiltin s | HSymbol s | HOp s => one_line s
  end.
(** A listing of known instructions, with names on one line and a function's name without
    commas. *)
Definition tidy (l : listing) : Prop :=
  one_line (li_name l) /\ ~ In 44%N (li_name l) /\
  forall r, In r (li_lines l) -> (ln_opcode r < 62)%N /\ forall h, ln_hint r = Some h -> tidy_hint h.

(** Explanations of one kind say the same name, operator or number. *)
Definition same_word (h h' : hint) : Prop :=
  match h, h' with
  | HBuiltin s, HBuiltin s' | HSymbol s, HSymbol s' | HOp s, HOp s' => s = s'
  | HValue (VInt i), HValue (VInt j) => i = j
  | _, _ => True
  end.
(** Two rows tell the same: source line, mark, offset, instruction, operand, target and the
    names beside them. *)
Definition same_row (r r' : line) : Prop :=
  ln_number r = ln_number r' /\ ln_is_jump r = ln_is_jump r' /\ ln_offset r = ln_offset r' /\
  ln_opcode r = ln_opcode r' /\ ln_oparg r = ln_oparg r' /\
  (forall t, ln_hint r = Some (HJump t) <-> ln_hint r' = Some (HJump t)) /\
  (ln_hint r = None <-> ln_hint r' = None) /\
  (forall h h', ln_hint r = Some h -> ln_hint r' = Some h' -> same_word h h').
(** Two listings are of functions of one name, from one line (0 where it is unknown) of one
    file, and have the same rows.  Each was made with its own table of lines and files. *)
Definition same_listing (lineno : span -> option nat) (file : nat -> option rstring)
    (lineno' : span -> option nat) (file' : nat -> option rstring) (l l' : listing) : Prop :=
  li_name l = li_name l' /\
  match lineno (li_span l) with Some n => n | None => 0 end = match lineno' (li_span l') with Some n => n | None => 0 end /\
  match file (sp_src (li_span l)) with Some s => s | None => str "unknown" end =
    match file' (sp_src (li_span l')) with Some s => s | None => str "unknown" end /\
  Forall2 same_row (li_lines l) (li_lines l').

(** ** What stands in a row *)

(** The words of a text: what stands between spaces. *)
Fixpoint words_from (acc s : rstring) : list rstring :=
  match s with
  | [] => match acc with [] => [] | _ => [acc] end
  | c :: t => if (c =? 32)%N then match acc with [] => words_from [] t | _ => acc :: words_from [] t end
              else words_from (acc ++ [c]) t
  end.
Definition words (s : rstring) : list rstring := words_from [] s.

(** The names of the instructions. *)
Definition instr_name (i : instr) : rstring :=
  match i with
  | IHalt => str "Halt" | IReturn => str "Return" | IPop => str "Pop" | IPopMany _ => str "PopMany"
  | ISwap => str "Swap" | ISwapPop => str "SwapPop" | ILoadConst _ => str "LoadConst"
  | ILoadLocal _ => str "LoadLocal" | ISetLocal _ => str "SetLocal" | IDefineGlobal _ => str "DefineGlobal"
  | ILoadUpvalue _ => str "LoadUpvalue" | ISetUpvalue _ => str "SetUpvalue" | ILoadGlobal _ => str "LoadGlobal"
  | ISetGlobal _ => str "SetGlobal" | IDefineGlobalDefaulted _ => str "DefineGlobalDefaulted"
  | ICloseUpvalue => str "CloseUpvalue" | ICreateFunction _ => str "CreateFunction"
  | ICreateClosure _ => str "CreateClosure" | ICreatePair => str "CreatePair" | ICreateArray _ => str "CreateArray"
  | ICreateRange => str "CreateRange" | ICallFunction _ => str "CallFunction" | ICallBuiltin _ _ => str "CallBuiltin"
  | IEnterContext _ _ => str "EnterContext" | IExitContext => str "ExitContext" | IBlockResult => str "BlockResult"
  | IBlockReturn => str "BlockReturn" | IJumpIfFalse _ => str "JumpIfFalse" | IJumpIfNotEq _ => str "JumpIfNotEq"
  | IJumpForward _ => str "JumpForward" | IJumpBackward _ => str "JumpBackward" | IUnpack _ => str "Unpack"
  | ILoadNone => str "LoadNone" | ILoadNoneMany _ => str "LoadNoneMany" | INewLoopCtx => str "NewLoopCtx"
  | IIterNext _ => str "IterNext" | IIndexGet => str "IndexGet"
  | IUnary ONeg => str "UnaryNegate" | IUnary ONot => str "UnaryNot" | IUnary OBitwiseNot => str "BitwiseNot"
  | IUnary _ => []
  | IBinary OAdd => str "BinaryAdd" | IBinary OSub => str "BinarySubtract" | IBinary OMul => str "BinaryMultiply"
  | IBinary ODiv => str "BinaryDivide" | IBinary OMod => str "BinaryModulo" | IBinary OPow => str "BinaryPower"
  | IBinary OEq => str "BinaryEqual" | IBinary ONeq => str "BinaryNotEqual" | IBinary OGt => str "BinaryGreater"
  | IBinary OGte => str "BinaryGreaterEqual" | IBinary OLt => str "BinaryLess" | IBinary OLte => str "BinaryLessEqual"
  | IBinary OAnd => str "BinaryAnd" | IBinary OOr => str "BinaryOr" | IBinary OJoin => str "BinaryJoin"
  | IBinary OBitwiseAnd => str "BitwiseAnd" | IBinary OBitwiseOr => str "BitwiseOr"
  | IBinary OBitwiseXor => str "BitwiseXor" | IBinary OBitwiseLeftShift => str "BitwiseLeftShift"
  | IBinary OBitwiseRightShift => str "BitwiseRightShift"
  | IBinary _ => []
  end.

Section Says.
(** How floats and quoted strings are written; lines and names of files. *)
Context (float_text : f64 -> rstring) (quoted : rstring -> rstring) (lineno : span -> option nat) (file : nat -> option rstring).
(** [, file "…", line …] *)
Definition place (sp : span) (t : rstring) : Prop :=
  exists n, integer_text (match lineno sp with Some n => Z.of_nat n | None => 0 end) n /\
    t = str ", file """ ++ match file (sp_src sp) with Some s => s | None => str "unknown" end ++ str """, line " ++ n.
(** A constant: of a list of more than ten items the first nine. *)
Inductive constant : value -> rstring -> Prop :=
| ct_none : constant VNone (str "none")
| ct_true : constant (VBool true) (str "true")
| ct_false : constant (VBool false) (str "false")
| ct_int z t : integer_text z t -> constant (VInt z) t
| ct_float f : constant (VFloat f) (float_text f)
| ct_range a b t u : integer_text a t -> integer_text b u -> constant (VRange a b) (t ++ str ":" ++ u)
| ct_color r g b a t u v w :
    byte_text r t -> byte_text g u -> byte_text b v -> byte_text a w ->
    constant (VColor r g b a) (str "#" ++ t ++ u ++ v ++ w)
| ct_string s : constant (VString s) (quoted s)
| ct_special n i t : integer_text (Z.of_N i) t -> constant (VSpecial n i) (str "<" ++ n ++ str " id=" ++ t ++ str ">")
| ct_array l size mx ts t : length l <= 10 -> Forall2 constant l ts -> joined (str ", ") ts t ->
    constant (VArray l size mx) (str "[" ++ t ++ str "]")
| ct_long l r size mx ts t : length l = 9 -> length r >= 2 -> Forall2 constant l ts -> joined (str ", ") ts t ->
    constant (VArray (l ++ r) size mx) (str "[" ++ t ++ str ", ...]")
| ct_pair a b t u : constant a t -> constant b u -> constant (VPair a b) (str "(" ++ t ++ str ", " ++ u ++ str ")")
| ct_function f t : place (fn_nspan f) t -> constant (VFn (MFun f)) (str "<func " ++ fn_name f ++ t ++ str ">").
(** A jump is shown with its direction, anything else in parentheses. *)
Inductive says (offset : nat) : option hint -> rstring -> Prop :=
| sy_nothing : says offset None []
| sy_ahead t n : offset < t -> integer_text (Z.of_nat t) n -> says offset (Some (HJump t)) (str ">> " ++ n)
| sy_back t n : t <= offset -> integer_text (Z.of_nat t) n -> says offset (Some (HJump t)) (str "<< " ++ n)
| sy_none : says offset (Some HNone) (str "(none)")
| sy_value v t : constant v t -> says offset (Some (HValue v)) (str "(" ++ t ++ str ")")
| sy_closure f t n : place (fn_nspan f) t -> integer_text (Z.of_N (fn_upcount f)) n ->
    says offset (Some (HClosure f)) (str "(<closure " ++ fn_name f ++ t ++ str ", (upvalues=" ++ n ++ str ")>)")
| sy_builtin s : says offset (Some (HBuiltin s)) (str "(<builtin " ++ s ++ str ">)")
| sy_symbol s : says offset (Some (HSymbol s)) (str "(" ++ s ++ str ")")
| sy_op s : says offset (Some (HOp s)) (str "(" ++ s ++ str ")").
(** The words of a row: the line when it is not that of the row above, the mark, the offset,
    the instruction, its operand, the explanation. *)
Definition tells (last : nat) (r : line) (i : instr) (ws : list rstring) : Prop :=
  exists n off arg h, integer_text (Z.of_nat (ln_number r)) n /\ integer_text (Z.of_nat (ln_offset r)) off /\
    match ln_oparg r, arg with Some k, [a] => integer_text (Z.of_N k) a | None, [] => True | _, _ => False end /\
    says (ln_offset r) (ln_hint r) h /\
    ws = (if last =? ln_number r then [] else [n]) ++ (if ln_is_jump r then [str ">>"] else []) ++
         [off; instr_name i] ++ arg ++ words h.
(** A listing of the code [ops]: the heading; then the rows, each on its line, with an empty line
    before a row of another line than the row above (not before the first). *)
Inductive rows_printed (ops : bytes) : bool -> nat -> list line -> rstring -> Prop :=
| rp_nil first last : rows_printed ops first last [] []
| rp_row first last r rest i next row t :
    decode ops (ln_offset r) = Ok (i, next) -> tells last r i (words row) -> rows_printed ops false (ln_number r) rest t ->
    rows_printed ops first last (r :: rest)
      ((if negb first && negb (ln_number r =? last) then [10%N] else []) ++ row ++ [10%N] ++ t).
Definition printed (ops : bytes) (l : listing) (t : rstring) : Prop :=
  exists p rows, place (li_span l) p /\ rows_printed ops true 0 (li_lines l) rows /\
    t = str "Disassembly of <func " ++ li_name l ++ p ++ str ">" ++ [10%N] ++ rows.
End Says.
(** The page of a function: printed of a right listing (C39) of it. *)
Definition page float_text quoted lineno file (s : script) (f : function) (t : rstring) : Prop :=
  exists lines, printed float_text quoted lineno file (ck_ops (fn_chunk f)) (mkListing (fn_name f) (fn_nspan f) lines) t /\
    right_listing s (fn_chunk f) lines (length (ck_ops (fn_chunk f))).
(** A constant the compiler can make: bytes are bytes, and no closure or loop. *)
Inductive sound_value : value -> Prop :=
| sv_plain v : match v with VColor _ _ _ _ | VArray _ _ _ | VPair _ _ | VFn _ | VLoopCtx _ => False | _ => True end -> sound_value v
| sv_color r g b a : (r < 256)%N -> (g < 256)%N -> (b < 256)%N -> (a < 256)%N -> sound_value (VColor r g b a)
| sv_array l s mx : Forall sound_value l -> sound_value (VArray l s mx)
| sv_pair a b : sound_value a -> sound_value b -> sound_value (VPair a b)
| sv_fn f : sound_value (VFn (MFun f)).
