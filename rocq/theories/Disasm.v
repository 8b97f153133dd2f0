(** disassembler/src/lib.rs: listings of compiled code. *)
From Verif Require Import Base RleVec Pool Vecc Float NumText Bytecode Chunk Value Ast Arith VmOps Compiler.

(** structure.rs:5-36.  A constant is shown as a tree of hints built from its value
    (lib.rs:332-372) and then printed; the hint here is the value itself, Listing.v has both
    steps in one. *)
Inductive hint := HJump (target : nat) | HNone | HValue (v : value) | HClosure (f : function)
                | HBuiltin (s : rstring) | HSymbol (s : rstring) | HOp (s : rstring).

(** structure.rs:38-50, without the span; the opcode's name is [op_name] of Listing.v. *)
Record line := mkLine {
  ln_number : nat; ln_is_jump : bool; ln_offset : nat; ln_opcode : N;
  ln_oparg : option N; ln_hint : option hint; ln_args : list N }.

(** structure.rs:52-58.  The function's line number and file name are computed from the
    position of its name when the listing is printed (Listing.v). *)
Record listing := mkListing { li_name : rstring; li_span : span; li_lines : list line }.

(** lib.rs:254-326: the operators. *)
Definition op_texts : list (N * rstring) :=
  [ (op_BinaryAdd, str "+"); (op_BinarySubtract, str "-"); (op_BinaryMultiply, str "*");
    (op_BinaryDivide, str "/"); (op_BinaryModulo, str "%"); (op_BinaryPower, str "**");
    (op_BinaryEqual, str "=="); (op_BinaryNotEqual, str "!="); (op_BinaryLess, str "<");
    (op_BinaryLessEqual, str "<="); (op_BinaryGreater, str ">"); (op_BinaryGreaterEqual, str ">=");
    (op_BinaryAnd, str "&&"); (op_BinaryOr, str "||"); (op_BinaryJoin, str "..");
    (op_UnaryNegate, str "-"); (op_UnaryNot, str "!"); (op_UnarySpread, str "...");
    (op_BitwiseAnd, str "&"); (op_BitwiseOr, str "|"); (op_BitwiseXor, str "^");
    (op_BitwiseLeftShift, str "<<"); (op_BitwiseRightShift, str ">>"); (op_BitwiseNot, str "~") ].

Definition is_op (l : list N) (o : N) : bool := existsb (N.eqb o) l.

(** lib.rs:177-187: the captures behind CreateClosure. *)
Fixpoint dis_captures (ops : bytes) (n : nat) (off : nat) : res (list N * nat) :=
  match n with
  | O => Ok ([], off)
  | S n' =>
      let! a := bc_read_u8 ops off in
      let! b := bc_read_u16 ops (off + 1) in
      let! r := dis_captures ops n' (off + 3) in
      Ok (a :: b :: fst r, snd r)
  end.

(** What [disassemble_op] leaves: the next offset, the operand and hint shown, the raw
    operands, the target pushed on the jump stack. *)
Record dis := mkDis { d_next : nat; d_oparg : option N; d_hint : option hint; d_args : list N;
                      d_push : option nat }.

Section Disasm.
(** SourceCache::get_lineno, see Lines.v. *)
Context (lineno : span -> option nat).
(** The script's global names. *)
Context (gsyms : pool rstring).

Definition global_symbol (i : N) : rstring :=
  match pool_get gsyms i with Some s => s | None => str "unknown" end.

(** lib.rs:114-330.  [off] is the offset behind the opcode.  A backward jump beyond the
    beginning, which panics in a checked build and wraps around in another, is a panic
    here (C39 shows that compiled code has none). *)
Definition dis_op (op : N) (c : chunk value) (off : nat) : res dis :=
  let ops := ck_ops c in
  if (op =? op_LoadNone)%N then Ok (mkDis off None (Some HNone) [] None)
  else if is_op [op_LoadConst; op_CreateFunction] op then
    let! k := bc_read_u16 ops off in
    let! v := chunk_get_constant c k in
    Ok (mkDis (off + 2) (Some k) (Some (HValue v)) [k] None)
  else if is_op [op_DefineGlobal; op_LoadGlobal; op_SetGlobal; op_DefineGlobalDefaulted] op then
    let! k := bc_read_u16 ops off in
    Ok (mkDis (off + 2) (Some k) (Some (HSymbol (global_symbol k))) [k] None)
  else if is_op [op_LoadLocal; op_SetLocal] op then
    let! k := bc_read_u16 ops off in
    Ok (mkDis (off + 2) (Some k) (Some (HSymbol (chunk_force_symbol c k))) [k] None)
  else if (op =? op_CreateClosure)%N then
    let! k := bc_read_u16 ops off in
    let! v := chunk_get_constant c k in
    match v with
    | VFn (MFun f) =>
        let! r := dis_captures ops (N.to_nat (fn_upcount f)) (off + 2) in
        Ok (mkDis (snd r) (Some k) (Some (HClosure f)) (k :: fst r) None)
    | _ => Ok (mkDis (off + 2) None None [k] None)
    end
  else if is_op [op_LoadUpvalue; op_SetUpvalue; op_PopMany] op then
    let! k := bc_read_u16 ops off in
    Ok (mkDis (off + 2) (Some k) None [k] None)
  else if is_op [op_CallFunction; op_Unpack; op_CreateArray; op_LoadNoneMany] op then
    let! k := bc_read_u8 ops off in
    Ok (mkDis (off + 1) (Some k) None [k] None)
  else if is_op [op_CallBuiltin; op_EnterContext] op then
    let! b := bc_read_u16 ops off in
    let! k := bc_read_u8 ops (off + 2) in
    Ok (mkDis (off + 3) (Some k) (Some (HBuiltin (global_symbol b))) [b; k] None)
  else if is_op [op_JumpIfFalse; op_JumpForward; op_JumpBackward; op_JumpIfNotEq; op_IterNext] op then
    let! k := bc_read_u16 ops off in
    if (op =? op_JumpBackward)%N then
      if off + 2 <? N.to_nat k then Panic
      else Ok (mkDis (off + 2) (Some k) (Some (HJump (off + 2 - N.to_nat k))) [k] (Some (off + 2 - N.to_nat k)))
    else Ok (mkDis (off + 2) (Some k) (Some (HJump (N.to_nat k + (off + 2)))) [k] (Some (N.to_nat k + (off + 2))))
  else
    match alookup N.eqb op op_texts with
    | Some t => Ok (mkDis off None (Some (HOp t)) [] None)
    | None => Ok (mkDis off None None [] None)
    end.

(** lib.rs:81-86: [position] and [remove] on the jump stack (pushes go to its end). *)
Fixpoint take_jump (x : nat) (js : list nat) : bool * list nat :=
  match js with
  | [] => (false, [])
  | y :: t => if y =? x then (true, t) else let (b, t') := take_jump x t in (b, y :: t')
  end.

(** lib.rs:74-112.  Every round moves on by a byte at least, so [fuel] rounds are enough
    when it is the length of the code.  Also returns the offset at which the walk ends. *)
Fixpoint walk (fuel : nat) (c : chunk value) (off : nat) (js : list nat) : res (list line * list nat * nat) :=
  match fuel with
  | O => Ok ([], js, off)
  | S fuel' =>
      if off <? length (ck_ops c) then
        match lineno (chunk_get_span c off) with
        | Some n =>
            let (is_jump, js1) := take_jump off js in
            let! op := bc_read_u8 (ck_ops c) off in
            let! d := dis_op op c (off + 1) in
            let js2 := match d_push d with Some t => js1 ++ [t] | None => js1 end in
            let! r := walk fuel' c (d_next d) js2 in
            Ok (mkLine n is_jump off op (d_oparg d) (d_hint d) (d_args d) :: fst (fst r), snd (fst r), snd r)
        | None => walk fuel' c (off + 1) js
        end
      else Ok ([], js, off)
  end.
Definition dis_chunk (c : chunk value) (js : list nat) : res (list line * list nat * nat) :=
  walk (length (ck_ops c)) c 0 js.

(** lib.rs:53-72.  [self.idx] always points at the listing pushed last when a chunk is
    walked, so a listing and its lines are made together here.  [depth] bounds how deep
    functions are nested in constants; [None] when it is too small. *)
Fixpoint dis_function (depth : nat) (f : function) (js : list nat) {struct depth}
    : option (res (list listing * list nat)) :=
  match depth with
  | O => None
  | S depth' =>
      match dis_chunk (fn_chunk f) js with
      | Ok (lines, js1, _) =>
          let fix go (cs : list value) (js : list nat) : option (res (list listing * list nat)) :=
            match cs with
            | [] => Some (Ok ([], js))
            | VFn (MFun g) :: rest =>
                match dis_function depth' g js with
                | Some (Ok (l1, js1)) =>
                    match go rest js1 with
                    | Some (Ok (l2, js2)) => Some (Ok (l1 ++ l2, js2))
                    | r => r
                    end
                | r => r
                end
            | _ :: rest => go rest js
            end in
          match go (ck_consts (fn_chunk f)) js1 with
          | Some (Ok (l, js2)) => Some (Ok (mkListing (fn_name f) (fn_nspan f) lines :: l, js2))
          | r => r
          end
      | Err e => Some (Err e)
      | Panic => Some Panic
      end
  end.
End Disasm.

(** lib.rs:26-34, 48-51 *)
Definition disassemble (lineno : span -> option nat) (depth : nat) (s : script) : option (res (list listing)) :=
  match dis_function lineno (sc_globals s) depth (sc_function s) [] with
  | Some (Ok (l, _)) => Some (Ok l)
  | Some (Err e) => Some (Err e)
  | Some Panic => Some Panic
  | None => None
  end.
