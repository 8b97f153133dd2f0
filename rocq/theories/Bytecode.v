(** bytecode/src/bytecode.rs: opcodes and the byte buffer primitives. *)
From Verif Require Import Base.

Local Open Scope N_scope.

(** bytecode.rs:26-92  opcode numbers (iota, from 0). *)
Definition op_Halt : N := 0.             Definition op_Return : N := 1.
Definition op_Pop : N := 2.              Definition op_PopMany : N := 3.
Definition op_Swap : N := 4.             Definition op_SwapPop : N := 5.
Definition op_LoadConst : N := 6.        Definition op_LoadLocal : N := 7.
Definition op_SetLocal : N := 8.         Definition op_DefineGlobal : N := 9.
Definition op_LoadUpvalue : N := 10.     Definition op_SetUpvalue : N := 11.
Definition op_LoadGlobal : N := 12.      Definition op_SetGlobal : N := 13.
Definition op_DefineGlobalDefaulted : N := 14.
Definition op_CloseUpvalue : N := 15.    Definition op_CreateFunction : N := 16.
Definition op_CreateClosure : N := 17.   Definition op_CreatePair : N := 18.
Definition op_CreateArray : N := 19.     Definition op_CreateRange : N := 20.
Definition op_CallFunction : N := 21.    Definition op_CallBuiltin : N := 22.
Definition op_EnterContext : N := 23.    Definition op_ExitContext : N := 24.
Definition op_BlockResult : N := 25.     Definition op_BlockReturn : N := 26.
Definition op_JumpIfFalse : N := 27.     Definition op_JumpIfNotEq : N := 28.
Definition op_JumpForward : N := 29.     Definition op_JumpBackward : N := 30.
Definition op_Unpack : N := 31.          Definition op_LoadNone : N := 32.
Definition op_LoadNoneMany : N := 33.    Definition op_NewLoopCtx : N := 34.
Definition op_IterNext : N := 35.        Definition op_IndexGet : N := 36.
Definition op_IndexSet : N := 37.        Definition op_UnaryNegate : N := 38.
Definition op_UnaryNot : N := 39.        Definition op_UnarySpread : N := 40.
Definition op_BinaryAdd : N := 41.       Definition op_BinarySubtract : N := 42.
Definition op_BinaryMultiply : N := 43.  Definition op_BinaryDivide : N := 44.
Definition op_BinaryModulo : N := 45.    Definition op_BinaryPower : N := 46.
Definition op_BinaryEqual : N := 47.     Definition op_BinaryNotEqual : N := 48.
Definition op_BinaryGreater : N := 49.   Definition op_BinaryGreaterEqual : N := 50.
Definition op_BinaryLess : N := 51.      Definition op_BinaryLessEqual : N := 52.
Definition op_BinaryAnd : N := 53.       Definition op_BinaryOr : N := 54.
Definition op_BinaryJoin : N := 55.      Definition op_BitwiseAnd : N := 56.
Definition op_BitwiseOr : N := 57.       Definition op_BitwiseXor : N := 58.
Definition op_BitwiseNot : N := 59.      Definition op_BitwiseLeftShift : N := 60.
Definition op_BitwiseRightShift : N := 61.

(** [u16::to_le_bytes] / [u16::from_le_bytes] of the standard library. *)
Definition le_lo (v : N) : N := v mod 256.
Definition le_hi (v : N) : N := (v / 256) mod 256.
Definition le_u16 (a b : N) : N := a + 256 * b.

(** A [Vec<u8>]: bytes as [N]. *)
Definition bytes := list N.
Local Close Scope N_scope.

(** Vec::insert: panics past the end. *)
Definition bc_insert (idx : nat) (b : N) (ops : bytes) : res bytes :=
  if idx <=? length ops then Ok (firstn idx ops ++ b :: skipn idx ops) else Panic.

(** bytecode.rs:113-121 *)
Definition bc_insert_u8 (idx : nat) (b : N) (ops : bytes) : res bytes := bc_insert idx b ops.

(** bytecode.rs:123-128 *)
Definition bc_insert_u16 (idx : nat) (v : N) (ops : bytes) : res bytes :=
  let! ops1 := bc_insert idx (le_hi v) ops in bc_insert idx (le_lo v) ops1.

(** Vec index assignment: panics past the end. *)
Definition bc_set (idx : nat) (b : N) (ops : bytes) : res bytes :=
  if idx <? length ops then Ok (upd idx b ops) else Panic.

(** bytecode.rs:130-138 *)
Definition bc_patch_u8 (idx : nat) (b : N) (ops : bytes) : res bytes := bc_set idx b ops.

(** bytecode.rs:140-145 *)
Definition bc_patch_u16 (idx : nat) (v : N) (ops : bytes) : res bytes :=
  let! ops1 := bc_set idx (le_lo v) ops in bc_set (idx + 1) (le_hi v) ops1.

(** bytecode.rs:147-155 *)
Definition bc_write_u8 (b : N) (ops : bytes) : bytes := ops ++ [b].

(** bytecode.rs:157-160 *)
Definition bc_write_u16 (v : N) (ops : bytes) : bytes := ops ++ [le_lo v; le_hi v].

(** bytecode.rs:162-170 *)
Definition bc_read_u8 (ops : bytes) (idx : nat) : res N :=
  match nth_error ops idx with Some b => Ok b | None => Panic end.

(** bytecode.rs:172-175 *)
Definition bc_read_u16 (ops : bytes) (idx : nat) : res N :=
  match nth_error ops idx, nth_error ops (idx + 1) with
  | Some a, Some b => Ok (le_u16 a b)
  | _, _ => Panic
  end.
