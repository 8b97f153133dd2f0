(** bytecode/src/chunk.rs: code, spans, constants and symbols of one function. *)
From Verif Require Import Base RleVec Bytecode.

Section Chunk.
Context {V : Type}.

(** chunk.rs:5-11 *)
Record chunk := mkChunk {
  ck_ops : bytes; ck_spans : rle span; ck_consts : list V; ck_syms : list rstring }.

(** chunk.rs:14-21 *)
Definition chunk_new : chunk := mkChunk [] rle_new [] [].

(** chunk.rs:23-33  [write_op] and [write_u8] have the same body. *)
Definition chunk_write_u8 (c : chunk) (b : N) (sp : span) : chunk :=
  mkChunk (bc_write_u8 b (ck_ops c)) (rle_push span_eqb (ck_spans c) sp) (ck_consts c) (ck_syms c).
Definition chunk_write_op := chunk_write_u8.

(** chunk.rs:35-39 *)
Definition chunk_write_u16 (c : chunk) (v : N) (sp : span) : chunk :=
  mkChunk (bc_write_u16 v (ck_ops c)) (rle_push_n span_eqb (ck_spans c) sp 2) (ck_consts c) (ck_syms c).

(** chunk.rs:41-49  [patch_u8] and [patch_op] have the same body. *)
Definition chunk_patch_u8 (c : chunk) (idx : nat) (b : N) : res chunk :=
  let! ops := bc_patch_u8 idx b (ck_ops c) in
  Ok (mkChunk ops (ck_spans c) (ck_consts c) (ck_syms c)).

(** chunk.rs:51-54 *)
Definition chunk_patch_u16 (c : chunk) (idx : nat) (v : N) : res chunk :=
  let! ops := bc_patch_u16 idx v (ck_ops c) in
  Ok (mkChunk ops (ck_spans c) (ck_consts c) (ck_syms c)).

(** chunk.rs:56-64 *)
Definition chunk_add_constant (c : chunk) (v : V) : chunk :=
  mkChunk (ck_ops c) (ck_spans c) (ck_consts c ++ [v]) (ck_syms c).
Definition chunk_add_symbol (c : chunk) (s : rstring) : chunk :=
  mkChunk (ck_ops c) (ck_spans c) (ck_consts c) (ck_syms c ++ [s]).

(** chunk.rs:66-74  indexing panics out of bounds. *)
Definition chunk_get_constant (c : chunk) (i : N) : res V :=
  match nth_error (ck_consts c) (N.to_nat i) with Some v => Ok v | None => Panic end.
Definition chunk_get_symbol (c : chunk) (i : N) : res rstring :=
  match nth_error (ck_syms c) (N.to_nat i) with Some v => Ok v | None => Panic end.

(** chunk.rs:76-82 *)
Definition chunk_force_symbol (c : chunk) (i : N) : rstring :=
  match nth_error (ck_syms c) (N.to_nat i) with Some s => s | None => str "unknown" end.

(** chunk.rs:84-97 *)
Definition chunk_get_span (c : chunk) (i : nat) : span :=
  match rle_get (ck_spans c) i with Some s => s | None => default_span end.
Definition chunk_last_span (c : chunk) : span :=
  match rle_last (ck_spans c) with Some s => s | None => default_span end.
Definition chunk_first_span (c : chunk) : span :=
  match rle_first (ck_spans c) with Some s => s | None => default_span end.

(** chunk.rs:99-102 *)
Definition chunk_len (c : chunk) : nat := length (ck_ops c).

(** Histories of chunk operations. *)
Inductive chunk_op :=
| KWriteOp (b : N) (sp : span) | KWriteU8 (b : N) (sp : span) | KWriteU16 (v : N) (sp : span)
| KPatchU8 (i : nat) (b : N) | KPatchU16 (i : nat) (v : N)
| KConst (v : V) | KSymbol (s : rstring).

Definition chunk_step (c : chunk) (o : chunk_op) : res chunk :=
  match o with
  | KWriteOp b sp => Ok (chunk_write_op c b sp)
  | KWriteU8 b sp => Ok (chunk_write_u8 c b sp)
  | KWriteU16 v sp => Ok (chunk_write_u16 c v sp)
  | KPatchU8 i b => chunk_patch_u8 c i b
  | KPatchU16 i v => chunk_patch_u16 c i v
  | KConst v => Ok (chunk_add_constant c v)
  | KSymbol s => Ok (chunk_add_symbol c s)
  end.

Fixpoint chunk_run (c : chunk) (ops : list chunk_op) : res chunk :=
  match ops with
  | [] => Ok c
  | o :: rest => let! c' := chunk_step c o in chunk_run c' rest
  end.
End Chunk.
Arguments chunk : clear implicits.
Arguments chunk_op : clear implicits.
