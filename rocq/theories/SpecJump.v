(** Jumps in compiled code (C14). *)
From Verif Require Import Base RleVec Pool Vecc Float NumText Bytecode Chunk Value Ast Arith VmOps Compiler Vm.

(** The code written so far for the function being compiled. *)
Definition code_of (c : compiler) : bytes := ck_ops (lv_chunk (c_level c)).

(** The four instructions that jump forward, by opcode. *)
Definition forward (o : N) : option (N -> instr) :=
  if (o =? op_JumpForward)%N then Some IJumpForward
  else if (o =? op_JumpIfFalse)%N then Some IJumpIfFalse
  else if (o =? op_JumpIfNotEq)%N then Some IJumpIfNotEq
  else if (o =? op_IterNext)%N then Some IIterNext
  else None.

(** Whether the machine takes the jump: always; when the value on top of the stack is
    false; when the two values on top differ; when the loop's iterable is at its end. *)
Section Taken.
Context {D : Type} (m : mode) (hst : host D).
Definition taken (s : vm D) (i : instr) (b : bool) : Prop :=
  let top k := nth_error (v_stack s) (v_sp s - k) in
  match i with
  | IJumpForward _ | IJumpBackward _ => b = true
  | IJumpIfFalse _ => exists v, top 1 = Some v /\ is_truthy mfi v = Ok (negb b)
  | IJumpIfNotEq _ => exists v w, top 2 = Some v /\ top 1 = Some w /\ geqb (feq_at hst s) v w = Ok (negb b)
  | IIterNext _ => exists idx it r, top 3 = Some (VLoopCtx idx) /\ top 2 = Some it /\
                     v_iter m mfi idx it = Ok r /\ (b = true <-> r = None)
  | _ => False
  end.
End Taken.
