(** Worlds that differ in what was printed (C95, C96). *)
From Verif Require Import Base Float NumText Value Ast Arith VmOps Args Builtins Compiler Vm Std Console.

Definition put_out (t : rstring) (w : world) : world :=
  mkWorld t (w_in w) (w_file w) (w_clock w) (w_reads w) (w_rand w) (w_float w) (w_draws w) (w_hash w).
(** [e] is [d], but behind [base] the text [front] was printed as well. *)
Definition printed_more (base front : rstring) (d e : world) : Prop :=
  exists own, w_out d = base ++ own /\ e = put_out (base ++ front ++ own) d.
