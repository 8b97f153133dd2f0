(** Reading back what was shown (C98). *)
From Verif Require Import Base RleVec Float NumText Value Ast.
From Verif Require SpecProg.

(** Data that can be read back.  Texts are shown without their quotes, whole floats without
    a point: neither is here. *)
Inductive plain_data (o : oracle) : value -> Prop :=
| pd_none : plain_data o VNone
| pd_bool b : plain_data o (VBool b)
| pd_int z : (- 2 ^ 63 <= z < 2 ^ 63)%Z -> plain_data o (VInt z)
| pd_float f t : o_f64_text o f = t \/ o_f64_text o f = str "-" ++ t -> SpecProg.float_text t ->
    o_f64_parse o (o_f64_text o f) = Some f -> plain_data o (VFloat f)
| pd_range a b : (- 2 ^ 31 <= a < 2 ^ 31)%Z -> (- 2 ^ 31 <= b < 2 ^ 31)%Z -> plain_data o (VRange a b)
| pd_colour r g b a : (r < 256)%N -> (g < 256)%N -> (b < 256)%N -> (a < 256)%N -> plain_data o (VColor r g b a)
| pd_array l size mx : Forall (plain_data o) l -> plain_data o (VArray l size mx)
| pd_pair a b : plain_data o a -> plain_data o b -> plain_data o (VPair a b).

(** The same data: how many items a list may grow to is not part of it. *)
Inductive same_data : value -> value -> Prop :=
| sd_none : same_data VNone VNone
| sd_bool b : same_data (VBool b) (VBool b)
| sd_int z : same_data (VInt z) (VInt z)
| sd_float f : same_data (VFloat f) (VFloat f)
| sd_range a b : same_data (VRange a b) (VRange a b)
| sd_colour r g b a : same_data (VColor r g b a) (VColor r g b a)
| sd_array l l' size mx size' mx' : Forall2 same_data l l' -> same_data (VArray l size mx) (VArray l' size' mx')
| sd_pair a a' b b' : same_data a a' -> same_data b b' -> same_data (VPair a b) (VPair a' b').

(** The data a literal stands for. *)
Inductive stands_for : literal -> value -> Prop :=
| sf_none : stands_for LNone VNone
| sf_bool b : stands_for (LBool b) (VBool b)
| sf_int z : stands_for (LInt z) (VInt z)
| sf_float f : stands_for (LFloat f) (VFloat f)
| sf_range a b : stands_for (LRange a b) (VRange a b)
| sf_colour r g b a : stands_for (LColor r g b a) (VColor r g b a)
| sf_array l l' size mx : Forall2 stands_for l l' -> stands_for (LArray l) (VArray l' size mx)
| sf_pair a a' b b' : stands_for a a' -> stands_for b b' -> stands_for (LPair a b) (VPair a' b').

(** Numbers below zero; shown as a number with a sign before it. *)
Definition below_zero (o : oracle) (v : value) : Prop :=
  match v with
  | VInt z => (z < 0)%Z
  | VFloat f => exists t, o_f64_text o f = str "-" ++ t
  | _ => False
  end.
