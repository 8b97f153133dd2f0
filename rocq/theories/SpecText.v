(** How values are written as text (C69). *)
From Verif Require Import Base RleVec Float NumText Value Ast SpecArith SpecBuiltins.

Definition decimal (n : Z) (t : rstring) : Prop := exists ds, digits_of 10 ds n /\ t = map digit_text ds.
Definition integer_text (z : Z) (t : rstring) : Prop :=
  if (z <? 0)%Z then exists t', decimal (- z) t' /\ t = str "-" ++ t' else decimal z t.
(** Two hexadecimal digits. *)
Definition byte_text (n : N) (t : rstring) : Prop :=
  exists h l, Z.of_N n = (16 * h + l)%Z /\ (0 <= h < 16)%Z /\ (0 <= l < 16)%Z /\ t = [digit_text h; digit_text l].

(** [float_text] writes a float (the standard library does). *)
Inductive written (float_text : f64 -> rstring) : value -> rstring -> Prop :=
| wr_none : written float_text VNone (str "none")
| wr_true : written float_text (VBool true) (str "true")
| wr_false : written float_text (VBool false) (str "false")
| wr_int z t : integer_text z t -> written float_text (VInt z) t
| wr_float f : written float_text (VFloat f) (float_text f)
| wr_range a b t u : integer_text a t -> integer_text b u ->
    written float_text (VRange a b) (t ++ str ":" ++ u)
| wr_color r g b a t u v w : byte_text r t -> byte_text g u -> byte_text b v -> byte_text a w ->
    written float_text (VColor r g b a) (str "#" ++ t ++ u ++ v ++ w)
| wr_string s : written float_text (VString s) s
| wr_special n i t : decimal (Z.of_N i) t ->
    written float_text (VSpecial n i) (str "<special id=" ++ n ++ str " value=" ++ t ++ str ">")
| wr_array l size mx ts t : Forall2 (written float_text) l ts -> joined (str ", ") ts t ->
    written float_text (VArray l size mx) (str "[" ++ t ++ str "]")
| wr_loop i t : decimal (Z.of_N i) t -> written float_text (VLoopCtx i) (str "<loop_ctx " ++ t ++ str ">")
| wr_pair a b t u : written float_text a t -> written float_text b u ->
    written float_text (VPair a b) (str "(" ++ t ++ str ", " ++ u ++ str ")")
| wr_function f : written float_text (VFn (MFun f)) (str "<function " ++ fn_name f ++ str ">")
| wr_closure f ups : written float_text (VFn (MClo f ups)) (str "<closure " ++ fn_name f ++ str ">").
