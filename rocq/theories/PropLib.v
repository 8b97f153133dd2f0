(** Property theorems about the operators and the rest of the standard library: C75-C85. *)
From Coq Require Import QArith Qround.
From Verif Require Import Base RleVec Pool Vecc Float NumText Bytecode Chunk Value Ast Arith VmOps Parse Args
  Builtins Compiler Vm Std Console SpecArith SpecBuiltins SpecText SpecStd SpecConsole SpecLib ProofArithEx ExProg ProofVmEx ProofHeldEx ProofConsoleEx
  ProofLib ProofLib2 ProofLib3 ProofLib4 ProofLib5 ProofLibEx.
Local Open Scope nat_scope.

(** ** C75  The builtins a program can call are exactly the ones listed in [all_names]. *)
Theorem C75_names : forall m orc n, stdio_known m orc n <> None <-> In n all_names.
Proof. exact stdio_names. Qed.
Print Assumptions C75_names.

Example C75_example : In (str "rainbow_colors") all_names /\ ~ In (str "sort") all_names /\ length all_names = 99.
Proof.
  split; [|split; [|reflexivity]].
  - apply (inb_ok (str "rainbow_colors")). vm_compute. reflexivity.
  - intros H. assert (E : existsb (seqb (str "sort")) all_names = true).
    { apply existsb_exists. exists (str "sort"). split; [exact H|]. vm_compute. reflexivity. }
    vm_compute in E. discriminate.
Qed.

(** ** C76  What counts as true in a condition. *)
Theorem C76_conditions : forall (Fn : Type) (fi : fn_info Fn) (v : gvalue Fn),
  match truth v with
  | Some P => exists b, is_truthy fi v = Ok b /\ (b = true <-> P)
  | None => is_truthy fi v = Err (EExpected (str "truthy") (ntype fi v))
  end.
Proof. exact @truthy_is. Qed.
Print Assumptions C76_conditions.

Example C76_example :
  is_truthy mfi (VColor 0 0 0 1) = Ok true /\ is_truthy mfi (VColor 0 0 0 0) = Ok false /\
  is_truthy mfi (VInt (-1)) = Ok true /\ is_truthy mfi (VFloat (S754_zero true)) = Ok false /\
  is_truthy mfi (VArray [] 0 9) = Err (EExpected (str "truthy") (str "list")).
Proof. repeat split. Qed.

(** ** C77  The operators: an operator refuses exactly the operands it is not defined for.
    Two caveats: division looks at the divisor first, and a negative number of repetitions
    of a text is refused with the same error. *)
Theorem C77_refused : forall (Fn : Type) m o (fi : fn_info Fn) feq smax amax op f (a b : gvalue Fn),
  binary_fn m o fi feq smax amax op = Some f -> defined_for op (type_of a) (type_of b) = false ->
  (divides op = true -> zero_number b -> f a b = Err EZeroDivision) /\
  (divides op = false \/ ~ zero_number b -> f a b = Err (EUnsupportedBinary (sign op) (ntype fi a) (ntype fi b))).
Proof.
  intros Fn m o fi feq smax amax op f a b Hf Hd. rewrite (refused_operands m o fi feq smax amax op f a b Hf Hd).
  pose proof (zero_is b) as Z. split.
  - intros -> H. apply Z in H. now rewrite H.
  - intros [->|H]; [reflexivity|]. destruct (is_zero b); [tauto|]. now rewrite andb_false_r.
Qed.
Print Assumptions C77_refused.

Theorem C77_accepted_partial : forall (Fn : Type) m o (fi : fn_info Fn) feq smax amax,
  (forall f g e, feq f g <> Err e) -> forall op f (a b : gvalue Fn),
  binary_fn m o fi feq smax amax op = Some f -> defined_for op (type_of a) (type_of b) = true ->
  (forall s n, op = OMul -> a = VString s -> b = VInt n -> (0 <= n)%Z) ->
  forall s t u, f a b <> Err (EUnsupportedBinary s t u).
Proof.
  intros Fn m o fi feq smax amax Hq op f a b Hf Hd Hn s t u E.
  apply (accepted_operands m o fi feq smax amax Hq op f a b Hf Hd Hn). rewrite E. repeat eexists.
Qed.
Print Assumptions C77_accepted_partial.

Theorem C77_promotion : forall (Fn : Type) m o (fi : fn_info Fn) feq smax amax op f (l : Z) (x : f64),
  numeric op = true -> binary_fn m o fi feq smax amax op = Some f ->
  f (VInt l) (VFloat x) = f (VFloat (f_of_Z l)) (VFloat x) /\
  (divides op = false -> f (VFloat x) (VInt l) = f (VFloat x) (VFloat (f_of_Z l))) /\
  (op = ODiv -> l <> 0%Z -> f (VFloat x) (VInt l) = Ok (VFloat (fdiv x (f_of_Z l)))) /\
  (op = OMod -> l <> 0%Z -> f (VFloat x) (VInt l) = Ok (VFloat (fmod x (f_of_Z l)))).
Proof.
  intros Fn m o fi feq smax amax op f l x Hn Hf.
  destruct (promoted m o fi feq smax amax op f l x Hn Hf) as [H1 H2]. split; [exact H1|]. split; [exact H2|].
  split; intros -> Hl; injection Hf as <-; now destruct (divided fi l x Hl).
Qed.
Print Assumptions C77_promotion.

Theorem C77_unary : forall (Fn : Type) m (fi : fn_info Fn) op f (a : gvalue Fn),
  unary_fn m fi op = Some f -> defined_for1 op (type_of a) = false ->
  f a = Err (EUnsupportedUnary (sign op) (ntype fi a)).
Proof. exact @refused_operand. Qed.
Print Assumptions C77_unary.

Example C77_example : forall o,
  let f op := binary_fn Release o mfi no_feq 100 100 op in
  (exists g, f OSub = Some g /\ defined_for OSub TStr TInt = false /\
     g (VString (str "a")) (VInt 1) = Err (EUnsupportedBinary (str "-") (str "str") (str "int"))) /\
  (exists g, f OMul = Some g /\ defined_for OMul TStr TInt = true /\
     g (VString (str "ab")) (VInt 2) = Ok (VString (str "abab"))) /\
  (exists g, f OMod = Some g /\ defined_for OMod TStr TInt = false /\ g (VString (str "a")) (VInt 0) = Err EZeroDivision).
Proof.
  intros o f. split; [|split]; (eexists; split; [reflexivity|]); (split; [reflexivity|]); reflexivity.
Qed.

(** ** C78  [&&], [||] and [!] follow the truth tables; both sides are always evaluated. *)
Theorem C78_tables : forall (Fn : Type) (fi : fn_info Fn) a b,
  v_and fi (VBool a) (VBool b) = Ok (VBool (andb a b)) /\ v_or fi (VBool a) (VBool b) = Ok (VBool (orb a b)) /\
  v_not fi (VBool a) = Ok (VBool (negb a)).
Proof. exact @logic. Qed.
Print Assumptions C78_tables.

(** A left operand that settles the result does not keep the right one from running. *)
Theorem C78_short_circuit_refuted :
  (exists i, parse_code talk_oracle 100 (str "false && @panic(""both sides"")") 0 = PMatch eager_ast i) /\
  compile Release eager_ast = COk (script_of eager_ast) /\
  (exists sp s, fresh_run eager_ast = RErr (EBuiltin (str "both sides")) sp s) /\
  (exists i, parse_code talk_oracle 100 (str "true || @panic(""both sides"")") 0 = PMatch eager2_ast i) /\
  compile Release eager2_ast = COk (script_of eager2_ast) /\
  (exists sp s, fresh_run eager2_ast = RErr (EBuiltin (str "both sides")) sp s).
Proof.
  split; [exact eager_parses|]. split; [exact eager_compiles|]. split; [exact eager_runs|].
  split; [exact eager2_parses|]. split; [exact eager2_compiles|exact eager2_runs].
Qed.
Print Assumptions C78_short_circuit_refuted.

(** ** C79  Rounding: exact for every float, limited to 64 bits. *)
Theorem C79_floor : forall m o (Fn : Type) (fi : fn_info Fn) feq amax f q, binary64 f -> rational f = Some q ->
  std_call m o fi feq amax (str "floor") [VFloat f] = Ok (VInt (limited (Qfloor q))).
Proof. exact @floor_is. Qed.
Print Assumptions C79_floor.

Theorem C79_ceil : forall m o (Fn : Type) (fi : fn_info Fn) feq amax f q, binary64 f -> rational f = Some q ->
  std_call m o fi feq amax (str "ceil") [VFloat f] = Ok (VInt (limited (Qceiling q))).
Proof. exact @ceil_is. Qed.
Print Assumptions C79_ceil.

Theorem C79_round : forall m o (Fn : Type) (fi : fn_info Fn) feq amax f q, binary64 f -> rational f = Some q ->
  exists n, std_call m o fi feq amax (str "round") [VFloat f] = Ok (VInt (limited n)) /\ nearest q n.
Proof. exact @round_is. Qed.
Print Assumptions C79_round.

Theorem C79_special : forall m o (Fn : Type) (fi : fn_info Fn) feq amax name f,
  In name [str "floor"; str "ceil"; str "round"] ->
  (f = S754_nan -> std_call m o fi feq amax name [VFloat f] = Ok (VInt 0)) /\
  (f = S754_infinity false -> std_call m o fi feq amax name [VFloat f] = Ok (VInt (2 ^ 63 - 1))) /\
  (f = S754_infinity true -> std_call m o fi feq amax name [VFloat f] = Ok (VInt (- 2 ^ 63))) /\
  forall i, std_call m o fi feq amax name [VInt i] = Ok (VInt i).
Proof. exact @special_rounding. Qed.
Print Assumptions C79_special.

(** @fix rounds to the given number of decimal places, computed in floats. *)
Theorem C79_fix : forall m o (Fn : Type) (fi : fn_info Fn) feq amax v x d, num_of v x -> (- 2 ^ 31 <= d < 2 ^ 31)%Z ->
  let p := o_math o (str "powi") [f_of_Z 10; f_of_Z d] in
  (d <> 0%Z -> std_call m o fi feq amax (str "fix") [v; VInt d] = Ok (VFloat (fdiv (f_round (fmul x p)) p))) /\
  std_call m o fi feq amax (str "fix") [v; VInt 0] = std_call m o fi feq amax (str "int") [v].
Proof. exact @fix_places. Qed.
Print Assumptions C79_fix.

(** -2.5: the floor is -3, the ceiling -2, the nearest (away from zero) -3. *)
Example C79_example : forall o,
  let f := fdiv (f_of_Z (-5)) (f_of_Z 2) in
  binary64 f /\ (exists q, rational f = Some q /\ q == (-5 # 2) /\ Qfloor q = (-3)%Z /\ Qceiling q = (-2)%Z /\ nearest q (-3)) /\
  std_call Release o mfi no_feq 9 (str "floor") [VFloat f] = Ok (VInt (-3)) /\
  std_call Release o mfi no_feq 9 (str "ceil") [VFloat f] = Ok (VInt (-2)) /\
  std_call Release o mfi no_feq 9 (str "round") [VFloat f] = Ok (VInt (-3)).
Proof.
  intros o f. split; [reflexivity|]. split; [|repeat split].
  eexists. split; [reflexivity|]. split; [reflexivity|]. split; [reflexivity|]. split; [reflexivity|]. vm_compute. reflexivity.
Qed.

(** ** C80  Conversions. *)
Theorem C80_int_text : forall m o (Fn : Type) (fi : fn_info Fn) feq amax s,
  (forall z, std_call m o fi feq amax (str "int") [VString s] = Ok (VInt z) <-> signed_numeral 10 s z /\ fits64 z) /\
  ((exists z, std_call m o fi feq amax (str "int") [VString s] = Ok (VInt z)) \/
   std_call m o fi feq amax (str "int") [VString s] = Err (EParseError s (str "int"))).
Proof. exact @int_of_text. Qed.
Print Assumptions C80_int_text.

Theorem C80_int_radix : forall m o (Fn : Type) (fi : fn_info Fn) feq amax s radix, (- 2 ^ 31 <= radix < 2 ^ 31)%Z ->
  ((2 <= radix <= 36)%Z ->
    (forall z, std_call m o fi feq amax (str "int_from_radix") [VString s; VInt radix] = Ok (VInt z) <->
       signed_numeral radix s z /\ fits64 z) /\
    ((exists z, std_call m o fi feq amax (str "int_from_radix") [VString s; VInt radix] = Ok (VInt z)) \/
     std_call m o fi feq amax (str "int_from_radix") [VString s; VInt radix] = Err (EParseError s (str "int")))) /\
  (~ (2 <= radix <= 36)%Z -> exists t, integer_text radix t /\
    std_call m o fi feq amax (str "int_from_radix") [VString s; VInt radix] =
      Err (EBuiltin (str "radix must be between 2 and 36, got `" ++ t ++ str "`"))).
Proof. exact @int_of_radix. Qed.
Print Assumptions C80_int_radix.

Theorem C80_int_number : forall m o (Fn : Type) (fi : fn_info Fn) feq amax (v : gvalue Fn),
  match v with
  | VInt i => std_call m o fi feq amax (str "int") [v] = Ok (VInt i)
  | VFloat f => exists z, std_call m o fi feq amax (str "int") [v] = Ok (VInt z) /\ float_to_int (- 2 ^ 63) (2 ^ 63 - 1) f z
  | VString _ => True
  | _ => std_call m o fi feq amax (str "int") [v] = Err (ECannotConvert (ntype fi v) (str "int"))
  end.
Proof. exact @int_of_number. Qed.
Print Assumptions C80_int_number.

(** The text of the error is left open: it names `int`, not `float`. *)
Theorem C80_float : forall m o (Fn : Type) (fi : fn_info Fn) feq amax (v : gvalue Fn),
  match v with
  | VInt i => std_call m o fi feq amax (str "float") [v] = Ok (VFloat (f_of_Z i))
  | VFloat f => std_call m o fi feq amax (str "float") [v] = Ok (VFloat f)
  | VString s => std_call m o fi feq amax (str "float") [v] =
      match o_f64_parse o s with Some f => Ok (VFloat f) | None => Err (EParseError s (str "float")) end
  | _ => exists t, std_call m o fi feq amax (str "float") [v] = Err (ECannotConvert (ntype fi v) t)
  end.
Proof. exact @float_of. Qed.
Print Assumptions C80_float.

Theorem C80_bool : forall m o (Fn : Type) (fi : fn_info Fn) feq amax (v : gvalue Fn),
  let call := std_call m o fi feq amax (str "bool") [v] in
  match v with
  | VString s => call = Ok (VBool true) /\ s = str "true" \/ call = Ok (VBool false) /\ s = str "false" \/
                 call = Err (EParseError s (str "bool")) /\ s <> str "true" /\ s <> str "false"
  | VBool _ | VInt _ | VFloat _ =>
      exists b, call = Ok (VBool b) /\ match truth v with Some P => b = true <-> P | None => False end
  | _ => call = Err (ECannotConvert (ntype fi v) (str "bool"))
  end.
Proof. exact @bool_of. Qed.
Print Assumptions C80_bool.

Theorem C80_char : forall m o (Fn : Type) (fi : fn_info Fn) feq amax v, fits64 v ->
  let c := (v mod 2 ^ 32)%Z in
  ((0 <= c < 55296 \/ 57344 <= c < 1114112)%Z -> std_call m o fi feq amax (str "char") [VInt v] = Ok (VString [Z.to_N c])) /\
  (~ (0 <= c < 55296 \/ 57344 <= c < 1114112)%Z -> exists t, integer_text v t /\
     std_call m o fi feq amax (str "char") [VInt v] = Err (EBuiltin (str "invalid character code `" ++ t ++ str "`"))).
Proof. exact @char_of. Qed.
Print Assumptions C80_char.

Theorem C80_color_int : forall m o (Fn : Type) (fi : fn_info Fn) feq amax i, exists r g b a,
  std_call m o fi feq amax (str "color") [VInt i] = Ok (VColor r g b a) /\
  (r < 256 /\ g < 256 /\ b < 256 /\ a < 256)%N /\ bytes32 r g b a = (i mod 2 ^ 32)%Z.
Proof. exact @color_of_int. Qed.
Print Assumptions C80_color_int.

(** 35 is the code of the number sign. *)
Theorem C80_color_text : forall m o (Fn : Type) (fi : fn_info Fn) feq amax pre post,
  Forall (eq 35%N) pre -> Forall (eq 35%N) post ->
  (forall c1 c2 c3 c4 c5 c6 c7 c8 r g b a,
     hex_byte c1 c2 r -> hex_byte c3 c4 g -> hex_byte c5 c6 b -> hex_byte c7 c8 a ->
     std_call m o fi feq amax (str "color") [VString (pre ++ [c1; c2; c3; c4; c5; c6; c7; c8] ++ post)] = Ok (VColor r g b a)) /\
  (forall c1 c2 c3 c4 c5 c6 r g b, hex_byte c1 c2 r -> hex_byte c3 c4 g -> hex_byte c5 c6 b ->
     std_call m o fi feq amax (str "color") [VString (pre ++ [c1; c2; c3; c4; c5; c6] ++ post)] = Ok (VColor r g b 255)) /\
  (forall c1 c2 c3 r g b, hex_byte c1 c1 r -> hex_byte c2 c2 g -> hex_byte c3 c3 b ->
     std_call m o fi feq amax (str "color") [VString (pre ++ [c1; c2; c3] ++ post)] = Ok (VColor r g b 255)).
Proof. exact @color_of_text. Qed.
Print Assumptions C80_color_text.

(** Texts that are not colours are accepted: digits that are not hexadecimal count as 0, and
    everything after the eighth is dropped. *)
Theorem C80_color_text_refuted : forall m o (Fn : Type) (fi : fn_info Fn) feq amax,
  std_call m o fi feq amax (str "color") [VString (str "zzzzzz")] = Ok (VColor 0 0 0 255) /\
  std_call m o fi feq amax (str "color") [VString (str "+f+f+f11 and more")] = Ok (VColor 15 15 15 17).
Proof. intros m o Fn fi feq amax. split; reflexivity. Qed.
Print Assumptions C80_color_text_refuted.

Example C80_example : forall o,
  signed_numeral 16 (str "-fF") (-255) /\
  std_call Release o mfi no_feq 9 (str "int_from_radix") [VString (str "-fF"); VInt 16] = Ok (VInt (-255)) /\
  std_call Release o mfi no_feq 9 (str "int") [VString (str "12 ")] = Err (EParseError (str "12 ") (str "int")) /\
  std_call Release o mfi no_feq 9 (str "color") [VString (str "#1aF")] = Ok (VColor 17 170 255 255) /\
  hex_byte 97 97 170 /\ std_call Release o mfi no_feq 9 (str "color") [VInt (-2)] = Ok (VColor 255 255 255 254).
Proof.
  intros o. split.
  { exists (str "-"), (str "fF"), [15%Z; 15%Z]. split; [reflexivity|]. split; [discriminate|]. split.
    - constructor; [split; [lia|now left]|]. constructor; [split; [lia|now right]|constructor].
    - right. split; reflexivity. }
  split; [reflexivity|]. split; [reflexivity|]. split; [reflexivity|]. split; [|reflexivity].
  exists 10%Z, 10%Z. split; [split; [lia|now left]|]. split; [split; [lia|now left]|reflexivity].
Qed.

(** ** C81  Assertions and failures. *)
Theorem C81_assert : forall m o (Fn : Type) (fi : fn_info Fn) feq amax b,
  std_call m o fi feq amax (str "assert") [VBool b] = if b then Ok VNone else Err (EBuiltin (str "assertion failed")).
Proof. exact @assert_is. Qed.
Print Assumptions C81_assert.

Theorem C81_assert_eq : forall m o (Fn : Type) (fi : fn_info Fn) feq amax x y ta tb e,
  std_call m o fi feq amax (str "str") [x] = Ok (VString ta) -> std_call m o fi feq amax (str "str") [y] = Ok (VString tb) ->
  v_equal feq x y = Ok (VBool e) ->
  let msg sign := str "assertion failed: `(left " ++ sign ++ str " right)`" ++ [10%N] ++ str "  left: `" ++ ta ++ str "`" ++ [10%N]
                  ++ str " right: `" ++ tb ++ str "`" in
  std_call m o fi feq amax (str "assert_eq") [x; y] = (if e then Ok VNone else Err (EBuiltin (msg (str "==")))) /\
  std_call m o fi feq amax (str "assert_ne") [x; y] = (if e then Err (EBuiltin (msg (str "!="))) else Ok VNone).
Proof. exact @assert_eq_is. Qed.
Print Assumptions C81_assert_eq.

Theorem C81_failures : forall m o (Fn : Type) (fi : fn_info Fn) feq amax s,
  std_call m o fi feq amax (str "panic") [VString s] = Err (EBuiltin s) /\
  std_call m o fi feq amax (str "todo") [] = Err (EBuiltin (str "not yet implemented")) /\
  std_call m o fi feq amax (str "unreachable") [] = Err (EBuiltin (str "unreachable code reached")).
Proof. exact @failures. Qed.
Print Assumptions C81_failures.

Example C81_example : forall o,
  std_call Release o mfi no_feq 9 (str "assert_eq") [VInt 1; VString (str "1")] =
    Err (EBuiltin (str "assertion failed: `(left == right)`
  left: `1`
 right: `1`")) /\
  v_equal no_feq (VInt 1) (VString (str "1")) = Ok (VBool false).
Proof. intros o. split; reflexivity. Qed.

(** ** C82  @gettype gives the name of the type. *)
Theorem C82_gettype : forall m o feq amax (v : value),
  std_call m o mfi feq amax (str "gettype") [v] = Ok (VString (type_name v)).
Proof. exact gettype_is. Qed.
Print Assumptions C82_gettype.

Example C82_example : forall o,
  std_call Release o mfi no_feq 9 (str "gettype") [VPair (VInt 1) VNone] = Ok (VString (str "pair")).
Proof. intros o. reflexivity. Qed.

(** ** C83  The mathematical functions are those of the platform, applied to the number as a
    float.  @log is the logarithm to base ten. *)
Theorem C83_one : forall m o (Fn : Type) (fi : fn_info Fn) feq amax name v x, num_of v x ->
  In name [str "sin"; str "cos"; str "tan"; str "asin"; str "acos"; str "atan"; str "log2"; str "log10"] ->
  std_call m o fi feq amax name [v] = Ok (VFloat (o_math o name [x])).
Proof. exact @math1. Qed.
Print Assumptions C83_one.

Theorem C83_others : forall m o (Fn : Type) (fi : fn_info Fn) feq amax v x w y u t,
  num_of v x -> num_of w y -> num_of u t ->
  std_call m o fi feq amax (str "log") [v] = std_call m o fi feq amax (str "log10") [v] /\
  std_call m o fi feq amax (str "sqrt") [v] = Ok (VFloat (fsqrt x)) /\
  std_call m o fi feq amax (str "atan2") [v; w] = Ok (VFloat (o_math o (str "atan2") [x; y])) /\
  std_call m o fi feq amax (str "interp") [v; w; u] = Ok (VFloat (fadd x (fmul (fsub y x) t))).
Proof.
  exact (fun m o Fn fi feq amax v x w y u t Hv Hw Hu => conj (math_log m o fi feq amax v x Hv)
    (conj (math_sqrt m o fi feq amax v x Hv) (conj (math_atan2 m o fi feq amax v x w y Hv Hw)
      (math_interp m o fi feq amax v x w y u t Hv Hw Hu)))).
Qed.
Print Assumptions C83_others.

Example C83_example : forall o,
  std_call Release o mfi no_feq 9 (str "sqrt") [VInt 9] = Ok (VFloat (f_of_Z 3)) /\ num_of (VInt 9 : value) (f_of_Z 9) /\
  std_call Release o mfi no_feq 9 (str "interp") [VInt 10; VInt 20; VFloat one_half] = Ok (VFloat (f_of_Z 15)).
Proof. intros o. split; [reflexivity|]. split; [right; eauto|reflexivity]. Qed.

(** ** C84  Colours. *)
Theorem C84_wheel : forall m o (Fn : Type) (fi : fn_info Fn) feq amax h, (0 <= h < 360)%Z ->
  (exists r g b, std_call m o fi feq amax (str "hsl") [VInt h; VInt 1; VFloat one_half] = Ok (VColor r g b 255) /\ wheel h r g b) /\
  (exists r g b, std_call m o fi feq amax (str "hsv") [VInt h; VInt 1; VInt 1] = Ok (VColor r g b 255) /\ wheel h r g b).
Proof. exact @wheel_is. Qed.
Print Assumptions C84_wheel.

Theorem C84_grey : forall m o (Fn : Type) (fi : fn_info Fn) feq amax h v x, (0 <= h <= 360)%Z -> num_of v x ->
  (exists n, std_call m o fi feq amax (str "hsl") [VInt h; VInt 0; v] = Ok (VColor n n n 255)) /\
  (exists n, std_call m o fi feq amax (str "hsv") [VInt h; VInt 0; v] = Ok (VColor n n n 255)).
Proof. exact @grey_is. Qed.
Print Assumptions C84_grey.

Theorem C84_alpha : forall m o (Fn : Type) (fi : fn_info Fn) feq amax r g b a v x q n,
  num_of v x -> binary64 (fmul x (f_of_Z 255)) -> rational (fmul x (f_of_Z 255)) = Some q -> nearest q n ->
  exists a', std_call m o fi feq amax (str "alpha") [VColor r g b a; v] = Ok (VColor r g b a') /\ Z.of_N a' = clamp255 n.
Proof. exact @alpha_is. Qed.
Print Assumptions C84_alpha.

Theorem C84_contrast_color : forall m o (Fn : Type) (fi : fn_info Fn) feq amax r g b a l,
  std_call m o fi feq amax (str "brightness") [VColor r g b a] = Ok (VFloat l) ->
  std_call m o fi feq amax (str "contrast_color") [VColor r g b a] =
    if fltb (f_of_Z 186) l then Ok (VColor 0 0 0 a) else Ok (VColor 255 255 255 a).
Proof. exact @contrast_is. Qed.
Print Assumptions C84_contrast_color.

Theorem C84_brightness : forall m o (Fn : Type) (fi : fn_info Fn) feq amax r g b a, exists x y z,
  near_q x (299 # 1000) /\ near_q y (587 # 1000) /\ near_q z (114 # 1000) /\
  let f n := f_of_Z (Z.of_N n) in
  let w := VFloat (fadd (fadd (fmul (f r) x) (fmul (f g) y)) (fmul (f b) z)) in
  std_call m o fi feq amax (str "brightness") [VColor r g b a] = Ok w /\
  std_call m o fi feq amax (str "hue") [VColor r g b a] = Ok w.
Proof. exact @brightness_is. Qed.
Print Assumptions C84_brightness.

Theorem C84_luma : forall m o (Fn : Type) (fi : fn_info Fn) feq amax r g b a, exists x y z,
  near_q x (2126 # 10000) /\ near_q y (7152 # 10000) /\ near_q z (722 # 10000) /\
  let f n := f_of_Z (Z.of_N n) in
  std_call m o fi feq amax (str "luma") [VColor r g b a] = Ok (VFloat (fadd (fadd (fmul (f r) x) (fmul (f g) y)) (fmul (f b) z))).
Proof. exact @luma_is. Qed.
Print Assumptions C84_luma.

Theorem C84_opaque : forall m o (Fn : Type) (fi : fn_info Fn) feq amax h s l x y z, num_of h x -> num_of s y -> num_of l z ->
  std_call m o fi feq amax (str "hsl") [h; s; l] = std_call m o fi feq amax (str "hsla") [h; s; l; VInt 1] /\
  std_call m o fi feq amax (str "hsv") [h; s; l] = std_call m o fi feq amax (str "hsva") [h; s; l; VInt 1].
Proof. exact (fun m o Fn fi feq amax h s l x y z => opaque m o fi feq amax h s l x y z). Qed.
Print Assumptions C84_opaque.

Theorem C84_rainbow : forall m o (Fn : Type) (fi : fn_info Fn) feq amax,
  std_call m o fi feq amax (str "rainbow_colors") [] =
  let colors := [ VColor 255 0 0 255; VColor 255 135 0 255; VColor 255 211 0 255; VColor 222 255 10 255;
    VColor 161 255 10 255; VColor 10 255 153 255; VColor 10 239 255 255; VColor 20 125 245 255;
    VColor 88 10 255 255; VColor 190 10 255 255 ]%N in
  if (total_size colors <=? amax)%N then Ok (VArray colors (total_size colors) amax) else Err EArrayTooLarge.
Proof. exact @rainbow_is. Qed.
Print Assumptions C84_rainbow.

(** @saturate and @desaturate do not change the saturation: both mix a colour with itself.
    @saturation is @contrast and @hue is @brightness. *)
Theorem C84_saturate_refuted : forall m o (Fn : Type) (fi : fn_info Fn) feq amax r g b a v,
  std_call m o fi feq amax (str "saturation") [VColor r g b a] = std_call m o fi feq amax (str "contrast") [VColor r g b a] /\
  std_call m o fi feq amax (str "saturate") [VColor r g b a; v] =
    std_call m o fi feq amax (str "mix") [VColor r g b a; VColor r g b a; v] /\
  std_call m o fi feq amax (str "desaturate") [VColor r g b a; v] =
    std_call m o fi feq amax (str "mix") [VColor r g b a; VColor r g b a; v] /\
  std_call m o fi feq amax (str "fade") [VColor r g b a; v] = std_call m o fi feq amax (str "darken") [VColor r g b a; v].
Proof. exact @same_names. Qed.
Print Assumptions C84_saturate_refuted.

Example C84_example : forall o,
  std_call Release o mfi no_feq 9 (str "hsl") [VInt 210; VInt 1; VFloat one_half] = Ok (VColor 0 128 255 255) /\
  wheel 210 0 128 255 /\
  std_call Release o mfi no_feq 9 (str "alpha") [VColor 1 2 3 4; VFloat one_half] = Ok (VColor 1 2 3 128) /\
  binary64 (fmul one_half (f_of_Z 255)) /\
  (exists q, rational (fmul one_half (f_of_Z 255)) = Some q /\ nearest q 128) /\
  std_call Release o mfi no_feq 9 (str "contrast_color") [VColor 255 255 0 7] = Ok (VColor 0 0 0 7).
Proof.
  intros o. split; [vm_compute; reflexivity|]. split; [vm_compute; repeat split; discriminate|]. split; [vm_compute; reflexivity|].
  split; [vm_compute; reflexivity|]. split; [eexists; split; [reflexivity|vm_compute; reflexivity]|]. vm_compute. reflexivity.
Qed.

(** ** C85  Texts. *)
Theorem C85_capitalize : forall m o (Fn : Type) (fi : fn_info Fn) feq amax s,
  exists t, std_call m o fi feq amax (str "capitalize") [VString s] = Ok (VString t) /\ capital (o_char_upper o) s t.
Proof. exact @capitalize_is. Qed.
Print Assumptions C85_capitalize.

(** @title capitalises every word and puts one space between them. *)
Theorem C85_title : forall m o (Fn : Type) (fi : fn_info Fn) feq amax s, exists ws cs t,
  worded (o_whitespace o) s ws /\ Forall2 (capital (o_char_upper o)) ws cs /\ joined (str " ") cs t /\
  std_call m o fi feq amax (str "title") [VString s] = Ok (VString t).
Proof. exact @title_is. Qed.
Print Assumptions C85_title.

Theorem C85_case : forall m o (Fn : Type) (fi : fn_info Fn) feq amax s,
  std_call m o fi feq amax (str "uppercase") [VString s] = Ok (VString (concat (map (o_char_upper o) s))) /\
  std_call m o fi feq amax (str "lowercase") [VString s] = Ok (VString (concat (map (o_char_lower o) s))).
Proof. exact @letter_case. Qed.
Print Assumptions C85_case.

Theorem C85_trim_ends : forall m o (Fn : Type) (fi : fn_info Fn) feq amax s,
  (exists pre r, std_call m o fi feq amax (str "trim_start") [VString s] = Ok (VString r) /\ s = pre ++ r /\
     Forall (fun c => o_whitespace o c = true) pre /\ (forall c t, r = c :: t -> o_whitespace o c = false)) /\
  (exists r post, std_call m o fi feq amax (str "trim_end") [VString s] = Ok (VString r) /\ s = r ++ post /\
     Forall (fun c => o_whitespace o c = true) post /\ (forall c t, r = t ++ [c] -> o_whitespace o c = false)).
Proof. exact @trim_ends. Qed.
Print Assumptions C85_trim_ends.

Example C85_example : forall o, (forall c, o_whitespace o c = (c =? 32)%N) -> o_char_upper o 97%N = str "A" -> o_char_upper o 98%N = str "B" ->
  std_call Release o mfi no_feq 9 (str "title") [VString (str "  an  bee ")] = Ok (VString (str "An Bee")) /\
  worded (o_whitespace o) (str "  an  bee ") [str "an"; str "bee"].
Proof.
  intros o H Ha Hb. split.
  - unfold std_call. cbv -[o_whitespace o_char_upper o_char_lower]. rewrite !H. cbv -[o_whitespace o_char_upper]. rewrite Ha, Hb. reflexivity.
  - apply (wo_word _ (str "  ") (str "an") 32%N (str " bee ") [str "bee"]); try (apply H); try discriminate.
    1-2: repeat (apply Forall_cons; [apply H|]); apply Forall_nil.
    apply (wo_word _ (str " ") (str "bee") 32%N [] []); try (apply H); try discriminate.
    1-2: repeat (apply Forall_cons; [apply H|]); apply Forall_nil.
    constructor. constructor.
Qed.
