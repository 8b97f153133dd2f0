(** Specifications for the rest of the operators and builtins (C75-C85). *)
From Coq Require Import QArith Qround.
From Verif Require Import Base Float Value Ast Arith SpecArith.
Local Open Scope nat_scope.

(** ** The builtins by name (C75) *)
Definition core_names : list rstring :=
  [str "get"; str "set"; str "slice"; str "str"; str "bin"; str "oct"; str "hex"; str "char"; str "int_from_radix"; str "int"; str "float"; str "bool";
   str "color"; str "len"; str "gettype"].
Definition math_names : list rstring :=
  [str "log"; str "log2"; str "log10"; str "hash"; str "min"; str "max"; str "round"; str "floor"; str "ceil"; str "fix"; str "clamp"; str "interp"; str "abs";
   str "sin"; str "cos"; str "tan"; str "asin"; str "acos"; str "atan"; str "atan2"; str "sqrt"; str "random"; str "randbool"; str "randint"; str "randfloat";
   str "randchoice"].
Definition color_names : list rstring :=
  [str "rgba"; str "rgb"; str "hsla"; str "hsl"; str "hsva"; str "hsv"; str "r"; str "g"; str "b"; str "a"; str "luma"; str "hue"; str "saturation"; str "brightness";
   str "contrast"; str "cdifference"; str "invert"; str "alpha"; str "mix"; str "lighten"; str "darken"; str "saturate"; str "desaturate"; str "fade";
   str "complement"; str "contrast_color"; str "random_color"; str "random_pastel_color"; str "random_rainbow_color";
   str "rainbow_colors"].
Definition string_names : list rstring :=
  [str "truncate"; str "capitalize"; str "title"; str "uppercase"; str "lowercase"; str "split"; str "join"; str "replace"; str "trim";
   str "trim_start"; str "trim_end"; str "starts_with"; str "ends_with"; str "contains"; str "chars"].
Definition testing_names : list rstring :=
  [str "assert"; str "assert_eq"; str "assert_ne"; str "unreachable"; str "panic"; str "todo"].
Definition time_names : list rstring :=
  [str "now"; str "date"].
Definition io_names : list rstring :=
  [str "println"; str "print"; str "debug"; str "input"; str "readfile"].
Definition all_names : list rstring :=
  core_names ++ math_names ++ color_names ++ string_names ++ testing_names ++ time_names ++ io_names.

Section Values.
Context {Fn : Type}.
Notation val := (gvalue Fn).

(** ** Conditions (C76) *)
Definition truth (v : val) : option Prop :=
  match v with
  | VBool b => Some (b = true)
  | VInt i => Some (i <> 0%Z)
  | VFloat f => Some (f <> S754_zero false /\ f <> S754_zero true)
  | VString s => Some (s <> [])
  | VNone => Some False
  | VColor r g b a => Some (~ (r = 0 /\ g = 0 /\ b = 0 /\ a = 0)%N)
  | _ => None
  end.

(** ** Types and operators (C77, C82) *)
Inductive ty := TNone | TBool | TInt | TFloat | TRange | TColor | TStr | TSpecial | TList | TLoop | TPair | TFn.
Definition type_of (v : val) : ty :=
  match v with
  | VNone => TNone | VBool _ => TBool | VInt _ => TInt | VFloat _ => TFloat | VRange _ _ => TRange
  | VColor _ _ _ _ => TColor | VString _ => TStr | VSpecial _ _ => TSpecial | VArray _ _ _ => TList
  | VLoopCtx _ => TLoop | VPair _ _ => TPair | VFn _ => TFn
  end.
(** The operands an operator is defined for. *)
Definition defined_for (o : op) (a b : ty) : bool :=
  let numbers := match a, b with (TInt | TFloat), (TInt | TFloat) => true | _, _ => false end in
  let colors := match a, b with TColor, TColor => true | _, _ => false end in
  let strings := match a, b with TStr, TStr => true | _, _ => false end in
  match o with
  | OAdd => numbers || colors || strings
  | OSub => numbers || colors
  | OMul => numbers || colors || match a, b with TStr, TInt => true | _, _ => false end
  | ODiv => numbers || colors || strings
  | OMod | OPow | OLt | OGt | OLte | OGte => numbers
  | OEq | ONeq => true
  | OAnd | OOr => match a, b with TBool, TBool => true | _, _ => false end
  | OJoin => colors || strings ||
      match a, b with
      | TStr, (TInt | TFloat | TBool | TNone) | (TInt | TFloat | TBool | TNone), TStr => true
      | TList, TList => true
      | _, _ => false
      end
  | OBitwiseAnd | OBitwiseOr | OBitwiseXor | OBitwiseLeftShift | OBitwiseRightShift =>
      match a, b with TInt, TInt => true | _, _ => false end
  | ONot | ONeg | OBitwiseNot => false
  end.
Definition defined_for1 (o : op) (a : ty) : bool :=
  match o with
  | ONot => match a with TBool => true | _ => false end
  | ONeg => match a with TInt | TFloat => true | _ => false end
  | OBitwiseNot => match a with TInt => true | _ => false end
  | _ => false
  end.
(** As they are written in programs. *)
Definition sign (o : op) : rstring :=
  match o with
  | OAdd => str "+" | OSub | ONeg => str "-" | OMul => str "*" | ODiv => str "/" | OMod => str "%"
  | OPow => str "**" | OEq => str "==" | ONeq => str "!=" | OLt => str "<" | OGt => str ">"
  | OLte => str "<=" | OGte => str ">=" | OAnd => str "&&" | OOr => str "||" | ONot => str "!"
  | OJoin => str ".." | OBitwiseAnd => str "&" | OBitwiseOr => str "|" | OBitwiseXor => str "^"
  | OBitwiseNot => str "~" | OBitwiseLeftShift => str "<<" | OBitwiseRightShift => str ">>"
  end.
Definition divides (o : op) : bool := match o with ODiv | OMod => true | _ => false end.
Definition zero_number (v : val) : Prop := v = VInt 0 \/ v = VFloat (S754_zero false) \/ v = VFloat (S754_zero true).
Definition numeric (o : op) : bool :=
  match o with OAdd | OSub | OMul | ODiv | OMod | OPow | OLt | OGt | OLte | OGte => true | _ => false end.

(** ** Numbers (C79) *)

(** A binary64 number: 53 bits, exponents from -1074 to 971. *)
Definition binary64 (f : f64) : Prop := valid_binary fprec femax f = true.
(** The rational a finite float stands for. *)
Definition rational (f : f64) : option Q :=
  match f with
  | S754_zero _ => Some 0%Q
  | S754_finite s m e =>
      let n := if s then Z.neg m else Z.pos m in
      Some (if (0 <=? e)%Z then inject_Z (n * 2 ^ e) else n # Z.to_pos (2 ^ (- e)))
  | _ => None
  end.
(** The nearest integer, halves away from zero. *)
Definition nearest (q : Q) (n : Z) : Prop :=
  (if Qlt_le_dec q 0 then n = - Qfloor (- q + (1 # 2)) else n = Qfloor (q + (1 # 2)))%Z.
(** Limited to 64 bits. *)
Definition limited (z : Z) : Z := Z.max (- 2 ^ 63) (Z.min (2 ^ 63 - 1) z).

(** ** Numerals with a sign (C80) *)
Definition digit_sign (radix : Z) (c : N) (d : Z) : Prop :=
  (0 <= d < radix)%Z /\
  (c = nth (Z.to_nat d) (str "0123456789abcdefghijklmnopqrstuvwxyz") 0%N \/
   c = nth (Z.to_nat d) (str "0123456789ABCDEFGHIJKLMNOPQRSTUVWXYZ") 0%N).
Definition signed_numeral (radix : Z) (text : rstring) (n : Z) : Prop :=
  exists sgn cs ds, text = sgn ++ cs /\ cs <> [] /\ Forall2 (digit_sign radix) cs ds /\
    ((sgn = [] \/ sgn = str "+") /\ n = digits_value radix ds \/
     sgn = str "-" /\ n = - digits_value radix ds)%Z.

(** ** Types by name (C82) *)
Definition type_name (v : value) : rstring :=
  match v with
  | VNone => str "none" | VBool _ => str "bool" | VInt _ => str "int" | VFloat _ => str "float"
  | VRange _ _ => str "range" | VColor _ _ _ _ => str "color" | VString _ => str "str"
  | VSpecial name _ => name | VArray _ _ _ => str "list" | VLoopCtx _ => str "loop_ctx"
  | VPair _ _ => str "pair" | VFn (MFun _) => str "function" | VFn (MClo _ _) => str "closure"
  end.
End Values.

(** ** Words (C85) *)

(** [s] consists of the words [ws] with white space (of [p]) around and between them. *)
Inductive worded (p : N -> bool) : rstring -> list rstring -> Prop :=
| wo_end gap : Forall (fun c => p c = true) gap -> worded p gap []
| wo_last gap w : Forall (fun c => p c = true) gap -> w <> [] -> Forall (fun c => p c = false) w ->
    worded p (gap ++ w) [w]
| wo_word gap w c s ws : Forall (fun c => p c = true) gap -> w <> [] -> Forall (fun c => p c = false) w ->
    p c = true -> worded p s ws -> worded p (gap ++ w ++ c :: s) (w :: ws).

(** ** Colours (C80, C84) *)

(** Four bytes make 32 bits. *)
Definition bytes32 (r g b a : N) : Z := (Z.of_N r * 2 ^ 24 + Z.of_N g * 2 ^ 16 + Z.of_N b * 2 ^ 8 + Z.of_N a)%Z.
(** Two hexadecimal digits. *)
Definition hex_byte (c d : N) (n : N) : Prop :=
  exists x y, digit_sign 16 c x /\ digit_sign 16 d y /\ Z.of_N n = (16 * x + y)%Z.
(** The colours of the wheel for whole degrees: between two corners one channel rises or
    falls in proportion, to the nearest of 255 steps. *)
Definition step_near (k : Z) (n : N) : Prop := (Z.abs (120 * Z.of_N n - 510 * k) <= 60)%Z.
Definition wheel (h : Z) (r g b : N) : Prop :=
  let k := (h mod 60)%Z in
  match (h / 60)%Z with
  | 0%Z => r = 255%N /\ step_near k g /\ b = 0%N
  | 1%Z => step_near (60 - k) r /\ g = 255%N /\ b = 0%N
  | 2%Z => r = 0%N /\ g = 255%N /\ step_near k b
  | 3%Z => r = 0%N /\ step_near (60 - k) g /\ b = 255%N
  | 4%Z => step_near k r /\ g = 0%N /\ b = 255%N
  | _ => r = 255%N /\ g = 0%N /\ step_near (60 - k) b
  end.

(** A number, as a float. *)
Definition num_of {Fn} (v : gvalue Fn) (x : f64) : Prop := v = VFloat x \/ exists i, v = VInt i /\ x = f_of_Z i.
(** The first character in its upper-case form. *)
Definition capital (upper : N -> rstring) (s t : rstring) : Prop :=
  match s with [] => t = [] | c :: s' => t = upper c ++ s' end.
(** The float nearest to a decimal constant, within half a unit of the last of 53 bits. *)
Definition near_q (f : f64) (q : Q) : Prop :=
  match rational f with
  | Some p => (Qle (q - (1 # 2 ^ 54)) p /\ Qle p (q + (1 # 2 ^ 54)))%Q
  | None => False
  end.
Definition one_half : f64 := fdiv (f_of_Z 1) (f_of_Z 2).
