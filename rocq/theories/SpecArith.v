(** Specifications of the operators, written without the model's helpers. *)
From Verif Require Import Base Float Value Ast.

(** ** Indexing (C27) *)

(** The elements an index ranges over: items of a list, characters of a string,
    channels of a colour, both halves of a pair. *)
Definition elements {Fn} (v : gvalue Fn) : option (list (gvalue Fn)) :=
  match v with
  | VArray d _ _ => Some d
  | VString s => Some (map (fun c => VString [c]) s)
  | VColor r g b a => Some (map (fun c => VInt (Z.of_N c)) [r; g; b; a])
  | VPair a b => Some [a; b]
  | _ => None
  end.

(** [is_index l i x]: [x] is what index [i] of a sequence [l] denotes. *)
Definition is_index {A} (l : list A) (i : Z) (x : A) : Prop :=
  (0 <= i < Z.of_nat (length l))%Z /\ nth_error l (Z.to_nat i) = Some x \/
  (- Z.of_nat (length l) <= i < 0)%Z /\ nth_error l (Z.to_nat (Z.of_nat (length l) + i)) = Some x.

Definition in_bounds {A} (l : list A) (i : Z) : Prop :=
  (- Z.of_nat (length l) <= i < Z.of_nat (length l))%Z.

(** ** Integer arithmetic (C28) *)

Inductive int_op := IAdd | ISub | IMul | IDiv | IRem | IPow | IAnd | IOr | IXor | IShl | IShr.

(** The mathematical result, [None] outside the domain of the operation. *)
Definition math_int (op : int_op) (l r : Z) : option Z :=
  match op with
  | IAdd => Some (l + r)
  | ISub => Some (l - r)
  | IMul => Some (l * r)
  | IDiv => if r =? 0 then None else Some (Z.quot l r)
  | IRem => if r =? 0 then None else Some (Z.rem l r)
  | IPow => if (0 <=? r) && (r <? 2 ^ 32) then Some (l ^ r) else None
  | IAnd => Some (Z.land l r)
  | IOr => Some (Z.lor l r)
  | IXor => Some (Z.lxor l r)
  | IShl => if (0 <=? r) && (r <? 64) then Some (l * 2 ^ r) else None
  | IShr => if (0 <=? r) && (r <? 64) then Some (l / 2 ^ r) else None
  end%Z.

(** [z] modulo 2^64, as a signed 64-bit integer. *)
Definition signed64 (z w : Z) : Prop :=
  (- 2 ^ 63 <= w < 2 ^ 63)%Z /\ exists k, w = (z + k * 2 ^ 64)%Z.

Definition fits64 (z : Z) : Prop := (- 2 ^ 63 <= z < 2 ^ 63)%Z.

(** ** Values *)

(** Values as the interpreter builds them: integers fit i64, range ends fit i32,
    channels fit u8, the recorded size of an array is that of its items. *)
Inductive value_wf {Fn} : gvalue Fn -> Prop :=
| wf_none : value_wf VNone
| wf_bool b : value_wf (VBool b)
| wf_int z : fits64 z -> value_wf (VInt z)
| wf_float f : value_wf (VFloat f)
| wf_range a b : (- 2 ^ 31 <= a < 2 ^ 31)%Z -> (- 2 ^ 31 <= b < 2 ^ 31)%Z -> value_wf (VRange a b)
| wf_color r g b a : (r < 256)%N -> (g < 256)%N -> (b < 256)%N -> (a < 256)%N ->
                     value_wf (VColor r g b a)
| wf_string s : value_wf (VString s)
| wf_special n i : value_wf (VSpecial n i)
| wf_array d s mx : Forall value_wf d ->
                    s = fold_right (fun x n => (get_size x + n)%N) 0%N d ->
                    value_wf (VArray d s mx)
| wf_loop i : value_wf (VLoopCtx i)
| wf_pair a b : value_wf a -> value_wf b -> value_wf (VPair a b)
| wf_fn f : value_wf (VFn f).

(** No NaN anywhere inside. *)
Inductive nan_free {Fn} : gvalue Fn -> Prop :=
| nf_none : nan_free VNone
| nf_bool b : nan_free (VBool b)
| nf_int z : nan_free (VInt z)
| nf_float f : f <> S754_nan -> nan_free (VFloat f)
| nf_range a b : nan_free (VRange a b)
| nf_color r g b a : nan_free (VColor r g b a)
| nf_string s : nan_free (VString s)
| nf_special n i : nan_free (VSpecial n i)
| nf_array d s mx : Forall nan_free d -> nan_free (VArray d s mx)
| nf_loop i : nan_free (VLoopCtx i)
| nf_pair a b : nan_free a -> nan_free b -> nan_free (VPair a b)
| nf_fn f : nan_free (VFn f).

(** ** Comparisons (C30) *)
Definition is_number {Fn} (v : gvalue Fn) : bool :=
  match v with VInt _ | VFloat _ => true | _ => false end.

(** ** Colours (C33) *)
Definition clamp255 (z : Z) : Z := Z.max 0 (Z.min 255 z).

Definition is_color {Fn} (v : gvalue Fn) : Prop := exists r g b a, v = VColor r g b a.

(** [chan4 f x y z]: [z] is the colour whose channels are [f] of those of [x], [y]. *)
Definition chan4 {Fn} (f : Z -> Z -> Z) (x y z : gvalue Fn) : Prop :=
  exists r g b a r' g' b' a' r2 g2 b2 a2,
    x = VColor r g b a /\ y = VColor r' g' b' a' /\ z = VColor r2 g2 b2 a2 /\
    Z.of_N r2 = f (Z.of_N r) (Z.of_N r') /\ Z.of_N g2 = f (Z.of_N g) (Z.of_N g') /\
    Z.of_N b2 = f (Z.of_N b) (Z.of_N b') /\ Z.of_N a2 = f (Z.of_N a) (Z.of_N a').

(** ** Strings (C32) *)

(** Text of the values that [..] converts. *)
Definition join_text {Fn} (ftext : f64 -> rstring) (itext : Z -> rstring) (v : gvalue Fn) : option rstring :=
  match v with
  | VString s => Some s
  | VInt i => Some (itext i)
  | VFloat f => Some (ftext f)
  | VBool true => Some (str "true")
  | VBool false => Some (str "false")
  | VNone => Some (str "none")
  | _ => None
  end.

Definition is_string {Fn} (v : gvalue Fn) : bool := match v with VString _ => true | _ => false end.

(** [n] copies of [s]. *)
Fixpoint copies (s : rstring) (n : nat) : rstring :=
  match n with O => [] | S k => s ++ copies s k end.

(** ** Crashes (C29): the operand pairs on which an operator aborts the process. *)
Definition crashes {Fn} (m : mode) (smax : N) (op : op) (a b : gvalue Fn) : Prop :=
  match op, a, b with
  | OAdd, VInt l, VInt r => m = Debug /\ ~ fits64 (l + r)
  | OSub, VInt l, VInt r => m = Debug /\ ~ fits64 (l - r)
  | OMul, VInt l, VInt r => m = Debug /\ ~ fits64 (l * r)
  | OPow, VInt l, VInt r => m = Debug /\ ~ fits64 (l ^ (r mod 2 ^ 32))
  | ODiv, VInt l, VInt r | OMod, VInt l, VInt r => l = (- 2 ^ 63)%Z /\ r = (-1)%Z
  | OBitwiseLeftShift, VInt _, VInt r | OBitwiseRightShift, VInt _, VInt r =>
      m = Debug /\ ~ (0 <= r < 64)%Z
  | OMul, VString s, VInt n =>
      let bytes := (slen s * Z.to_N n)%N in
      (0 <= n)%Z /\ (2 ^ 64 <= bytes)%N /\ (m = Debug \/ (bytes mod 2 ^ 64 <= smax)%N)
  | ODiv, VColor _ _ _ _, VColor r g b a => r = 0%N \/ g = 0%N \/ b = 0%N \/ a = 0%N
  | OJoin, VColor r g b a, VColor r' g' b' a' =>
      m = Debug /\ (255 < r + r' \/ 255 < g + g' \/ 255 < b + b' \/ 255 < a + a')%N
  | _, _, _ => False
  end.

(** ** Iteration and ranges (C11, C12) *)

(** [start, start + 1, ...], [n] of them. *)
Fixpoint zseq (start : Z) (n : nat) : list Z :=
  match n with O => [] | S k => start :: zseq (start + 1) k end.

(** What a [for] over a value visits, in order. *)
Definition visits {Fn} (v : gvalue Fn) : option (list (gvalue Fn)) :=
  match v with
  | VArray d _ _ => Some d
  | VString s => Some (map (fun c => VString [c]) s)
  | VColor r g b a => Some (map (fun c => VInt (Z.of_N c)) [r; g; b; a])
  | VRange a b => Some (map VInt (zseq a (Z.to_nat (b - a))))
  | _ => None
  end.

(** ** Destructuring (C26) *)
Definition parts {Fn} (v : gvalue Fn) : option (list (gvalue Fn)) :=
  match v with
  | VArray d _ _ => Some d
  | VColor r g b a => Some (map (fun c => VInt (Z.of_N c)) [r; g; b; a])
  | VPair a b => Some [a; b]
  | _ => None
  end.

(** ** Text of numbers (C49) *)

(** [digits_of radix ds n]: [ds] are the digits of [n], most significant first,
    without a leading zero. *)
Fixpoint digits_value (radix : Z) (ds : list Z) : Z :=
  match ds with
  | [] => 0
  | d :: t => (d * radix ^ Z.of_nat (length t) + digits_value radix t)%Z
  end.
Definition digits_of (radix : Z) (ds : list Z) (n : Z) : Prop :=
  Forall (fun d => 0 <= d < radix)%Z ds /\ digits_value radix ds = n /\
  match ds with [] => False | [_] => True | d :: _ => d <> 0%Z end.

(** 0-9 then a-z. *)
Definition digit_text (d : Z) : N := nth (Z.to_nat d) (str "0123456789abcdefghijklmnopqrstuvwxyz") 0%N.
