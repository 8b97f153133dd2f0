(** interpreter/src/arith.rs: the operators.  Every operation is generic in the type
    of callables; [fi] gives their type names. *)
From Verif Require Import Base Float NumText Vecc Value Ast.

(** str::replace of the standard library: leftmost, non-overlapping matches.
    With an empty pattern the replacement is put at every character boundary. *)
Fixpoint is_prefix (p s : rstring) : bool :=
  match p, s with
  | [], _ => true
  | x :: p', y :: s' => (x =? y)%N && is_prefix p' s'
  | _, [] => false
  end.

Fixpoint replace_go (pat to s : rstring) (skip : nat) : rstring :=
  match s with
  | [] => []
  | c :: t => match skip with
              | S k => replace_go pat to t k
              | O => if is_prefix pat s then to ++ replace_go pat to t (length pat - 1)
                     else c :: replace_go pat to t 0
              end
  end.

Definition str_replace (s pat to : rstring) : rstring :=
  match pat with
  | [] => to ++ flat_map (fun c => c :: to) s
  | _ => replace_go pat to s 0
  end.

(** str::repeat. *)
Definition str_repeat (s : rstring) (n : N) : rstring :=
  match s with [] => [] | _ => concat (repeat s (N.to_nat n)) end.

(** u8 saturating arithmetic; [saturating_div] panics on zero. *)
Definition u8_sat_add (a b : N) : N := N.min 255 (a + b).
Definition u8_sat_sub (a b : N) : N := (a - b)%N.
Definition u8_sat_mul (a b : N) : N := N.min 255 (a * b).
Definition u8_sat_div (a b : N) : res N := if (b =? 0)%N then Panic else Ok (a / b)%N.

(** arith.rs:439  [(lhs + rhs) / 2] on u8: the sum overflows past 255. *)
Definition u8_avg (m : mode) (a b : N) : res N :=
  if (255 <? a + b)%N
  then match m with Debug => Panic | Release => Ok (((a + b) mod 256) / 2)%N end
  else Ok ((a + b) / 2)%N.

Section Arith.
Context {Fn : Type} (m : mode) (o : oracle) (fi : fn_info Fn) (feq : Fn -> Fn -> res bool).
Notation val := (gvalue Fn).

Definition unsup2 (op : rstring) (a b : val) : res val :=
  Err (EUnsupportedBinary op (ntype fi a) (ntype fi b)).

(** arith.rs:11-20 *)
Definition v_not (v : val) : res val :=
  match v with
  | VBool b => Ok (VBool (negb b))
  | _ => Err (EUnsupportedUnary (str "!") (ntype fi v))
  end.

(** arith.rs:23-34 *)
Definition v_negate (v : val) : res val :=
  match v with
  | VInt i => let! z := ov64 m (- i) in Ok (VInt z)
  | VFloat f => Ok (VFloat (fneg f))
  | _ => Err (EUnsupportedUnary (str "-") (ntype fi v))
  end.

(** The size check and concatenation shared by [+] and [..] (arith.rs:73-77 and the
    arms of 346-424). *)
Definition str_concat (smax : N) (l r : rstring) : res val :=
  if (smax <? slen l + slen r)%N then Err EStringTooLarge else Ok (VString (l ++ r)).

(** arith.rs:70-96 *)
Definition v_add (smax : N) (a b : val) : res val :=
  match a, b with
  | VString l, VString r => str_concat smax l r
  | VInt l, VInt r => let! z := ov64 m (l + r) in Ok (VInt z)
  | VFloat l, VFloat r => Ok (VFloat (fadd l r))
  | VInt l, VFloat r => Ok (VFloat (fadd (f_of_Z l) r))
  | VFloat l, VInt r => Ok (VFloat (fadd l (f_of_Z r)))
  | VColor r g b a, VColor r' g' b' a' =>
      Ok (VColor (u8_sat_add r r') (u8_sat_add g g') (u8_sat_add b b') (u8_sat_add a a'))
  | _, _ => unsup2 (str "+") a b
  end.

(** arith.rs:99-118 *)
Definition v_subtract (a b : val) : res val :=
  match a, b with
  | VInt l, VInt r => let! z := ov64 m (l - r) in Ok (VInt z)
  | VFloat l, VFloat r => Ok (VFloat (fsub l r))
  | VInt l, VFloat r => Ok (VFloat (fsub (f_of_Z l) r))
  | VFloat l, VInt r => Ok (VFloat (fsub l (f_of_Z r)))
  | VColor r g b a, VColor r' g' b' a' =>
      Ok (VColor (u8_sat_sub r r') (u8_sat_sub g g') (u8_sat_sub b b') (u8_sat_sub a a'))
  | _, _ => unsup2 (str "-") a b
  end.

(** arith.rs:121-160.  [lhs.len() * rhs] is a usize product: it aborts on overflow
    in a checked build and wraps in a release build; [str::repeat] itself aborts
    ("capacity overflow") when the real product does not fit. *)
Definition v_multiply (smax : N) (a b : val) : res val :=
  match a, b with
  | VString l, VInt r =>
      if (r <? 0)%Z then Err (EUnsupportedBinary (str "*") (ntype fi a) (str "-int"))
      else
        let p := (slen l * Z.to_N r)%N in
        match m with
        | Debug => if (2 ^ 64 <=? p)%N then Panic
                   else if (smax <? p)%N then Err EStringTooLarge
                   else Ok (VString (str_repeat l (Z.to_N r)))
        | Release => if (smax <? usize_wrap p)%N then Err EStringTooLarge
                     else if (2 ^ 64 <=? p)%N then Panic
                     else Ok (VString (str_repeat l (Z.to_N r)))
        end
  | VInt l, VInt r => let! z := ov64 m (l * r) in Ok (VInt z)
  | VFloat l, VFloat r => Ok (VFloat (fmul l r))
  | VInt l, VFloat r => Ok (VFloat (fmul (f_of_Z l) r))
  | VFloat l, VInt r => Ok (VFloat (fmul l (f_of_Z r)))
  | VColor r g b a, VColor r' g' b' a' =>
      Ok (VColor (u8_sat_mul r r') (u8_sat_mul g g') (u8_sat_mul b b') (u8_sat_mul a a'))
  | _, _ => unsup2 (str "*") a b
  end.

(** arith.rs:164, 192  [other == Int(0) || other == Float(0.0)] *)
Definition is_zero (v : val) : bool :=
  match v with VInt z => (z =? 0)%Z | VFloat f => feqb f fzero | _ => false end.

(** i64 division and remainder: [i64::MIN / -1] and [i64::MIN % -1] abort in every
    build. *)
Definition i64_div (l r : Z) : res val :=
  if ((l =? i64_min) && (r =? -1))%Z then Panic else Ok (VInt (Z.quot l r)).
Definition i64_rem (l r : Z) : res val :=
  if ((l =? i64_min) && (r =? -1))%Z then Panic else Ok (VInt (Z.rem l r)).

(** arith.rs:163-188 *)
Definition v_divide (a b : val) : res val :=
  if is_zero b then Err EZeroDivision else
  match a, b with
  | VString l, VString r => Ok (VString (str_replace l r []))
  | VInt l, VInt r => i64_div l r
  | VFloat l, VFloat r => Ok (VFloat (fdiv l r))
  | VInt l, VFloat r => Ok (VFloat (fdiv (f_of_Z l) r))
  | VFloat l, VInt r => Ok (VFloat (fdiv l (f_of_Z r)))
  | VColor r g b a, VColor r' g' b' a' =>
      let! x := u8_sat_div r r' in
      let! y := u8_sat_div g g' in
      let! z := u8_sat_div b b' in
      let! w := u8_sat_div a a' in
      Ok (VColor x y z w)
  | _, _ => unsup2 (str "/") a b
  end.

(** arith.rs:191-207 *)
Definition v_modulo (a b : val) : res val :=
  if is_zero b then Err EZeroDivision else
  match a, b with
  | VInt l, VInt r => i64_rem l r
  | VFloat l, VFloat r => Ok (VFloat (fmod l r))
  | VInt l, VFloat r => Ok (VFloat (fmod (f_of_Z l) r))
  | VFloat l, VInt r => Ok (VFloat (fmod l (f_of_Z r)))
  | _, _ => unsup2 (str "%") a b
  end.

(** arith.rs:210-223.  [i64::pow] overflows exactly when the mathematical power is
    out of range; the exponent is cast with [as u32]. *)
Definition v_power (a b : val) : res val :=
  match a, b with
  | VInt l, VInt r => let! z := ov64 m (l ^ Z.of_N (to_u32 r)) in Ok (VInt z)
  | VFloat l, VFloat r => Ok (VFloat (o_powf o l r))
  | VInt l, VFloat r => Ok (VFloat (o_powf o (f_of_Z l) r))
  | VFloat l, VInt r => Ok (VFloat (o_powf o l (f_of_Z r)))
  | _, _ => unsup2 (str "**") a b
  end.

(** arith.rs:226-236 *)
Definition v_and (a b : val) : res val :=
  match a, b with
  | VBool l, VBool r => Ok (VBool (l && r))
  | _, _ => unsup2 (str "&&") a b
  end.

(** arith.rs:239-249 *)
Definition v_or (a b : val) : res val :=
  match a, b with
  | VBool l, VBool r => Ok (VBool (l || r))
  | _, _ => unsup2 (str "||") a b
  end.

(** arith.rs:252-259 *)
Definition v_equal (a b : val) : res val := let! x := geqb feq a b in Ok (VBool x).
Definition v_not_equal (a b : val) : res val := let! x := geqb feq a b in Ok (VBool (negb x)).

(** The four orderings share their shape (arith.rs:262-323). *)
Definition v_cmp (op : rstring) (zc : Z -> Z -> bool) (fc : f64 -> f64 -> bool) (a b : val) : res val :=
  match a, b with
  | VInt l, VInt r => Ok (VBool (zc l r))
  | VFloat l, VFloat r => Ok (VBool (fc l r))
  | VInt l, VFloat r => Ok (VBool (fc (f_of_Z l) r))
  | VFloat l, VInt r => Ok (VBool (fc l (f_of_Z r)))
  | _, _ => unsup2 op a b
  end.

(** arith.rs:262-275 *)
Definition v_gt := v_cmp (str ">") Z.gtb (fun x y => fltb y x).
(** arith.rs:278-291 *)
Definition v_ge := v_cmp (str ">=") Z.geb (fun x y => fleb y x).
(** arith.rs:294-307 *)
Definition v_lt := v_cmp (str "<") Z.ltb fltb.
(** arith.rs:310-323 *)
Definition v_le := v_cmp (str "<=") Z.leb fleb.

(** arith.rs:326-336 *)
Definition is_truthy (v : val) : res bool :=
  match v with
  | VBool b => Ok b
  | VInt i => Ok (negb (i =? 0)%Z)
  | VFloat f => Ok (negb (feqb f fzero))
  | VString s => Ok (match s with [] => false | _ => true end)
  | VNone => Ok false
  | VColor r g b a => Ok (negb ((r =? 0) && (g =? 0) && (b =? 0) && (a =? 0))%N)
  | _ => Err (EExpected (str "truthy") (ntype fi v))
  end.

(** arith.rs:339-452 *)
Definition v_join (smax amax : N) (a b : val) : res val :=
  match a, b with
  | VString l, VString r => str_concat smax l r
  | VString l, VInt r => str_concat smax l (int_text r)
  | VString l, VFloat r => str_concat smax l (o_f64_text o r)
  | VString l, VBool r => str_concat smax l (bool_text r)
  | VString l, VNone => str_concat smax l (str "none")
  | VInt l, VString r => str_concat smax (int_text l) r
  | VFloat l, VString r => str_concat smax (o_f64_text o l) r
  | VBool l, VString r => str_concat smax (bool_text l) r
  | VNone, VString r => str_concat smax (str "none") r
  | VArray d s mx, VArray d' s' _ =>
      if (amax <? s + s')%N then Err EArrayTooLarge
      else match vecc_extend get_size (arr_vecc d s mx) d' with
           | (v, Ok _) => Ok (of_vecc v)
           | (_, Err e) => Err e
           | (_, Panic) => Panic
           end
  | VColor r g b a, VColor r' g' b' a' =>
      let! x := u8_avg m r r' in
      let! y := u8_avg m g g' in
      let! z := u8_avg m b b' in
      let! w := u8_avg m a a' in
      Ok (VColor x y z w)
  | _, _ => unsup2 (str "..") a b
  end.

(** arith.rs:455-491 *)
Definition v_int2 (op : rstring) (f : Z -> Z -> res Z) (a b : val) : res val :=
  match a, b with
  | VInt l, VInt r => let! z := f l r in Ok (VInt z)
  | _, _ => unsup2 op a b
  end.
Definition v_bitand := v_int2 (str "&") (fun l r => Ok (Z.land l r)).
Definition v_bitor := v_int2 (str "|") (fun l r => Ok (Z.lor l r)).
Definition v_bitxor := v_int2 (str "^") (fun l r => Ok (Z.lxor l r)).

(** arith.rs:494-503 *)
Definition v_bitnot (v : val) : res val :=
  match v with
  | VInt i => Ok (VInt (Z.lnot i))
  | _ => Err (EUnsupportedUnary (str "~") (ntype fi v))
  end.

(** arith.rs:506-529.  A shift amount outside 0..64 aborts in a checked build and is
    masked to its low six bits in a release build. *)
Definition shift_amount (r : Z) : res Z :=
  if ((0 <=? r) && (r <? 64))%Z then Ok r
  else match m with Debug => Panic | Release => Ok (r mod 64)%Z end.
Definition v_shl := v_int2 (str "<<") (fun l r => let! k := shift_amount r in Ok (wrap64 (Z.shiftl l k))).
Definition v_shr := v_int2 (str ">>") (fun l r => let! k := shift_amount r in Ok (Z.shiftr l k)).

End Arith.

(** arith.rs:534-550.  [-idx] overflows for i64::MIN; [len + idx as usize] overflows
    for every negative index that passes the test (a checked build aborts, a release
    build wraps to the intended value). *)
Definition fix_index (m : mode) (idx : Z) (len : nat) : res nat :=
  let! index :=
    if (idx <? 0)%Z then
      let! neg := ov64 m (- idx) in
      if (neg >? Z.of_nat len)%Z then Err (EIndexError idx)
      else let s := (N.of_nat len + to_u64 idx)%N in
           if (2 ^ 64 <=? s)%N
           then match m with Debug => Panic | Release => Ok (usize_wrap s) end
           else Ok s
    else Ok (to_u64 idx) in
  if (N.of_nat len <=? index)%N then Err (EIndexError idx) else Ok (N.to_nat index).

(** The operator a compiled [Node::Binary] / [Node::Unary] runs: compiler lib.rs:893-917
    and 942-948 choose the opcode, vm.rs:906-1087 the operation.  [None]: the compiler
    panics ([unreachable!]). *)
Section OpTable.
Context {Fn : Type} (m : mode) (o : oracle) (fi : fn_info Fn) (feq : Fn -> Fn -> res bool)
        (smax amax : N).

Definition binary_fn (op : op) : option (gvalue Fn -> gvalue Fn -> res (gvalue Fn)) :=
  match op with
  | OAdd => Some (v_add m fi smax)
  | OSub => Some (v_subtract m fi)
  | OMul => Some (v_multiply m fi smax)
  | ODiv => Some (v_divide fi)
  | OMod => Some (v_modulo fi)
  | OPow => Some (v_power m o fi)
  | OEq => Some (v_equal feq)
  | ONeq => Some (v_not_equal feq)
  | OLt => Some (v_lt fi)
  | OGt => Some (v_gt fi)
  | OLte => Some (v_le fi)
  | OGte => Some (v_ge fi)
  | OAnd => Some (v_and fi)
  | OOr => Some (v_or fi)
  | OJoin => Some (v_join m o fi smax amax)
  | OBitwiseAnd => Some (v_bitand fi)
  | OBitwiseOr => Some (v_bitor fi)
  | OBitwiseXor => Some (v_bitxor fi)
  | OBitwiseLeftShift => Some (v_shl m fi)
  | OBitwiseRightShift => Some (v_shr m fi)
  | ONot | ONeg | OBitwiseNot => None
  end.

Definition unary_fn (op : op) : option (gvalue Fn -> res (gvalue Fn)) :=
  match op with
  | ONot => Some (v_not fi)
  | ONeg => Some (v_negate m fi)
  | OBitwiseNot => Some (v_bitnot fi)
  | _ => None
  end.
End OpTable.
