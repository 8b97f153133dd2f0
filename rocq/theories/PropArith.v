(** Property theorems about operators, indexing, ranges and destructuring:
    C07, C08, C11, C12, C26-C33. *)
From Verif Require Import Base Float NumText Vecc Value Ast Arith VmOps SpecArith
  ProofArith ProofArith2 ProofArith3 ProofArith4 ProofArithEx.

(** ** C07  String operators respect the string size limit. *)
Theorem C07_string_size :
  forall (Fn : Type) m (fi : fn_info Fn) o feq smax amax op f a b s,
    In op [OAdd; OMul; OJoin] ->
    binary_fn m o fi feq smax amax op = Some f ->
    f a b = Ok (VString s) -> (slen s <= smax)%N.
Proof. intros *; exact (string_size m fi o feq smax amax op f a b s). Qed.
Print Assumptions C07_string_size.

(** A larger result is refused; for [*] as long as its size in bytes is below 2^64. *)
Theorem C07_too_large_reported_partial :
  forall (Fn : Type) m (fi : fn_info Fn) o smax amax l r n,
    ((smax < slen l + slen r)%N ->
       v_add m fi smax (VString l) (VString r) = Err EStringTooLarge /\
       v_join m o fi smax amax (VString l) (VString r) = Err EStringTooLarge) /\
    ((0 <= n)%Z -> (smax < slen l * Z.to_N n < 2 ^ 64)%N ->
       v_multiply m fi smax (VString l) (VInt n) = Err EStringTooLarge).
Proof. exact @strings_too_large. Qed.
Print Assumptions C07_too_large_reported_partial.

(** Past 2^64 bytes the size check itself overflows and the process aborts, in both
    builds. *)
Theorem C07_too_large_reported_refuted :
  exists s n, (0 <= n < 2 ^ 63)%Z /\ (100000 < slen s * Z.to_N n)%N /\
    forall m (Fn : Type) (fi : fn_info Fn), v_multiply m fi 100000 (VString s) (VInt n) = Panic.
Proof. exact strings_wrap. Qed.
Print Assumptions C07_too_large_reported_refuted.

Example C07_example :
  v_add Release mfi 3 (VString (str "ab")) (VString (str "c")) = Ok (VString (str "abc")) /\
  v_add Release mfi 2 (VString (str "ab")) (VString (str "c")) = Err EStringTooLarge /\
  v_multiply Release mfi 9 (VString (str "ab")) (VInt 4) = Ok (VString (str "abababab")).
Proof. vm_compute; auto. Qed.

(** ** C08  Arrays built by an array expression or by [..] respect the limit. *)
Theorem C08_array_expression :
  forall (Fn : Type) amax (items : list (gvalue Fn)),
    let total := fold_right (fun x n => (get_size x + n)%N) 0%N items in
    ((total <= amax)%N -> v_array amax items = Ok (VArray items total amax)) /\
    ((amax < total)%N -> v_array amax items = Err EArrayTooLarge).
Proof. exact @array_expression. Qed.
Print Assumptions C08_array_expression.

Theorem C08_join_size :
  forall (Fn : Type) m (fi : fn_info Fn) o smax amax a b d s mx,
    value_wf a -> value_wf b ->
    v_join m o fi smax amax a b = Ok (VArray d s mx) ->
    s = fold_right (fun x n => (get_size x + n)%N) 0%N d /\ (s <= amax)%N.
Proof. exact @join_array_size. Qed.
Print Assumptions C08_join_size.

Example C08_example :
  v_array 40 [VInt 1; VString (str "abc")] = Ok (VArray [VInt 1; VString (str "abc")] 19 40 : value) /\
  v_array 18 [VInt 1; VString (str "abc")] = (Err EArrayTooLarge : res value).
Proof. vm_compute; auto. Qed.

(** ** C11  [for] visits every element once, in order: the element delivered at
    position [i] is the [i]-th one, and the iteration ends after the last. *)
Theorem C11_iteration_partial :
  forall (Fn : Type) (fi : fn_info Fn) v l i,
    value_wf v -> visits v = Some l -> (N.to_nat i <= length l)%nat ->
    v_iter Release fi i v = Ok (nth_error l (N.to_nat i)) /\
    ((Z.of_N i < 2 ^ 31)%Z -> v_iter Debug fi i v = Ok (nth_error l (N.to_nat i))).
Proof. exact @iteration. Qed.
Print Assumptions C11_iteration_partial.

Theorem C11_not_iterable :
  forall (Fn : Type) (fi : fn_info Fn) m i v,
    visits v = None -> v_iter m fi i v = Err (ENotIterable (ntype fi v)).
Proof. exact @not_iterable. Qed.
Print Assumptions C11_not_iterable.

Example C11_example :
  @visits mfn (VRange (-1) 2) = Some [VInt (-1); VInt 0; VInt 1] /\
  map (fun i => v_iter Release mfi i (VRange (-1) 2)) [0; 1; 2; 3]%N =
    [Ok (Some (VInt (-1))); Ok (Some (VInt 0)); Ok (Some (VInt 1)); Ok None].
Proof. vm_compute; auto. Qed.

(** ** C12  A range covers the integers between its ends, for ends that fit 32 bits. *)
Theorem C12_range_partial :
  forall (Fn : Type) (fi : fn_info Fn) a b,
    (- 2 ^ 31 <= a < 2 ^ 31)%Z -> (- 2 ^ 31 <= b < 2 ^ 31)%Z ->
    exists r, v_range fi (VInt a) (VInt b) = Ok r /\ value_wf r /\
      visits r = Some (map VInt (zseq a (Z.to_nat (b - a)))).
Proof. exact @range_small. Qed.
Print Assumptions C12_range_partial.

(** Ends outside 32 bits are silently truncated: [0 : 2147483648] is empty. *)
Theorem C12_range_refuted :
  exists a b : Z, (a < b < 2 ^ 63)%Z /\
    forall (Fn : Type) (fi : fn_info Fn), exists r,
      v_range fi (VInt a) (VInt b) = Ok r /\ visits r = Some [].
Proof. exact range_large. Qed.
Print Assumptions C12_range_refuted.

Example C12_example :
  v_range mfi (VInt 3) (VInt 5) = Ok (VRange 3 5) /\
  visits (VRange 3 5 : value) = Some [VInt 3; VInt 4].
Proof. vm_compute; auto. Qed.

(** ** C26  Destructuring binds the right parts.  For arrays and pairs exactly as many
    names as parts are needed. *)
Theorem C26_destructure_partial :
  forall (Fn : Type) (fi : fn_info Fn) n (v : gvalue Fn),
    (forall r g b a, v <> VColor r g b a) ->
    v_unpack fi n v =
      match parts v with
      | Some l => if (N.of_nat (length l) =? n)%N then Ok l
                  else Err (EInsufficientValues (N.of_nat (length l)) n)
      | None => Err (EUnpackable (ntype fi v))
      end.
Proof. exact @unpack_spec. Qed.
Print Assumptions C26_destructure_partial.

(** A colour yields its first channels for one to four names. *)
Theorem C26_colour_partial :
  forall (Fn : Type) (fi : fn_info Fn) n r g b a l,
    parts (VColor r g b a) = Some l -> (1 <= n <= 4)%N ->
    v_unpack fi n (VColor r g b a) = Ok (firstn (N.to_nat n) l).
Proof. exact @unpack_color_prefix. Qed.
Print Assumptions C26_colour_partial.

(** With five or more names it aborts the process. *)
Theorem C26_colour_refuted :
  forall (Fn : Type) (fi : fn_info Fn) n r g b a,
    (4 < n)%N -> v_unpack fi n (VColor r g b a) = Panic.
Proof. exact @unpack_color_panic. Qed.
Print Assumptions C26_colour_refuted.

Example C26_example :
  v_unpack mfi 2 (VPair (VInt 1) (VInt 2)) = Ok [VInt 1; VInt 2] /\
  v_unpack mfi 3 (VPair (VInt 1) (VInt 2)) = Err (EInsufficientValues 2 3) /\
  v_unpack mfi 3 (VColor 1 2 3 4) = Ok [VInt 1; VInt 2; VInt 3].
Proof. vm_compute; auto. Qed.

(** ** C27  Indexing accepts exactly the indices -len..len-1 (release build). *)
Theorem C27_index :
  forall (Fn : Type) (fi : fn_info Fn) i (v : gvalue Fn) l,
    fits64 i -> elements v = Some l -> (Z.of_nat (length l) < 2 ^ 63)%Z ->
    (in_bounds l i /\ exists x, is_index l i x /\ v_index Release fi (VInt i) v = Ok x) \/
    (~ in_bounds l i /\ v_index Release fi (VInt i) v = Err (EIndexError i)).
Proof. exact @index_release. Qed.
Print Assumptions C27_index.

(** The checked build agrees on non-negative indices and on negative ones out of
    bounds... *)
Theorem C27_index_debug_partial :
  forall (Fn : Type) (fi : fn_info Fn) i (v : gvalue Fn) l,
    fits64 i -> elements v = Some l -> (Z.of_nat (length l) < 2 ^ 63)%Z ->
    (0 <= i \/ - 2 ^ 63 < i < - Z.of_nat (length l))%Z ->
    v_index Debug fi (VInt i) v = v_index Release fi (VInt i) v.
Proof. exact @index_debug_agrees. Qed.
Print Assumptions C27_index_debug_partial.

(** ... and aborts on every negative index that is in bounds. *)
Theorem C27_index_debug_refuted :
  forall (Fn : Type) (fi : fn_info Fn) i (v : gvalue Fn) l,
    elements v = Some l -> (Z.of_nat (length l) < 2 ^ 63)%Z ->
    in_bounds l i -> (i < 0)%Z -> v_index Debug fi (VInt i) v = Panic.
Proof. exact @index_debug_panics. Qed.
Print Assumptions C27_index_debug_refuted.

Theorem C27_not_indexable :
  forall (Fn : Type) (fi : fn_info Fn) m i (v : gvalue Fn),
    (elements v = None -> v_index m fi (VInt i) v = Err (EExpected (str "indexable") (ntype fi v))) /\
    (forall w, (forall z, w <> VInt z) -> v_index m fi w v = Err (EExpected (str "int") (ntype fi w))).
Proof. exact @index_errors. Qed.
Print Assumptions C27_not_indexable.

Example C27_example :
  let v := VString (str "abc") : value in
  v_index Release mfi (VInt 0) v = Ok (VString (str "a")) /\
  v_index Release mfi (VInt (-1)) v = Ok (VString (str "c")) /\
  v_index Release mfi (VInt 3) v = Err (EIndexError 3) /\
  v_index Release mfi (VInt (-4)) v = Err (EIndexError (-4)) /\
  v_index Debug mfi (VInt (-1)) v = Panic.
Proof. vm_compute; repeat split. Qed.

(** ** C28  Integer arithmetic is exact when the result fits. *)
Theorem C28_exact :
  forall (Fn : Type) (fi : fn_info Fn) o feq smax amax m op l r z,
    fits64 l -> fits64 r -> math_int op l r = Some z -> fits64 z ->
    ~ ((op = IDiv \/ op = IRem) /\ l = (- 2 ^ 63)%Z /\ r = (-1)%Z) ->
    exists f, binary_fn m o fi feq smax amax (ast_op op) = Some f /\ f (VInt l) (VInt r) = Ok (VInt z).
Proof. exact @int_op_exact. Qed.
Print Assumptions C28_exact.

Theorem C28_release_wraps :
  forall (Fn : Type) (fi : fn_info Fn) o feq smax amax op l r z,
    fits64 l -> fits64 r -> math_int op l r = Some z ->
    ~ ((op = IDiv \/ op = IRem) /\ l = (- 2 ^ 63)%Z /\ r = (-1)%Z) ->
    exists f w, binary_fn Release o fi feq smax amax (ast_op op) = Some f /\
                f (VInt l) (VInt r) = Ok (VInt w) /\ signed64 z w.
Proof. exact @int_op_release_wraps. Qed.
Print Assumptions C28_release_wraps.

Theorem C28_debug_aborts :
  forall (Fn : Type) (fi : fn_info Fn) o feq smax amax op l r z,
    op = IAdd \/ op = ISub \/ op = IMul \/ op = IPow ->
    math_int op l r = Some z -> ~ fits64 z ->
    exists f, binary_fn Debug o fi feq smax amax (ast_op op) = Some f /\ f (VInt l) (VInt r) = Panic.
Proof. exact @int_op_debug_aborts. Qed.
Print Assumptions C28_debug_aborts.

Theorem C28_negation :
  forall (Fn : Type) (fi : fn_info Fn) z,
    fits64 z ->
    (z <> - 2 ^ 63 -> forall m, v_negate m fi (VInt z) = Ok (VInt (- z)))%Z /\
    (z = - 2 ^ 63 -> v_negate Release fi (VInt z) = Ok (VInt z) /\ v_negate Debug fi (VInt z) = Panic)%Z /\
    (forall m, exists f, unary_fn m fi OBitwiseNot = Some f /\ f (VInt z) = Ok (VInt (- z - 1)%Z)).
Proof. exact @negation_spec. Qed.
Print Assumptions C28_negation.

(** The one exception of both builds: the remainder of -2^63 by -1 is 0, which is
    representable, yet the operation aborts; so does the division. *)
Theorem C28_min_refuted :
  forall (Fn : Type) (fi : fn_info Fn),
    math_int IRem (- 2 ^ 63) (-1) = Some 0%Z /\
    v_modulo fi (VInt (- 2 ^ 63)) (VInt (-1)) = Panic /\
    v_divide fi (VInt (- 2 ^ 63)) (VInt (-1)) = Panic.
Proof. exact @min_panics. Qed.
Print Assumptions C28_min_refuted.

Example C28_example :
  v_power Debug (mkOracle (fun _ => []) (fun _ => None) fadd (fun _ _ => fzero) (fun _ => []) (fun _ => []) (fun _ => false))
    mfi (VInt (-3)) (VInt 3) = Ok (VInt (-27)) /\
  v_modulo mfi (VInt (-7)) (VInt 2) = Ok (VInt (-1)) /\
  v_shr Debug mfi (VInt (-8)) (VInt 1) = Ok (VInt (-4)) /\
  v_add Release mfi 0 (VInt (2 ^ 63 - 1)) (VInt 1) = Ok (VInt (- 2 ^ 63)).
Proof. vm_compute; repeat split. Qed.

(** ** C29  Operators never crash the host: exactly when they do. *)
Theorem C29_crashes_partial :
  forall (Fn : Type) (fi : fn_info Fn) o feq smax amax,
    (forall f g, feq f g <> Panic) ->
    forall m op f a b,
    binary_fn m o fi feq smax amax op = Some f -> (f a b = Panic <-> crashes m smax op a b).
Proof. exact @operator_crashes. Qed.
Print Assumptions C29_crashes_partial.

Theorem C29_unary_crashes_partial :
  forall (Fn : Type) (fi : fn_info Fn) m op f a,
    unary_fn m fi op = Some f ->
    (f a = Panic <-> op = ONeg /\ m = Debug /\ exists z, a = VInt z /\ ~ fits64 (- z)).
Proof. exact @unary_crashes. Qed.
Print Assumptions C29_unary_crashes_partial.

Theorem C29_never_crash_refuted :
  forall (Fn : Type) (fi : fn_info Fn) m,
    v_divide fi (VInt (- 2 ^ 63)) (VInt (-1)) = Panic /\
    v_divide fi (VColor 1 2 3 4) (VColor 1 0 1 1) = Panic /\
    v_multiply m fi 100000 (VString (str "abcd")) (VInt (2 ^ 62)) = Panic.
Proof. exact @crash_witnesses. Qed.
Print Assumptions C29_never_crash_refuted.

Example C29_example :
  @crashes mfn Release 10 ODiv (VColor 1 2 3 4) (VColor 1 0 1 1) /\
  ~ @crashes mfn Release 10 OAdd (VInt (2 ^ 63 - 1)) (VInt 1) /\
  @crashes mfn Debug 10 OAdd (VInt (2 ^ 63 - 1)) (VInt 1).
Proof. exact crash_examples. Qed.

(** ** C30  Comparison operators agree with each other. *)
Theorem C30_integers :
  forall (Fn : Type) (fi : fn_info Fn) feq (l r : Z),
    v_lt fi (VInt l) (VInt r) = Ok (VBool (if Z_lt_dec l r then true else false)) /\
    v_le fi (VInt l) (VInt r) = Ok (VBool (if Z_le_dec l r then true else false)) /\
    v_gt fi (VInt l) (VInt r) = Ok (VBool (if Z_gt_dec l r then true else false)) /\
    v_ge fi (VInt l) (VInt r) = Ok (VBool (if Z_ge_dec l r then true else false)) /\
    v_equal feq (@VInt Fn l) (VInt r) = Ok (VBool (if Z.eq_dec l r then true else false)).
Proof. exact @int_compare. Qed.
Print Assumptions C30_integers.

Theorem C30_mirror :
  forall (Fn : Type) (fi : fn_info Fn) (a b : gvalue Fn),
    is_number a = true -> is_number b = true ->
    v_lt fi a b = v_gt fi b a /\ v_le fi a b = v_ge fi b a /\
    exists x y, v_lt fi a b = Ok (VBool x) /\ v_le fi a b = Ok (VBool y).
Proof. exact @compare_mirror. Qed.
Print Assumptions C30_mirror.

(** Equality, given that equality of callables is symmetric, reflexive and
    transitive. *)
Theorem C30_equality :
  forall (Fn : Type) (feq : Fn -> Fn -> res bool),
    (forall f g, feq f g = feq g f) -> (forall f, feq f f = Ok true) ->
    (forall f g h, feq f g = Ok true -> feq g h = Ok true -> feq f h = Ok true) ->
    (forall a b, v_equal feq a b = v_equal feq b a) /\
    (forall a b x, v_equal feq a b = Ok (VBool x) <-> v_not_equal feq a b = Ok (VBool (negb x))) /\
    (forall a, nan_free a -> v_equal feq a a = Ok (VBool true)) /\
    (forall a b c, v_equal feq a b = Ok (VBool true) -> v_equal feq b c = Ok (VBool true) ->
                   v_equal feq a c = Ok (VBool true)).
Proof. exact @equality_laws. Qed.
Print Assumptions C30_equality.

Example C30_example :
  v_lt mfi (VInt 1) (VFloat (f_of_Z 2)) = Ok (VBool true) /\
  v_equal (fun _ _ => Ok true) (VInt 1 : value) (VFloat (f_of_Z 1)) = Ok (VBool false) /\
  v_equal (fun _ _ => Ok true) (VFloat S754_nan : value) (VFloat S754_nan) = Ok (VBool false).
Proof. vm_compute; auto. Qed.

(** ** C31  Joining arrays concatenates them, when the left array has room. *)
Theorem C31_join_partial :
  forall (Fn : Type) m (fi : fn_info Fn) o smax amax d s mx d' s' mx',
    value_wf (VArray d s mx) -> value_wf (VArray d' s' mx') ->
    ((s + s' <= amax)%N -> (s + s' <= mx)%N ->
       v_join m o fi smax amax (VArray d s mx) (VArray d' s' mx') = Ok (VArray (d ++ d') (s + s') mx)) /\
    ((amax < s + s')%N ->
       v_join m o fi smax amax (VArray d s mx) (VArray d' s' mx') = Err EArrayTooLarge).
Proof. exact @array_join. Qed.
Print Assumptions C31_join_partial.

(** An array from a literal has no room: joining anything to it fails, whatever the
    limit. *)
Theorem C31_join_refuted :
  forall (Fn : Type) m (fi : fn_info Fn) o smax amax (items : list (gvalue Fn)) d s mx,
    (0 < s)%N -> value_wf (VArray d s mx) ->
    v_join m o fi smax amax (force_array items) (VArray d s mx) = Err EArrayTooLarge.
Proof. exact @literal_join. Qed.
Print Assumptions C31_join_refuted.

Example C31_example :
  v_join Release no_oracle mfi 100 100 (VArray [VInt 1] 16 100) (VArray [VInt 2] 16 100)
    = Ok (VArray [VInt 1; VInt 2] 32 100) /\
  v_join Release no_oracle mfi 100 100 (force_array [VInt 1]) (force_array [VInt 2])
    = Err EArrayTooLarge.
Proof. vm_compute; auto. Qed.

(** ** C32  Joining and repeating strings. *)
Theorem C32_join :
  forall (Fn : Type) m (fi : fn_info Fn) o smax amax (a b : gvalue Fn) ta tb,
    is_string a || is_string b = true ->
    join_text (o_f64_text o) int_text a = Some ta -> join_text (o_f64_text o) int_text b = Some tb ->
    v_join m o fi smax amax a b =
      if (slen (ta ++ tb) <=? smax)%N then Ok (VString (ta ++ tb)) else Err EStringTooLarge.
Proof. exact @string_join. Qed.
Print Assumptions C32_join.

(** The text of an integer: an optional minus and its decimal digits. *)
Theorem C32_int_text :
  forall z, exists ds, digits_of 10 ds (Z.abs z) /\
    int_text z = (if (z <? 0)%Z then str "-" else []) ++ map digit_text ds.
Proof. exact int_text_digits. Qed.
Print Assumptions C32_int_text.

Theorem C32_repeat :
  forall (Fn : Type) m (fi : fn_info Fn) smax s n,
    ((0 <= n)%Z -> (slen s * Z.to_N n < 2 ^ 64)%N ->
       v_multiply m fi smax (VString s) (VInt n) =
         (if (slen s * Z.to_N n <=? smax)%N then Ok (VString (copies s (Z.to_nat n)))
          else Err EStringTooLarge)) /\
    ((n < 0)%Z -> exists e, v_multiply m fi smax (VString s) (VInt n) = Err e).
Proof. exact @string_repeat. Qed.
Print Assumptions C32_repeat.

Example C32_example :
  v_join Release no_oracle mfi 100 100 (VString (str "a")) (VInt (-12)) = Ok (VString (str "a-12")) /\
  v_join Release no_oracle mfi 100 100 VNone (VString (str "!")) = Ok (VString (str "none!")).
Proof. vm_compute; auto. Qed.

(** ** C33  Colour operators stay in range. *)
Theorem C33_saturating :
  forall (Fn : Type) m (fi : fn_info Fn) o feq smax amax op f a b,
    In op [OAdd; OSub; OMul] -> binary_fn m o fi feq smax amax op = Some f ->
    is_color a -> is_color b -> value_wf a -> value_wf b ->
    exists c, f a b = Ok c /\ value_wf c /\
      chan4 (fun x y => clamp255 (match op with OAdd => x + y | OSub => x - y | _ => x * y end))%Z a b c.
Proof. exact @color_ops. Qed.
Print Assumptions C33_saturating.

Theorem C33_divide_partial :
  forall (Fn : Type) m (fi : fn_info Fn) o feq smax amax a b f,
    binary_fn m o fi feq smax amax ODiv = Some f ->
    is_color a -> is_color b -> value_wf a -> value_wf b ->
    (forall r g b' a', b = VColor r g b' a' -> r <> 0 /\ g <> 0 /\ b' <> 0 /\ a' <> 0)%N ->
    exists c, f a b = Ok c /\ value_wf c /\ chan4 Z.div a b c.
Proof. exact @color_div. Qed.
Print Assumptions C33_divide_partial.

Theorem C33_mean_partial :
  forall (Fn : Type) m (fi : fn_info Fn) o feq smax amax a b f,
    binary_fn m o fi feq smax amax OJoin = Some f ->
    is_color a -> is_color b ->
    (forall r g b' a' r' g' b'' a'', a = VColor r g b' a' -> b = VColor r' g' b'' a'' ->
       r + r' <= 255 /\ g + g' <= 255 /\ b' + b'' <= 255 /\ a' + a'' <= 255)%N ->
    exists c, f a b = Ok c /\ value_wf c /\ chan4 (fun x y => (x + y) / 2)%Z a b c.
Proof. exact @color_mean. Qed.
Print Assumptions C33_mean_partial.

(** The mean of two white colours is not white (release) or aborts (checked); division
    by a colour with a zero channel aborts. *)
Theorem C33_refuted :
  forall (Fn : Type) (fi : fn_info Fn) o smax amax,
    v_join Release o fi smax amax (VColor 255 255 255 255) (VColor 255 255 255 255)
      = Ok (VColor 127 127 127 127) /\
    v_join Debug o fi smax amax (VColor 255 255 255 255) (VColor 255 255 255 255) = Panic /\
    v_divide fi (VColor 1 1 1 1) (VColor 0 1 1 1) = Panic.
Proof. exact @color_refuted. Qed.
Print Assumptions C33_refuted.

Example C33_example :
  v_add Release mfi 0 (VColor 250 1 2 3) (VColor 10 1 1 1) = Ok (VColor 255 2 3 4) /\
  v_subtract Release mfi (VColor 250 1 2 3) (VColor 10 2 1 1) = Ok (VColor 240 0 1 2).
Proof. vm_compute; auto. Qed.
