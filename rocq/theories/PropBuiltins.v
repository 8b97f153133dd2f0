(** Property theorems about the standard builtins: C07, C08 (builtins), C44-C51, C54-C60. *)
From Verif Require Import Base Float NumText Vecc Value Ast Arith VmOps Args Builtins SpecArith SpecBuiltins
  ProofBuiltins ProofBuiltins2 ProofBuiltins3 ProofBuiltins4 ProofBuiltinsEx.

(** ** C44  A builtin's body runs exactly on arguments that fit its parameters, with the
    documented conversions ([accepts]); otherwise the first thing wrong is reported. *)
Theorem C44_fit :
  forall (Fn : Type) (fi : fn_info Fn) ps (body : sig ps) args r,
    matches ps body args r -> call fi ps body args = r.
Proof. exact @call_matches. Qed.
Print Assumptions C44_fit.

Theorem C44_misfit :
  forall (Fn : Type) (fi : fn_info Fn) ps (body : sig ps) args e,
    misfit fi ps args e -> call fi ps body args = Err e.
Proof. exact @call_misfit. Qed.
Print Assumptions C44_misfit.

Theorem C44_exhaustive :
  forall (Fn : Type) (fi : fn_info Fn) ps (body : sig ps) args,
    (exists r, matches ps body args r) \/ (exists e, misfit fi ps args e).
Proof. exact @call_exhaustive. Qed.
Print Assumptions C44_exhaustive.

Example C44_example :
  (forall r, matches [Req PU8; Opt PStr] (fun n s => Ok (VPair (VInt (Z.of_N n)) (VBool (match s with Some _ => true | None => false end))))
               [VInt 300 : value] r -> r = Ok (VPair (VInt 255) (VBool false))) /\
  misfit mfi [Req PU8; Opt PStr] [VBool true] (EExpected (str "u8") (str "bool")) /\
  misfit mfi [Req PU8; Opt PStr] [VInt 1; VString []; VNone] (EBuiltin (str "too many arguments, got extra none")).
Proof.
  split; [|split].
  - intros r (x & rest & (v & E & Hx) & [(E' & _ & Hr)|(E' & _)]); injection E as <- <-; [|congruence].
    cbn in Hx. subst r. do 3 f_equal. exact Hx.
  - right; left. split; [discriminate|]. exists (VBool true), []. split; [reflexivity|]. split; [|reflexivity].
    intros x Hx; exact Hx.
  - right; right. exists 1%N, [VString []; VNone]. split; [exists (VInt 1); split; reflexivity|].
    right; right. split; [discriminate|]. exists [], [VNone]. split; [exists (VString []); split; reflexivity|].
    exists VNone, []. split; reflexivity.
Qed.

(** ** C45  @get and @set.  A release build, or a non-negative index. *)
Theorem C45_get_partial :
  forall (Fn : Type) o (fi : fn_info Fn) feq amax m v l i,
    items_of v = Some l -> fits64 i -> (Z.of_nat (length l) < 2 ^ 63)%Z -> (m = Release \/ 0 <= i)%Z ->
    (in_bounds l i /\ exists x, is_index l i x /\ std_call m o fi feq amax (str "get") [v; VInt i] = Ok x) \/
    (~ in_bounds l i /\ std_call m o fi feq amax (str "get") [v; VInt i] = Err (EIndexError i)).
Proof. exact @get_spec. Qed.
Print Assumptions C45_get_partial.

Theorem C45_set_partial :
  forall (Fn : Type) o (fi : fn_info Fn) feq amax m v l i x,
    items_of v = Some l -> fits64 i -> (Z.of_nat (length l) < 2 ^ 63)%Z -> (m = Release \/ 0 <= i)%Z ->
    (in_bounds l i /\ exists l', replaced l i x l' /\
       std_call m o fi feq amax (str "set") [v; VInt i; x] =
         if (total_size l' <=? amax)%N then Ok (VArray l' (total_size l') amax) else Err EArrayTooLarge) \/
    (~ in_bounds l i /\ std_call m o fi feq amax (str "set") [v; VInt i; x] = Err (EIndexError i)).
Proof. exact @set_spec. Qed.
Print Assumptions C45_set_partial.

Theorem C45_get_set_partial :
  forall (Fn : Type) o (fi : fn_info Fn) feq amax m v l i x w,
    items_of v = Some l -> fits64 i -> (Z.of_nat (length l) < 2 ^ 63)%Z -> (m = Release \/ 0 <= i)%Z ->
    std_call m o fi feq amax (str "set") [v; VInt i; x] = Ok w ->
    std_call m o fi feq amax (str "get") [w; VInt i] = Ok x.
Proof. exact @get_set. Qed.
Print Assumptions C45_get_set_partial.

(** A checked build aborts on every negative index inside the list. *)
Theorem C45_debug_refuted :
  forall (Fn : Type) o (fi : fn_info Fn) feq amax v l i,
    items_of v = Some l -> fits64 i -> (Z.of_nat (length l) < 2 ^ 63)%Z -> (i < 0)%Z -> in_bounds l i ->
    std_call Debug o fi feq amax (str "get") [v; VInt i] = Panic /\
    forall x, std_call Debug o fi feq amax (str "set") [v; VInt i; x] = Panic.
Proof. exact get_set_debug. Qed.
Print Assumptions C45_debug_refuted.

Definition three : value := VArray [VInt 1; VInt 2; VInt 3] 48 100.
Example C45_example : forall o,
  std_call Release o mfi (fun _ _ => Ok true) 100 (str "set") [three; VInt (-1); VBool true] =
    Ok (VArray [VInt 1; VInt 2; VBool true] 48 100) /\
  std_call Release o mfi (fun _ _ => Ok true) 100 (str "get") [three; VInt (-3)] = Ok (VInt 1) /\
  std_call Debug o mfi (fun _ _ => Ok true) 100 (str "get") [three; VInt (-3)] = Panic /\
  std_call Debug o mfi (fun _ _ => Ok true) 100 (str "get") [three; VInt 3] = Err (EIndexError 3).
Proof. intros o. repeat split. Qed.

(** ** C46  @slice: every case, except bounds equal to the least integer.  The last clause
    is a crash: an end past the length aborts the process. *)
Theorem C46_slice_partial :
  forall (Fn : Type) o (fi : fn_info Fn) feq amax m v l a b,
    let len := Z.of_nat (length l) in
    items_of v = Some l -> (- 2 ^ 63 < a < 2 ^ 63)%Z -> (- 2 ^ 63 < b < 2 ^ 63)%Z -> (len < 2 ^ 63)%Z ->
    let r := std_call m o fi feq amax (str "slice") [v; VInt a; VInt b] in
    ((a < - len)%Z -> r = Err (EIndexError a)) /\
    ((- len <= a)%Z -> (b < - len)%Z -> exists z, r = Err (EIndexError z)) /\
    ((- len <= a)%Z -> (- len <= b)%Z -> (position len b < position len a)%Z ->
       r = Err (EBuiltin (str "start index is greater than end index"))) /\
    ((- len <= a)%Z -> (- len <= b)%Z -> (position len a <= position len b <= len)%Z ->
       exists l', part l (position len a) (position len b) l' /\
         r = Ok (VArray l' (total_size l') (total_size l'))) /\
    ((- len <= a)%Z -> (position len a <= position len b)%Z -> (len < position len b)%Z -> r = Panic).
Proof. exact @slice_spec. Qed.
Print Assumptions C46_slice_partial.

Theorem C46_slice_refuted :
  forall (Fn : Type) m o (fi : fn_info Fn) feq amax,
    exists v l a b, items_of v = Some l /\ (0 <= a <= b)%Z /\ (b < 2 ^ 63)%Z /\
      std_call m o fi feq amax (str "slice") [v; VInt a; VInt b] = Panic.
Proof. exact slice_panics. Qed.
Print Assumptions C46_slice_refuted.

Example C46_example : forall o,
  std_call Release o mfi (fun _ _ => Ok true) 100 (str "slice") [three; VInt (-2); VInt 3] =
    Ok (VArray [VInt 2; VInt 3] 32 32) /\
  position 3 (-2) = 1%Z /\ part [VInt 1; VInt 2; VInt 3 : value] 1 3 [VInt 2; VInt 3].
Proof. intros o. split; [reflexivity|]. split; [reflexivity|]. exists [VInt 1], []. repeat split. Qed.

(** ** C47  @split cuts at every occurrence of the separator, @join undoes it. *)
Theorem C47_split_join :
  forall (Fn : Type) m o (fi : fn_info Fn) feq amax s sep v,
    std_call m o fi feq amax (str "split") [VString s; VString sep] = Ok v ->
    std_call m o fi feq amax (str "join") [v; VString sep] = Ok (VString s).
Proof. exact @split_then_join. Qed.
Print Assumptions C47_split_join.

Theorem C47_split_pieces :
  forall (Fn : Type) m o (fi : fn_info Fn) feq amax s sep,
    exists l, joined sep l s /\ (sep <> [] -> Forall (fun x => ~ occurs sep x) l) /\
      std_call m o fi feq amax (str "split") [VString s; VString sep] =
        let d := map VString l in
        if (total_size d <=? amax)%N then Ok (VArray d (total_size d) amax) else Err EArrayTooLarge.
Proof. exact @split_pieces. Qed.
Print Assumptions C47_split_pieces.

Theorem C47_default_separator :
  forall (Fn : Type) m o (fi : fn_info Fn) feq amax s,
    std_call m o fi feq amax (str "split") [VString s] =
    std_call m o fi feq amax (str "split") [VString s; VString (str " ")].
Proof. exact @split_default. Qed.
Print Assumptions C47_default_separator.

Example C47_example : forall o,
  std_call Release o mfi (fun _ _ => Ok true) 100 (str "split") [VString (str "aaab"); VString (str "aa")] =
    Ok (VArray [VString []; VString (str "ab")] 2 100) /\
  std_call Release o mfi (fun _ _ => Ok true) 1 (str "split") [VString (str "aaab"); VString (str "aa")] =
    Err EArrayTooLarge.
Proof. intros o. repeat split. Qed.

(** ** C48  @len counts the valid indices of lists and ASCII strings. *)
Theorem C48_len_partial :
  forall (Fn : Type) o (fi : fn_info Fn) feq amax (v : gvalue Fn) l,
    elements v = Some l ->
    (exists d s mx, v = VArray d s mx) \/ (exists s, v = VString s /\ ascii s) ->
    (Z.of_nat (length l) < 2 ^ 63)%Z ->
    exists n, std_call Release o fi feq amax (str "len") [v] = Ok (VInt n) /\
      forall i, fits64 i -> ((exists x, v_index Release fi (VInt i) v = Ok x) <-> (- n <= i < n)%Z).
Proof. exact @len_index. Qed.
Print Assumptions C48_len_partial.

Theorem C48_len_refuted :
  forall (Fn : Type) o (fi : fn_info Fn) feq amax,
    exists s n, std_call Release o fi feq amax (str "len") [VString s] = Ok (VInt n) /\
      exists i, (0 <= i < n)%Z /\ v_index Release fi (VInt i) (VString s) = Err (EIndexError i).
Proof. exact len_not_indices. Qed.
Print Assumptions C48_len_refuted.

(** Pairs and colours can be indexed but have no length. *)
Theorem C48_len_missing_refuted :
  forall (Fn : Type) m o (fi : fn_info Fn) feq amax (v : gvalue Fn),
    (exists a b, v = VPair a b) \/ is_color v ->
    exists e l, std_call m o fi feq amax (str "len") [v] = Err e /\ elements v = Some l /\ l <> [].
Proof. exact len_missing. Qed.
Print Assumptions C48_len_missing_refuted.

Example C48_example : forall o,
  std_call Release o mfi (fun _ _ => Ok true) 9 (str "len") [VString (str "quilt")] = Ok (VInt 5) /\
  ascii (str "quilt").
Proof. intros o. split; [reflexivity|]. repeat constructor. Qed.

(** ** C49  Text of integers. *)
Theorem C49_int_str :
  forall (Fn : Type) o (fi : fn_info Fn) feq amax m z, fits64 z ->
    exists t, std_call m o fi feq amax (str "str") [VInt z] = Ok (VString t) /\
      std_call m o fi feq amax (str "int") [VString t] = Ok (VInt z).
Proof. exact @int_str. Qed.
Print Assumptions C49_int_str.

Theorem C49_radix_partial :
  forall (Fn : Type) o (fi : fn_info Fn) feq amax m name radix z,
    In (name, radix) [(str "bin", 2%Z); (str "oct", 8%Z); (str "hex", 16%Z)] -> (0 <= z < 2 ^ 63)%Z ->
    exists t ds, std_call m o fi feq amax name [VInt z] = Ok (VString t) /\
      t = map digit_text ds /\ digits_of radix ds z /\
      std_call m o fi feq amax (str "int_from_radix") [VString t; VInt radix] = Ok (VInt z).
Proof. exact @radix_str. Qed.
Print Assumptions C49_radix_partial.

Theorem C49_radix_refuted :
  forall (Fn : Type) o (fi : fn_info Fn) feq amax m,
    exists z t, fits64 z /\ std_call m o fi feq amax (str "bin") [VInt z] = Ok (VString t) /\
      std_call m o fi feq amax (str "int_from_radix") [VString t; VInt 2] = Err (EParseError t (str "int")).
Proof. exact @radix_negative. Qed.
Print Assumptions C49_radix_refuted.

Example C49_example : forall o,
  std_call Debug o mfi (fun _ _ => Ok true) 9 (str "hex") [VInt 48879] = Ok (VString (str "beef")) /\
  std_call Debug o mfi (fun _ _ => Ok true) 9 (str "str") [VInt (-42)] = Ok (VString (str "-42")).
Proof. intros o. repeat split. Qed.

(** ** C50  @truncate. *)
Theorem C50_short :
  forall (Fn : Type) m o (fi : fn_info Fn) feq amax s n e,
    (Z.of_nat (length s) <= n < 2 ^ 63)%Z ->
    std_call m o fi feq amax (str "truncate") [VString s; VInt n; VString e] = Ok (VString s).
Proof. exact @truncate_short. Qed.
Print Assumptions C50_short.

(** The limit holds for ASCII text and an ellipsis no longer than it. *)
Theorem C50_long_partial :
  forall (Fn : Type) m o (fi : fn_info Fn) feq amax s n e,
    ascii s -> (Z.of_nat (length e) <= n < Z.of_nat (length s))%Z -> (n < 2 ^ 63)%Z ->
    exists k,
      std_call m o fi feq amax (str "truncate") [VString s; VInt n; VString e] = Ok (VString (firstn k s ++ e)) /\
      (Z.of_nat (length (firstn k s ++ e)) <= n)%Z.
Proof. exact @truncate_long. Qed.
Print Assumptions C50_long_partial.

Theorem C50_default :
  forall (Fn : Type) m o (fi : fn_info Fn) feq amax s n,
    std_call m o fi feq amax (str "truncate") [VString s; VInt n] =
    std_call m o fi feq amax (str "truncate") [VString s; VInt n; VString (str "...")].
Proof. exact @truncate_default. Qed.
Print Assumptions C50_default.

Theorem C50_refuted :
  forall (Fn : Type) m o (fi : fn_info Fn) feq amax,
    (exists s n r, (0 <= n)%Z /\ ascii s /\
       std_call m o fi feq amax (str "truncate") [VString s; VInt n] = Ok (VString r) /\
       (n < Z.of_nat (length r))%Z) /\
    (exists s n r, (3 <= n)%Z /\
       std_call m o fi feq amax (str "truncate") [VString s; VInt n] = Ok (VString r) /\
       (n < Z.of_nat (length r))%Z).
Proof. exact truncate_exceeds. Qed.
Print Assumptions C50_refuted.

Example C50_example :
  forall o, (forall c, o_whitespace o c = (c =? 32)%N) ->
  std_call Release o mfi (fun _ _ => Ok true) 9 (str "truncate") [VString (str "hello wide world"); VInt 9] =
    Ok (VString (str "hello ...")).
Proof.
  intros o H. rewrite truncate_default, truncate_call. unfold b_truncate.
  cbv -[o_whitespace]. rewrite !H. reflexivity.
Qed.

(** ** C51  Colour builtins. *)
Theorem C51_rgba :
  forall (Fn : Type) m o (fi : fn_info Fn) feq amax r g b a,
    exists r' g' b' a',
      std_call m o fi feq amax (str "rgba") [VInt r; VInt g; VInt b; VInt a] = Ok (VColor r' g' b' a') /\
      Z.of_N r' = clamp255 r /\ Z.of_N g' = clamp255 g /\ Z.of_N b' = clamp255 b /\ Z.of_N a' = clamp255 a.
Proof. exact @rgba_spec. Qed.
Print Assumptions C51_rgba.

Theorem C51_rgb :
  forall (Fn : Type) m o (fi : fn_info Fn) feq amax r g b,
    std_call m o fi feq amax (str "rgb") [VInt r; VInt g; VInt b] =
    std_call m o fi feq amax (str "rgba") [VInt r; VInt g; VInt b; VInt 255].
Proof. exact @rgb_spec. Qed.
Print Assumptions C51_rgb.

Theorem C51_channels :
  forall (Fn : Type) m o (fi : fn_info Fn) feq amax r g b a,
    std_call m o fi feq amax (str "r") [VColor r g b a] = Ok (VInt (Z.of_N r)) /\
    std_call m o fi feq amax (str "g") [VColor r g b a] = Ok (VInt (Z.of_N g)) /\
    std_call m o fi feq amax (str "b") [VColor r g b a] = Ok (VInt (Z.of_N b)) /\
    std_call m o fi feq amax (str "a") [VColor r g b a] = Ok (VInt (Z.of_N a)).
Proof. exact @channels_spec. Qed.
Print Assumptions C51_channels.

Theorem C51_invert :
  forall (Fn : Type) m o (fi : fn_info Fn) feq amax (c : gvalue Fn), value_wf c -> is_color c ->
    exists d, is_color d /\ std_call m o fi feq amax (str "invert") [c] = Ok d /\
      std_call m o fi feq amax (str "invert") [d] = Ok c.
Proof. exact @invert_twice. Qed.
Print Assumptions C51_invert.

Theorem C51_invert_channels :
  forall (Fn : Type) m o (fi : fn_info Fn) feq amax r g b a,
    std_call m o fi feq amax (str "invert") [VColor r g b a] = Ok (VColor (255 - r) (255 - g) (255 - b) a).
Proof. exact @invert_channels. Qed.
Print Assumptions C51_invert_channels.

Example C51_example : forall o,
  std_call Debug o mfi (fun _ _ => Ok true) 9 (str "rgba") [VInt (-3); VInt 7; VInt 256; VInt 255] =
    Ok (VColor 0 7 255 255) /\
  std_call Debug o mfi (fun _ _ => Ok true) 9 (str "invert") [VColor 0 7 255 9] = Ok (VColor 255 248 0 9).
Proof. intros o. repeat split. Qed.

(** ** C54  @mix, @lighten and @darken reach their end points, and stay there outside 0..1. *)
Theorem C54_mix_ends :
  forall (Fn : Type) m o (fi : fn_info Fn) feq amax r g b a r' g' b' a' v t,
    value_wf (@VColor Fn r g b a) -> value_wf (@VColor Fn r' g' b' a') -> accepts PDouble v t ->
    (fleb t fzero = true \/ t = S754_nan ->
       std_call m o fi feq amax (str "mix") [VColor r g b a; VColor r' g' b' a'; v] = Ok (VColor r g b a)) /\
    (fleb (f_of_Z 1) t = true ->
       std_call m o fi feq amax (str "mix") [VColor r g b a; VColor r' g' b' a'; v] = Ok (VColor r' g' b' a')).
Proof. exact @mix_spec. Qed.
Print Assumptions C54_mix_ends.

Theorem C54_lighten_ends :
  forall (Fn : Type) m o (fi : fn_info Fn) feq amax r g b a v t,
    value_wf (@VColor Fn r g b a) -> accepts PDouble v t ->
    (fleb t fzero = true \/ t = S754_nan ->
       std_call m o fi feq amax (str "lighten") [VColor r g b a; v] = Ok (VColor r g b a)) /\
    (fleb (f_of_Z 1) t = true ->
       std_call m o fi feq amax (str "lighten") [VColor r g b a; v] = Ok (VColor 255 255 255 255)).
Proof. exact @lighten_spec. Qed.
Print Assumptions C54_lighten_ends.

Theorem C54_darken_ends :
  forall (Fn : Type) m o (fi : fn_info Fn) feq amax r g b a v t,
    value_wf (@VColor Fn r g b a) -> accepts PDouble v t ->
    (fleb t fzero = true \/ t = S754_nan ->
       std_call m o fi feq amax (str "darken") [VColor r g b a; v] = Ok (VColor r g b a)) /\
    (fleb (f_of_Z 1) t = true ->
       std_call m o fi feq amax (str "darken") [VColor r g b a; v] = Ok (VColor 0 0 0 0)).
Proof. exact @darken_spec. Qed.
Print Assumptions C54_darken_ends.

Example C54_example : forall o,
  std_call Debug o mfi (fun _ _ => Ok true) 9 (str "mix") [VColor 10 20 30 40; VColor 1 2 3 4; VInt 7] =
    Ok (VColor 1 2 3 4) /\
  std_call Debug o mfi (fun _ _ => Ok true) 9 (str "mix")
    [VColor 10 20 30 40; VColor 20 30 40 50; VFloat (fdiv (f_of_Z 1) (f_of_Z 2))] = Ok (VColor 15 25 35 45).
Proof. intros o. split; reflexivity. Qed.

(** ** C55  @complement does not give the complement: every colour becomes #00000000. *)
Theorem C55_complement_refuted :
  forall (Fn : Type) m o (fi : fn_info Fn) feq amax r g b a, value_wf (@VColor Fn r g b a) ->
    std_call m o fi feq amax (str "complement") [VColor r g b a] = Ok (VColor 0 0 0 0).
Proof. exact @complement_black. Qed.
Print Assumptions C55_complement_refuted.

(** ** C56  @replace is @split at the old text and @join with the new one. *)
Theorem C56_replace :
  forall (Fn : Type) m o (fi : fn_info Fn) feq amax s old new,
    exists l r, joined old l s /\ (old <> [] -> Forall (fun x => ~ occurs old x) l) /\ joined new l r /\
      std_call m o fi feq amax (str "replace") [VString s; VString old; VString new] = Ok (VString r).
Proof. exact @replace_spec. Qed.
Print Assumptions C56_replace.

Example C56_example : forall o,
  std_call Debug o mfi (fun _ _ => Ok true) 9 (str "replace")
    [VString (str "aaab"); VString (str "aa"); VString (str "x")] = Ok (VString (str "xab")) /\
  joined (str "aa") [[]; str "ab"] (str "aaab") /\ joined (str "x") [[]; str "ab"] (str "xab").
Proof.
  intros o. split; [reflexivity|]. split.
  - apply (j_more (str "aa") [] [str "ab"] (str "ab")); [discriminate|constructor].
  - apply (j_more (str "x") [] [str "ab"] (str "ab")); [discriminate|constructor].
Qed.

(** ** C57  Tests on strings, and @trim. *)
Theorem C57_starts_with :
  forall (Fn : Type) m o (fi : fn_info Fn) feq amax s p,
    exists b, std_call m o fi feq amax (str "starts_with") [VString s; VString p] = Ok (VBool b) /\
      (b = true <-> exists t, s = p ++ t).
Proof. exact @starts_with_spec. Qed.
Print Assumptions C57_starts_with.

Theorem C57_ends_with :
  forall (Fn : Type) m o (fi : fn_info Fn) feq amax s p,
    exists b, std_call m o fi feq amax (str "ends_with") [VString s; VString p] = Ok (VBool b) /\
      (b = true <-> exists t, s = t ++ p).
Proof. exact @ends_with_spec. Qed.
Print Assumptions C57_ends_with.

Theorem C57_contains :
  forall (Fn : Type) m o (fi : fn_info Fn) feq amax s p,
    exists b, std_call m o fi feq amax (str "contains") [VString s; VString p] = Ok (VBool b) /\
      (b = true <-> occurs p s).
Proof. exact @contains_spec. Qed.
Print Assumptions C57_contains.

Theorem C57_trim :
  forall (Fn : Type) m o (fi : fn_info Fn) feq amax s,
    exists pre r post, std_call m o fi feq amax (str "trim") [VString s] = Ok (VString r) /\
      s = pre ++ r ++ post /\
      Forall (fun c => o_whitespace o c = true) pre /\ Forall (fun c => o_whitespace o c = true) post /\
      (forall c t, r = c :: t -> o_whitespace o c = false) /\
      (forall c t, r = t ++ [c] -> o_whitespace o c = false).
Proof. exact @trim_spec. Qed.
Print Assumptions C57_trim.

Example C57_example : forall o,
  std_call Debug o mfi (fun _ _ => Ok true) 9 (str "contains") [VString (str "abcd"); VString (str "bc")] =
    Ok (VBool true) /\
  std_call Debug o mfi (fun _ _ => Ok true) 9 (str "ends_with") [VString (str "abcd"); VString (str "bc")] =
    Ok (VBool false).
Proof. intros o. repeat split. Qed.

(** ** C58  @chars lists the characters; joining them gives the string back. *)
Theorem C58_chars :
  forall (Fn : Type) m o (fi : fn_info Fn) feq amax s,
    exists v, std_call m o fi feq amax (str "chars") [VString s] = Ok v /\
      items_of v = Some (map (fun c => VString [c]) s) /\
      std_call m o fi feq amax (str "join") [v] = Ok (VString s).
Proof. exact @chars_join. Qed.
Print Assumptions C58_chars.

Example C58_example : forall o,
  std_call Debug o mfi (fun _ _ => Ok true) 9 (str "chars") [VString (str "ab")] =
    Ok (VArray [VString (str "a"); VString (str "b")] 2 2).
Proof. intros o. reflexivity. Qed.

(** ** C59  @clamp stays inside its bounds and keeps what is inside; @min, @max, @abs. *)
Theorem C59_clamp :
  forall (Fn : Type) m o (fi : fn_info Fn) feq amax a lo hi,
    a <> S754_nan -> lo <> S754_nan -> hi <> S754_nan ->
    (fltb hi lo = true -> exists e, std_call m o fi feq amax (str "clamp") [VFloat a; VFloat lo; VFloat hi] = Err e) /\
    (fleb lo hi = true ->
       exists r, std_call m o fi feq amax (str "clamp") [VFloat a; VFloat lo; VFloat hi] = Ok (VFloat r) /\
         fleb lo r = true /\ fleb r hi = true /\
         (fleb lo a = true -> fleb a hi = true -> feqb a r = true)).
Proof. exact @clamp_spec. Qed.
Print Assumptions C59_clamp.

Theorem C59_min_max :
  forall (Fn : Type) m o (fi : fn_info Fn) feq amax a b,
    std_call m o fi feq amax (str "min") [VInt a; VInt b] = Ok (VInt (Z.min a b)) /\
    std_call m o fi feq amax (str "max") [VInt a; VInt b] = Ok (VInt (Z.max a b)).
Proof. exact @min_max_spec. Qed.
Print Assumptions C59_min_max.

Theorem C59_abs_partial :
  forall (Fn : Type) m o (fi : fn_info Fn) feq amax z, fits64 z ->
    ((z <> - 2 ^ 63)%Z -> std_call m o fi feq amax (str "abs") [VInt z] = Ok (VInt (Z.abs z))) /\
    (z = (- 2 ^ 63)%Z -> std_call Debug o fi feq amax (str "abs") [VInt z] = Panic /\
                    std_call Release o fi feq amax (str "abs") [VInt z] = Ok (VInt z)).
Proof. exact abs_spec. Qed.
Print Assumptions C59_abs_partial.

Example C59_example : forall o,
  std_call Debug o mfi (fun _ _ => Ok true) 9 (str "clamp") [VInt 9; VInt 2; VInt 5] = Ok (VFloat (f_of_Z 5)) /\
  std_call Debug o mfi (fun _ _ => Ok true) 9 (str "clamp") [VInt 9; VInt 6; VInt 5] =
    Err (EBuiltin (str "min must be less than max")).
Proof. intros o. repeat split. Qed.

(** ** C60  No other builtin can abort the process. *)
Theorem C60_builtins_never_abort_partial :
  forall (Fn : Type) m o (fi : fn_info Fn) feq amax name args,
    std_call m o fi feq amax name args = Panic ->
    In name [str "get"; str "set"; str "slice"; str "assert_eq"; str "assert_ne"; str "abs"].
Proof. exact builtins_safe. Qed.
Print Assumptions C60_builtins_never_abort_partial.

Theorem C60_release_partial :
  forall (Fn : Type) o (fi : fn_info Fn) feq amax name args,
    Forall value_wf args ->
    (forall v, In v args -> forall l, items_of v = Some l -> (Z.of_nat (length l) < 2 ^ 63)%Z) ->
    std_call Release o fi feq amax name args = Panic ->
    In name [str "slice"; str "assert_eq"; str "assert_ne"].
Proof. exact builtins_release. Qed.
Print Assumptions C60_release_partial.

Example C60_example : forall o,
  std_call Release o mfi (fun _ _ => Ok true) 9 (str "char") [VInt 55296] =
    Err (EBuiltin (str "invalid character code `55296`")) /\
  std_call Release o mfi (fun _ _ => Ok true) 9 (str "abs") [VInt (-4)] = Ok (VInt 4).
Proof. intros o. repeat split. Qed.

(** ** C08  Lists from @set, @split and @rainbow_colors respect the limit; @chars does not. *)
Theorem C08_builtins_partial :
  forall (Fn : Type) m o (fi : fn_info Fn) feq amax name args l s mx,
    In name [str "set"; str "split"; str "rainbow_colors"] ->
    std_call m o fi feq amax name args = Ok (VArray l s mx) ->
    s = total_size l /\ (s <= amax)%N.
Proof. exact list_builtins_size. Qed.
Print Assumptions C08_builtins_partial.

Theorem C08_builtins_refuted :
  forall (Fn : Type) m o (fi : fn_info Fn) feq,
    exists name args l s mx amax, std_call m o fi feq amax name args = Ok (VArray l s mx) /\
      s = total_size l /\ (amax < s)%N.
Proof. exact list_builtins_too_large. Qed.
Print Assumptions C08_builtins_refuted.

(** ** C07  Builtins ignore the string limit: two strings within it join to one beyond it. *)
Theorem C07_builtins_refuted :
  forall (Fn : Type) m o (fi : fn_info Fn) feq amax smax, (0 < smax)%N ->
    exists s r, (slen s <= smax)%N /\
      std_call m o fi feq amax (str "join") [VPair (VString s) (VString s)] = Ok (VString r) /\
      (smax < slen r)%N.
Proof. exact join_unlimited. Qed.
Print Assumptions C07_builtins_refuted.
