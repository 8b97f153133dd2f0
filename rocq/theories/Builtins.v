(** qstd/src: the builtins of the standard library whose results depend on their arguments
    alone.  @hash, the random, time and io functions are in Console.v. *)
From Verif Require Import Base Float NumText Vecc Value Ast Arith Args.

(** ** Strings, as the Rust standard library handles them *)

(** [str::split] at a non-empty pattern: the pieces between leftmost, non-overlapping
    matches.  [cur] is the piece being read, in reverse. *)
Fixpoint split_go (pat s : rstring) (skip : nat) (cur : rstring) : list rstring :=
  match s with
  | [] => [rev cur]
  | c :: t => match skip with
              | S k => split_go pat t k cur
              | O => if is_prefix pat s then rev cur :: split_go pat t (length pat - 1) []
                     else split_go pat t 0 (c :: cur)
              end
  end.
(** With an empty pattern: an empty piece, every character, an empty piece. *)
Definition str_split (s pat : rstring) : list rstring :=
  match pat with
  | [] => [] :: map (fun c => [c]) s ++ [[]]
  | _ => split_go pat s 0 []
  end.

(** [[String]::join] *)
Fixpoint str_join (sep : rstring) (l : list rstring) : rstring :=
  match l with
  | [] => []
  | [x] => x
  | x :: t => x ++ sep ++ str_join sep t
  end.

Fixpoint drop_while (p : N -> bool) (s : rstring) : rstring :=
  match s with
  | c :: t => if p c then drop_while p t else s
  | [] => []
  end.
(** [str::trim_start_matches], [str::trim_end_matches], [str::trim_matches] *)
Definition trim_start (p : N -> bool) (s : rstring) : rstring := drop_while p s.
Definition trim_end (p : N -> bool) (s : rstring) : rstring := rev (drop_while p (rev s)).
Definition trim_both (p : N -> bool) (s : rstring) : rstring := trim_end p (trim_start p s).

(** [str::contains] *)
Fixpoint str_contains (s pat : rstring) : bool :=
  is_prefix pat s || match s with [] => false | _ :: t => str_contains t pat end.
(** [str::ends_with] *)
Definition str_ends_with (s e : rstring) : bool := is_prefix (rev e) (rev s).

(** [str::split_whitespace] *)
Fixpoint words_go (ws : N -> bool) (s cur : rstring) : list rstring :=
  match s with
  | [] => match cur with [] => [] | _ => [rev cur] end
  | c :: t => if ws c then match cur with
                           | [] => words_go ws t []
                           | _ => rev cur :: words_go ws t []
                           end
              else words_go ws t (c :: cur)
  end.

(** [str::char_indices().nth(n)]: the byte position of character [n]. *)
Fixpoint char_byte (s : rstring) (n : nat) : option N :=
  match s, n with
  | [], _ => None
  | _ :: _, O => Some 0%N
  | c :: t, S k => match char_byte t k with
                   | Some i => Some (utf8_len c + i)%N
                   | None => None
                   end
  end.

(** [char::from_u32] *)
Definition is_scalar (c : N) : bool :=
  ((c <? 55296) || ((57344 <=? c) && (c <? 1114112)))%N.

(** [u8::from_str_radix(_, 16)] *)
Definition parse_u8_hex (s : rstring) : option N :=
  match parse_int 0 255 16 s with Some z => Some (Z.to_N z) | None => None end.
Definition hex_or (d : N) (s : rstring) : N :=
  match parse_u8_hex s with Some n => n | None => d end.

Section Builtins.
Context {Fn : Type} (m : mode) (o : oracle) (fi : fn_info Fn) (feq : Fn -> Fn -> res bool)
        (amax : N).
Notation val := (gvalue Fn).
Notation sig := (@sig Fn).

Definition err_msg {A} (s : rstring) : res A := Err (EBuiltin s).

(** ** qstd/src/core.rs *)

(** core.rs:15-23 *)
Definition b_get : sig [Req PList; Req PInt] := fun list index =>
  let! idx := fix_index m index (length list) in
  match nth_error list idx with
  | Some v => Ok v
  | None => Err (EIndexError index)
  end.

(** core.rs:27-37 *)
Definition b_set : sig [Req PList; Req PInt; Req PAny] := fun list index value =>
  let! idx := fix_index m index (length list) in
  match nth_error list idx with
  | Some _ => make_value_array (upd idx value list) amax
  | None => Err (EIndexError index)
  end.

(** core.rs:44-62: one bound of a slice.  The error names the start in both cases. *)
Definition slice_bound (len bound blame : Z) : res Z :=
  if (bound <? 0)%Z then
    let! n := ov64 m (- bound) in
    if (len <? n)%Z then Err (EIndexError blame) else ov64 m (len + bound)
  else Ok bound.

(** core.rs:40-69.  Slicing outside the list panics. *)
Definition b_slice : sig [Req PList; Req PInt; Req PInt] := fun list start end_ =>
  let len := Z.of_nat (length list) in
  let! start := slice_bound len start start in
  let! end_ := slice_bound len end_ start in
  if (end_ <? start)%Z then err_msg (str "start index is greater than end index")
  else
    let s := to_u64 start in
    let e := to_u64 end_ in
    if (e <? s)%N || (N.of_nat (length list) <? e)%N then Panic
    else Ok (force_array (firstn (N.to_nat (e - s)) (skipn (N.to_nat s) list))).

(** core.rs:72-74 *)
Definition b_str : sig [Req PAny] := fun arg => Ok (VString (display o fi arg)).

(** core.rs:77-89: the digits of the two's complement. *)
Definition b_radix (radix : N) : sig [Req PInt] := fun v => Ok (VString (radix_text radix (to_u64 v))).

(** core.rs:92-98 *)
Definition b_char : sig [Req PInt] := fun v =>
  if is_scalar (to_u32 v) then Ok (VString [to_u32 v])
  else err_msg (str "invalid character code `" ++ int_text v ++ str "`").

(** core.rs:101-114 *)
Definition b_int_from_radix : sig [Req PStr; Req PInt32] := fun s radix =>
  if ((radix <? 2) || (36 <? radix))%Z
  then err_msg (str "radix must be between 2 and 36, got `" ++ int_text radix ++ str "`")
  else match parse_i64 (to_u32 radix) s with
       | Some i => Ok (VInt i)
       | None => Err (EParseError s (str "int"))
       end.

(** core.rs:117-127 *)
Definition b_int : sig [Req PAny] := fun arg =>
  match arg with
  | VInt i => Ok (VInt i)
  | VFloat f => Ok (VInt (f_to_i64 f))
  | VString s => match parse_i64 10 s with
                 | Some i => Ok (VInt i)
                 | None => Err (EParseError s (str "int"))
                 end
  | _ => Err (ECannotConvert (ntype fi arg) (str "int"))
  end.

(** core.rs:130-140 *)
Definition b_float : sig [Req PAny] := fun arg =>
  match arg with
  | VInt i => Ok (VFloat (f_of_Z i))
  | VFloat f => Ok (VFloat f)
  | VString s => match o_f64_parse o s with
                 | Some f => Ok (VFloat f)
                 | None => Err (EParseError s (str "float"))
                 end
  | _ => Err (ECannotConvert (ntype fi arg) (str "int"))
  end.

(** core.rs:143-154 *)
Definition b_bool : sig [Req PAny] := fun arg =>
  match arg with
  | VBool b => Ok (VBool b)
  | VInt i => Ok (VBool (negb (i =? 0)%Z))
  | VFloat f => Ok (VBool (negb (feqb f fzero)))
  | VString s => if seqb s (str "true") then Ok (VBool true)
                 else if seqb s (str "false") then Ok (VBool false)
                 else Err (EParseError s (str "bool"))
  | _ => Err (ECannotConvert (ntype fi arg) (str "bool"))
  end.

Definition byte_of (z : Z) : N := Z.to_N (z mod 256).

(** core.rs:157-196 *)
Definition b_color : sig [Req PAny] := fun arg =>
  match arg with
  | VColor r g b a => Ok (VColor r g b a)
  | VInt i => Ok (VColor (byte_of (Z.shiftr i 24)) (byte_of (Z.shiftr i 16))
                         (byte_of (Z.shiftr i 8)) (byte_of i))
  | VString ss =>
      match firstn 8 (trim_both (N.eqb 35) ss) with
      | [a; b; c; d; e; f; g; h] =>
          Ok (VColor (hex_or 0 [a; b]) (hex_or 0 [c; d]) (hex_or 0 [e; f]) (hex_or 0 [g; h]))
      | [a; b; c; d; e; f] =>
          Ok (VColor (hex_or 0 [a; b]) (hex_or 0 [c; d]) (hex_or 0 [e; f]) 255)
      | [a; b; c] => Ok (VColor (hex_or 0 [a; a]) (hex_or 0 [b; b]) (hex_or 0 [c; c]) 255)
      | _ => err_msg (str "invalid color `" ++ ss ++ str "`")
      end
  | _ => Err (ECannotConvert (ntype fi arg) (str "color"))
  end.

(** core.rs:199-205 *)
Definition b_len : sig [Req PAny] := fun arg =>
  match arg with
  | VArray l _ _ => Ok (VInt (Z.of_nat (length l)))
  | VString s => Ok (VInt (Z.of_N (slen s)))
  | _ => err_msg (str "type `" ++ ntype fi arg ++ str "` has no length")
  end.

(** core.rs:208-210 *)
Definition b_gettype : sig [Req PAny] := fun arg => Ok (VString (ntype fi arg)).

(** ** qstd/src/strings.rs *)

(** strings.rs:26-32: moving back over white space; [cs] are the characters from the
    first cut on. *)
Fixpoint back_up (cs : rstring) (i : N) : N :=
  match cs with
  | c :: t => if o_whitespace o c then back_up t (i - utf8_len c) else i
  | [] => i
  end.
(** strings.rs:14-40 *)
Definition b_truncate : sig [Req PStr; Req PInt; Opt PStr] := fun s len ellipsis =>
  let ell := match ellipsis with Some e => e | None => str "..." end in
  let n := to_u64 len in
  let cut := if (N.of_nat (length s) <=? n)%N then None else char_byte s (N.to_nat n) in
  match cut with
  | Some i =>
      let i := N.min (i - N.of_nat (length ell)) (N.of_nat (length s)) in
      let i := back_up (skipn (N.to_nat i) s) i in
      Ok (VString (firstn (N.to_nat i) s ++ ell))
  | None => Ok (VString s)
  end.

Definition cap_first (s : rstring) : rstring :=
  match s with [] => [] | c :: t => o_char_upper o c ++ t end.
(** strings.rs:43-49 *)
Definition b_capitalize : sig [Req PStr] := fun s => Ok (VString (cap_first s)).
(** strings.rs:52-62 *)
Definition b_title : sig [Req PStr] := fun s =>
  Ok (VString (str_join (str " ") (map cap_first (words_go (o_whitespace o) s [])))).
(** strings.rs:65-72.  Simplification: the final form of a lower-case sigma depends on its
    neighbours in Rust; here every character is mapped by itself. *)
Definition b_uppercase : sig [Req PStr] := fun s => Ok (VString (flat_map (o_char_upper o) s)).
Definition b_lowercase : sig [Req PStr] := fun s => Ok (VString (flat_map (o_char_lower o) s)).
(** strings.rs:76-78 *)
Definition b_split : sig [Req PStr; Opt PStr] := fun s sep =>
  let sep := match sep with Some p => p | None => str " " end in
  make_value_array (map VString (str_split s sep)) amax.
(** strings.rs:81-83 *)
Definition b_join : sig [Req PList; Opt PStr] := fun l sep =>
  let sep := match sep with Some p => p | None => [] end in
  Ok (VString (str_join sep (map (display o fi) l))).
(** strings.rs:86-88 *)
Definition b_replace : sig [Req PStr; Req PStr; Req PStr] := fun s old new =>
  Ok (VString (str_replace s old new)).
(** strings.rs:91-103 *)
Definition b_trim : sig [Req PStr] := fun s => Ok (VString (trim_both (o_whitespace o) s)).
Definition b_trim_start : sig [Req PStr] := fun s => Ok (VString (trim_start (o_whitespace o) s)).
Definition b_trim_end : sig [Req PStr] := fun s => Ok (VString (trim_end (o_whitespace o) s)).
(** strings.rs:106-118 *)
Definition b_starts_with : sig [Req PStr; Req PStr] := fun s p => Ok (VBool (is_prefix p s)).
Definition b_ends_with : sig [Req PStr; Req PStr] := fun s p => Ok (VBool (str_ends_with s p)).
Definition b_contains : sig [Req PStr; Req PStr] := fun s p => Ok (VBool (str_contains s p)).
(** strings.rs:121-123 *)
Definition b_chars : sig [Req PStr] := fun s => Ok (force_array (map (fun c => VString [c]) s)).

(** ** qstd/src/testing.rs *)

(** testing.rs:9-15 *)
Definition b_assert : sig [Req PBool] := fun b =>
  if b then Ok VNone else err_msg (str "assertion failed").
Definition eq_msg (op : rstring) (a b : val) : rstring :=
  str "assertion failed: `(left " ++ op ++ str " right)`" ++ [10%N] ++ str "  left: `"
  ++ display o fi a ++ str "`" ++ [10%N] ++ str " right: `" ++ display o fi b ++ str "`".
(** testing.rs:18-24 *)
Definition b_assert_eq : sig [Req PAny; Req PAny] := fun a b =>
  let! e := geqb feq a b in
  if (e : bool) then Ok VNone else err_msg (eq_msg (str "==") a b).
(** testing.rs:27-33 *)
Definition b_assert_ne : sig [Req PAny; Req PAny] := fun a b =>
  let! e := geqb feq a b in
  if (e : bool) then err_msg (eq_msg (str "!=") a b) else Ok VNone.
(** testing.rs:36-48 *)
Definition b_unreachable : sig [] := err_msg (str "unreachable code reached").
Definition b_panic : sig [Req PStr] := fun s => err_msg s.
Definition b_todo : sig [] := err_msg (str "not yet implemented").

(** ** qstd/src/math.rs *)

(** math.rs:15-39 *)
Definition b_log (name : rstring) : sig [Req PAny] := fun arg =>
  match arg with
  | VInt i => Ok (VFloat (o_math o name [f_of_Z i]))
  | VFloat f => Ok (VFloat (o_math o name [f]))
  | _ => Err (ECannotConvert (ntype fi arg) (str "float"))
  end.
(** math.rs:63-82 *)
Definition b_min : sig [Req PAny; Req PAny] := fun a b =>
  match a, b with
  | VInt x, VInt y => Ok (VInt (Z.min x y))
  | VFloat x, VFloat y => Ok (VFloat (fmin x y))
  | VInt x, VFloat y => Ok (VFloat (fmin (f_of_Z x) y))
  | VFloat x, VInt y => Ok (VFloat (fmin x (f_of_Z y)))
  | _, _ => Err (ECannotCompare (ntype fi a) (ntype fi b))
  end.
Definition b_max : sig [Req PAny; Req PAny] := fun a b =>
  match a, b with
  | VInt x, VInt y => Ok (VInt (Z.max x y))
  | VFloat x, VFloat y => Ok (VFloat (fmax x y))
  | VInt x, VFloat y => Ok (VFloat (fmax (f_of_Z x) y))
  | VFloat x, VInt y => Ok (VFloat (fmax x (f_of_Z y)))
  | _, _ => Err (ECannotCompare (ntype fi a) (ntype fi b))
  end.
(** math.rs:85-109 *)
Definition b_rounding (f : f64 -> f64) : sig [Req PAny] := fun a =>
  match a with
  | VInt i => Ok (VInt i)
  | VFloat x => Ok (VInt (f_to_i64 (f x)))
  | _ => Err (EExpected (str "num") (ntype fi a))
  end.
(** math.rs:112-120 *)
Definition powi10 (d : Z) : f64 := o_math o (str "powi") [f_of_Z 10; f_of_Z (wrap32 d)].
Definition b_fix : sig [Req PAny; Req PInt] := fun a d =>
  match a with
  | VInt i => if (d =? 0)%Z then Ok (VInt i)
              else Ok (VFloat (fdiv (f_round (fmul (f_of_Z i) (powi10 d))) (powi10 d)))
  | VFloat f => if (d =? 0)%Z then Ok (VInt (f_to_i64 f))
                else Ok (VFloat (fdiv (f_round (fmul f (powi10 d))) (powi10 d)))
  | _ => Err (EExpected (str "num") (ntype fi a))
  end.
(** math.rs:123-133, f64::clamp *)
Definition b_clamp : sig [Req PNum; Req PNum; Req PNum] := fun a lo hi =>
  if fltb hi lo then err_msg (str "min must be less than max")
  else if is_nan lo || is_nan hi then err_msg (str "min and max must be numbers")
  else Ok (VFloat (if fltb a lo then lo else if fltb hi a then hi else a)).
(** math.rs:136-138 *)
Definition b_interp : sig [Req PNum; Req PNum; Req PNum] := fun a b t =>
  Ok (VFloat (fadd a (fmul (fsub b a) t))).
(** math.rs:141-147 *)
Definition b_abs : sig [Req PAny] := fun a =>
  match a with
  | VInt i => let! z := ov64 m (Z.abs i) in Ok (VInt z)
  | VFloat f => Ok (VFloat (fabs f))
  | _ => Err (EExpected (str "num") (ntype fi a))
  end.
(** math.rs:150-187 *)
Definition b_math1 (name : rstring) : sig [Req PNum] := fun a => Ok (VFloat (o_math o name [a])).
Definition b_atan2 : sig [Req PNum; Req PNum] := fun a b => Ok (VFloat (o_math o (str "atan2") [a; b])).
Definition b_sqrt : sig [Req PNum] := fun a => Ok (VFloat (fsqrt a)).

(** ** qstd/src/colors.rs *)
Definition fN (n : N) : f64 := f_of_Z (Z.of_N n).
Definition f1 : f64 := f_of_Z 1.
Definition f255 : f64 := f_of_Z 255.
Definition fhalf : f64 := fdiv f1 (f_of_Z 2).

(** colors.rs:14-21 *)
Definition b_rgba : sig [Req PU8; Req PU8; Req PU8; Req PU8] := fun r g b a => Ok (VColor r g b a).
Definition b_rgb : sig [Req PU8; Req PU8; Req PU8] := fun r g b => Ok (VColor r g b 255).

(** colors.rs:44-61 *)
Definition b_r : sig [Req PColor] := fun '(r, _, _, _) => Ok (VInt (Z.of_N r)).
Definition b_g : sig [Req PColor] := fun '(_, g, _, _) => Ok (VInt (Z.of_N g)).
Definition b_b : sig [Req PColor] := fun '(_, _, b, _) => Ok (VInt (Z.of_N b)).
Definition b_a : sig [Req PColor] := fun '(_, _, _, a) => Ok (VInt (Z.of_N a)).

(** The decimal constants 0.2126, 0.7152, 0.0722, 0.299, 0.587 and 0.114. *)
Definition k2126 : f64 := S754_finite false 7659722246231740 (-55).
Definition k7152 : f64 := S754_finite false 6441948906990757 (-53).
Definition k0722 : f64 := S754_finite false 5202558289538397 (-56).
Definition k299 : f64 := S754_finite false 5386305154335113 (-54).
Definition k587 : f64 := S754_finite false 5287225962532962 (-53).
Definition k114 : f64 := S754_finite false 8214565720323785 (-56).
Definition weighted (x y z : f64) (r g b : N) : f64 :=
  fadd (fadd (fmul (fN r) x) (fmul (fN g) y)) (fmul (fN b) z).
(** colors.rs:64-71, 79-81 *)
Definition b_luma : sig [Req PColor] := fun '(r, g, b, _) =>
  Ok (VFloat (weighted k2126 k7152 k0722 r g b)).
Definition b_hue : sig [Req PColor] := fun '(r, g, b, _) =>
  Ok (VFloat (weighted k299 k587 k114 r g b)).
(** colors.rs:74-76, 84-86 *)
Definition b_saturation : sig [Req PColor] := fun '(r, g, b, _) =>
  let d x := fabs (fsub (fN x) fhalf) in Ok (VFloat (fadd (fadd (d r) (d g)) (d b))).
(** colors.rs:89-91 *)
Definition b_cdifference : sig [Req PColor; Req PColor] := fun '(r, g, b, _) '(r', g', b', _) =>
  let d x y := fabs (fsub (fN x) (fN y)) in
  Ok (VFloat (fdiv (fadd (fadd (d r r') (d g g')) (d b b')) (f_of_Z 3))).

(** colors.rs:94-96.  The channels are bytes, so the subtractions do not underflow. *)
Definition b_invert : sig [Req PColor] := fun '(r, g, b, a) =>
  Ok (VColor (255 - r) (255 - g) (255 - b) a).
(** colors.rs:98-101 *)
Definition b_alpha : sig [Req PColor; Req PDouble] := fun '(r, g, b, _) a =>
  Ok (VColor r g b (f_to_u8 (f_round (fmul a f255)))).

(** [t.max(0.0).min(1.0)] *)
Definition unit_clamp (t : f64) : f64 := fmin (fmax t fzero) f1.
(** colors.rs:107-110, 143-146, 155-158: one channel mixed with another. *)
Definition mix1 (t : f64) (x y : N) : N :=
  f_to_u8 (f_round (fadd (fmul (fN x) (fsub f1 t)) (fmul (fN y) t))).
(** colors.rs:131-134, 167-170 *)
Definition dim1 (t : f64) (x : N) : N := f_to_u8 (f_round (fmul (fN x) (fsub f1 t))).
(** colors.rs:104-113 *)
Definition b_mix : sig [Req PColor; Req PColor; Req PDouble] := fun '(r, g, b, a) '(r', g', b', a') t =>
  let t := unit_clamp t in Ok (VColor (mix1 t r r') (mix1 t g g') (mix1 t b b') (mix1 t a a')).
(** colors.rs:116-125 *)
Definition b_lighten : sig [Req PColor; Req PDouble] := fun '(r, g, b, a) t =>
  let t := unit_clamp t in Ok (VColor (mix1 t r 255) (mix1 t g 255) (mix1 t b 255) (mix1 t a 255)).
(** colors.rs:128-137, 164-173 *)
Definition b_darken : sig [Req PColor; Req PDouble] := fun '(r, g, b, a) t =>
  let t := unit_clamp t in Ok (VColor (dim1 t r) (dim1 t g) (dim1 t b) (dim1 t a)).
(** colors.rs:140-161: @saturate and @desaturate have the same body. *)
Definition b_saturate : sig [Req PColor; Req PDouble] := fun '(r, g, b, a) t =>
  let t := unit_clamp t in Ok (VColor (mix1 t r r) (mix1 t g g) (mix1 t b b) (mix1 t a a)).
(** colors.rs:176-183 *)
Definition b_complement : sig [Req PColor] := fun '(r, g, b, a) =>
  let c x := f_to_u8 (f_round (fmul (fN x) (f_of_Z (-1)))) in Ok (VColor (c r) (c g) (c b) (c a)).
(** colors.rs:186-192 *)
Definition b_contrast_color : sig [Req PColor] := fun '(r, g, b, a) =>
  if fltb (f_of_Z 186) (weighted k299 k587 k114 r g b) then Ok (VColor 0 0 0 a)
  else Ok (VColor 255 255 255 a).
(** colors.rs:220-238 *)
Definition rainbow : list val :=
  [ VColor 255 0 0 255; VColor 255 135 0 255; VColor 255 211 0 255; VColor 222 255 10 255;
    VColor 161 255 10 255; VColor 10 255 153 255; VColor 10 239 255 255; VColor 20 125 245 255;
    VColor 88 10 255 255; VColor 190 10 255 255 ].
Definition b_rainbow_colors : sig [] := make_value_array rainbow amax.

(** colors.rs:247-266, 276-295: the sector of the hue, and the channels. *)
Definition hue_channels (c x mm h a : f64) : val :=
  let '(r, g, b) :=
    if fltb h f1 then (c, x, fzero) else if fltb h (f_of_Z 2) then (x, c, fzero)
    else if fltb h (f_of_Z 3) then (fzero, c, x) else if fltb h (f_of_Z 4) then (fzero, x, c)
    else if fltb h (f_of_Z 5) then (x, fzero, c) else (c, fzero, x) in
  let ch v := f_to_u8 (f_round (fmul (fmin (fmax (fadd v mm) fzero) f1) f255)) in
  VColor (ch r) (ch g) (ch b) (f_to_u8 (f_round (fmul a f255))).
Definition hue_x (c h : f64) : f64 := fmul c (fsub f1 (fabs (fsub (fmod h (f_of_Z 2)) f1))).
(** colors.rs:241-267 *)
Definition hsla_to_rgba (h s l a : f64) : val :=
  let c := fmul (fsub f1 (fabs (fsub (fmul (f_of_Z 2) l) f1))) s in
  let h := fdiv h (f_of_Z 60) in
  hue_channels c (hue_x c h) (fsub l (fdiv c (f_of_Z 2))) h a.
(** colors.rs:270-296 *)
Definition hsva_to_rgba (h s v a : f64) : val :=
  let c := fmul v s in
  let h := fdiv h (f_of_Z 60) in
  hue_channels c (hue_x c h) (fsub v c) h a.
(** colors.rs:24-41 *)
Definition b_hsla : sig [Req PDouble; Req PDouble; Req PDouble; Req PDouble] := fun h s l a =>
  Ok (hsla_to_rgba h s l a).
Definition b_hsl : sig [Req PDouble; Req PDouble; Req PDouble] := fun h s l =>
  Ok (hsla_to_rgba h s l f1).
Definition b_hsva : sig [Req PDouble; Req PDouble; Req PDouble; Req PDouble] := fun h s v a =>
  Ok (hsva_to_rgba h s v a).
Definition b_hsv : sig [Req PDouble; Req PDouble; Req PDouble] := fun h s v =>
  Ok (hsva_to_rgba h s v f1).

(** ** Registration: macros.rs:79-89 and qstd/src/lib.rs:20-30, in the order of the sources. *)
Definition bfun := (rstring * (list val -> res val))%type.
Definition reg (name : rstring) (ps : list param) (f : sig ps) : bfun := (name, call fi ps f).

Definition core_list : list bfun :=
  [ reg (str "get") _ b_get; reg (str "set") _ b_set; reg (str "slice") _ b_slice;
    reg (str "str") _ b_str; reg (str "bin") _ (b_radix 2); reg (str "oct") _ (b_radix 8);
    reg (str "hex") _ (b_radix 16); reg (str "char") _ b_char;
    reg (str "int_from_radix") _ b_int_from_radix; reg (str "int") _ b_int;
    reg (str "float") _ b_float; reg (str "bool") _ b_bool; reg (str "color") _ b_color;
    reg (str "len") _ b_len; reg (str "gettype") _ b_gettype ].
Definition math_list : list bfun :=
  [ reg (str "log") _ (b_log (str "log10")); reg (str "log2") _ (b_log (str "log2"));
    reg (str "log10") _ (b_log (str "log10")); reg (str "min") _ b_min; reg (str "max") _ b_max;
    reg (str "round") _ (b_rounding f_round); reg (str "floor") _ (b_rounding f_floor);
    reg (str "ceil") _ (b_rounding f_ceil); reg (str "fix") _ b_fix; reg (str "clamp") _ b_clamp;
    reg (str "interp") _ b_interp; reg (str "abs") _ b_abs; reg (str "sin") _ (b_math1 (str "sin"));
    reg (str "cos") _ (b_math1 (str "cos")); reg (str "tan") _ (b_math1 (str "tan"));
    reg (str "asin") _ (b_math1 (str "asin")); reg (str "acos") _ (b_math1 (str "acos"));
    reg (str "atan") _ (b_math1 (str "atan")); reg (str "atan2") _ b_atan2;
    reg (str "sqrt") _ b_sqrt ].
Definition colors_list : list bfun :=
  [ reg (str "rgba") _ b_rgba; reg (str "rgb") _ b_rgb; reg (str "hsla") _ b_hsla;
    reg (str "hsl") _ b_hsl; reg (str "hsva") _ b_hsva; reg (str "hsv") _ b_hsv;
    reg (str "r") _ b_r; reg (str "g") _ b_g; reg (str "b") _ b_b; reg (str "a") _ b_a;
    reg (str "luma") _ b_luma; reg (str "hue") _ b_hue; reg (str "saturation") _ b_saturation;
    reg (str "brightness") _ b_hue; reg (str "contrast") _ b_saturation;
    reg (str "cdifference") _ b_cdifference; reg (str "invert") _ b_invert;
    reg (str "alpha") _ b_alpha; reg (str "mix") _ b_mix; reg (str "lighten") _ b_lighten;
    reg (str "darken") _ b_darken; reg (str "saturate") _ b_saturate;
    reg (str "desaturate") _ b_saturate; reg (str "fade") _ b_darken;
    reg (str "complement") _ b_complement; reg (str "contrast_color") _ b_contrast_color;
    reg (str "rainbow_colors") _ b_rainbow_colors ].
Definition strings_list : list bfun :=
  [ reg (str "truncate") _ b_truncate; reg (str "capitalize") _ b_capitalize;
    reg (str "title") _ b_title; reg (str "uppercase") _ b_uppercase;
    reg (str "lowercase") _ b_lowercase; reg (str "split") _ b_split; reg (str "join") _ b_join;
    reg (str "replace") _ b_replace; reg (str "trim") _ b_trim;
    reg (str "trim_start") _ b_trim_start; reg (str "trim_end") _ b_trim_end;
    reg (str "starts_with") _ b_starts_with; reg (str "ends_with") _ b_ends_with;
    reg (str "contains") _ b_contains; reg (str "chars") _ b_chars ].
Definition testing_list : list bfun :=
  [ reg (str "assert") _ b_assert; reg (str "assert_eq") _ b_assert_eq;
    reg (str "assert_ne") _ b_assert_ne; reg (str "unreachable") _ b_unreachable;
    reg (str "panic") _ b_panic; reg (str "todo") _ b_todo ].
Definition std_list : list bfun :=
  core_list ++ math_list ++ colors_list ++ strings_list ++ testing_list.

(** Calling the builtin registered under a name. *)
Definition std_call (name : rstring) (args : list val) : res val :=
  match alookup seqb name std_list with
  | Some f => f args
  | None => Err (EUndefinedBuiltin name)
  end.
End Builtins.
