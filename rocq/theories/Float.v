(** Binary64 numbers and the float operations of the Rust standard library that
    the interpreter uses.  IEEE arithmetic is Coq's [SpecFloat] at precision 53 and
    maximal exponent 1024 (round to nearest, ties to even), as on every target
    Rust supports.  Simplification: all NaNs are one value (payload and sign of a
    NaN are not modelled). *)
From Coq Require Export SpecFloat.
From Verif Require Import Base.

Definition f64 := spec_float.
Definition fprec : Z := 53.
Definition femax : Z := 1024.

Definition fadd (a b : f64) : f64 := SFadd fprec femax a b.
Definition fsub (a b : f64) : f64 := SFsub fprec femax a b.
Definition fmul (a b : f64) : f64 := SFmul fprec femax a b.
Definition fdiv (a b : f64) : f64 := SFdiv fprec femax a b.
Definition fneg (a : f64) : f64 := SFopp a.
Definition fabs (a : f64) : f64 := SFabs a.
Definition fsqrt (a : f64) : f64 := SFsqrt fprec femax a.
(** [==], [<], [<=] of f64: false as soon as one side is NaN; -0.0 == 0.0. *)
Definition feqb (a b : f64) : bool := SFeqb a b.
Definition fltb (a b : f64) : bool := SFltb a b.
Definition fleb (a b : f64) : bool := SFleb a b.
Definition fzero : f64 := S754_zero false.
Definition is_nan (a : f64) : bool := match a with S754_nan => true | _ => false end.

(** [i64 as f64] (round to nearest even); also used for literals. *)
Definition f_of_Z (z : Z) : f64 := binary_normalize fprec femax z 0 false.

(** Exact integer value of the truncation of a finite float. *)
Definition f_trunc_Z (a : f64) : Z :=
  match a with
  | S754_finite s m e =>
      let v := (if (0 <=? e)%Z then Z.pos m * 2 ^ e else Z.pos m / 2 ^ (- e))%Z in
      if s then (- v)%Z else v
  | _ => 0%Z
  end.

(** [f64 as i64] and the like: truncation, saturating, NaN gives 0. *)
Definition f_to_int (lo hi : Z) (a : f64) : Z :=
  match a with
  | S754_nan => 0
  | S754_zero _ => 0
  | S754_infinity s => if s then lo else hi
  | S754_finite _ _ _ => Z.max lo (Z.min hi (f_trunc_Z a))
  end%Z.
Definition f_to_i64 (a : f64) : Z := f_to_int i64_min i64_max a.
Definition f_to_u8 (a : f64) : N := Z.to_N (f_to_int 0 255 a).

(** f64::floor, ceil and round (half away from zero); the sign of a zero result
    is the sign of the argument. *)
Definition f_integral (up : Z -> Z -> Z) (a : f64) : f64 :=
  match a with
  | S754_finite s m e =>
      if (0 <=? e)%Z then a
      else let d := (2 ^ (- e))%Z in
           let q := up (if s then - Z.pos m else Z.pos m)%Z d in
           if (q =? 0)%Z then S754_zero s else binary_normalize fprec femax q 0 s
  | _ => a
  end.
Definition f_floor := f_integral (fun n d => n / d)%Z.
Definition f_ceil := f_integral (fun n d => - ((- n) / d))%Z.
Definition f_round := f_integral (fun n d => if (n <? 0)%Z then - ((2 * - n + d) / (2 * d))
                                             else (2 * n + d) / (2 * d))%Z.

(** [a % b] of f64 (C fmod): exact, sign of the dividend. *)
Definition fmod (a b : f64) : f64 :=
  match a, b with
  | S754_nan, _ | _, S754_nan | S754_infinity _, _ | _, S754_zero _ => S754_nan
  | S754_zero s, _ => S754_zero s
  | _, S754_infinity _ => a
  | S754_finite s m e, S754_finite _ m' e' =>
      let e0 := Z.min e e' in
      let x := (Z.pos m * 2 ^ (e - e0))%Z in
      let y := (Z.pos m' * 2 ^ (e' - e0))%Z in
      let r := (x mod y)%Z in
      if (r =? 0)%Z then S754_zero s
      else binary_normalize fprec femax (if s then - r else r) e0 s
  end.

(** f64::min / f64::max: a NaN operand is ignored.  For zeros of both signs the
    standard library leaves the choice open; the model returns the first. *)
Definition fmin (a b : f64) : f64 :=
  if is_nan a then b else if is_nan b then a else if fltb b a then b else a.
Definition fmax (a b : f64) : f64 :=
  if is_nan a then b else if is_nan b then a else if fltb a b then b else a.

(** Bit-for-bit comparison (f64::to_bits). *)
Definition fbits_eqb (a b : f64) : bool :=
  match a, b with
  | S754_zero s, S754_zero s' => Bool.eqb s s'
  | S754_infinity s, S754_infinity s' => Bool.eqb s s'
  | S754_nan, S754_nan => true
  | S754_finite s m e, S754_finite s' m' e' =>
      Bool.eqb s s' && (m =? m')%positive && (e =? e')%Z
  | _, _ => false
  end.

Lemma fbits_eqb_eq a b : fbits_eqb a b = true <-> a = b.
Proof.
  destruct a as [s|s| |s m e], b as [s'|s'| |s' m' e']; cbn; try (split; congruence);
    rewrite ?andb_true_iff, ?Bool.eqb_true_iff, ?Pos.eqb_eq, ?Z.eqb_eq.
  - split; congruence.
  - split; congruence.
  - split; [intros [[-> ->] ->] | intros [= -> -> ->]]; auto.
Qed.

(** Operations of the standard library that are not modelled in Gallina: decimal
    formatting and parsing of floats and the C math library.  They are arbitrary
    functions everywhere in the model; no theorem assumes anything about them
    beyond being functions. *)
Record oracle := mkOracle {
  o_f64_text : f64 -> rstring;                 (** [f64::to_string] *)
  o_f64_parse : rstring -> option f64;         (** [str::parse::<f64>] *)
  o_powf : f64 -> f64 -> f64;                  (** [f64::powf] *)
  o_math : rstring -> list f64 -> f64;         (** log10, log2, sin, ... by name *)
  o_char_lower : N -> rstring;                 (** [char::to_lowercase] *)
  o_char_upper : N -> rstring;                 (** [char::to_uppercase] *)
  o_whitespace : N -> bool                     (** [char::is_whitespace] *)
}.
