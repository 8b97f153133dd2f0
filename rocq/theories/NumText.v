(** Text of integers: [i64::to_string], the radix formats and parsing
    (standard library behaviour used by value.rs, qstd/src/core.rs and parser.rs). *)
From Verif Require Import Base.

(** Digit [d] (0-35) as a lower-case character. *)
Definition digit_char (d : N) : N := (if d <? 10 then 48 + d else 87 + d)%N.

(** [char::to_digit]: 0-9, a-z, A-Z below the radix. *)
Definition char_digit (radix c : N) : option N :=
  let d := (if (48 <=? c) && (c <=? 57) then c - 48
            else if (97 <=? c) && (c <=? 122) then c - 87
            else if (65 <=? c) && (c <=? 90) then c - 55
            else 99)%N in
  if (d <? radix)%N then Some d else None.

(** Digits of [n] in the given radix, most significant first. *)
Fixpoint radix_go (fuel : nat) (radix n : N) (acc : rstring) : rstring :=
  match fuel with
  | O => acc
  | S fuel' =>
      let acc' := digit_char (n mod radix)%N :: acc in
      if (n / radix =? 0)%N then acc' else radix_go fuel' radix (n / radix)%N acc'
  end.
Definition radix_text (radix n : N) : rstring := radix_go (S (N.to_nat (N.size n))) radix n [].

(** [i64::to_string]. *)
Definition int_text (z : Z) : rstring :=
  if (z <? 0)%Z then 45%N :: radix_text 10 (Z.to_N (- z)) else radix_text 10 (Z.to_N z).

(** Digits to number, most significant first. *)
Fixpoint digits_val (radix : N) (acc : N) (s : rstring) : option N :=
  match s with
  | [] => Some acc
  | c :: t => match char_digit radix c with
              | Some d => digits_val radix (acc * radix + d)%N t
              | None => None
              end
  end.

(** The optional sign of [from_str_radix]. *)
Definition split_sign (s : rstring) : bool * rstring :=
  match s with
  | c :: t => if (c =? 45)%N then (true, t) else if (c =? 43)%N then (false, t) else (false, s)
  | [] => (false, s)
  end.

(** [i64::from_str_radix] (and [str::parse::<i64>] for radix 10): an optional sign,
    at least one digit, no overflow. *)
Definition parse_int (lo hi : Z) (radix : N) (s : rstring) : option Z :=
  let '(neg, ds) := split_sign s in
  match ds with
  | [] => None
  | _ => match digits_val radix 0 ds with
         | Some n => let z := (if (neg : bool) then - Z.of_N n else Z.of_N n)%Z in
                     if ((lo <=? z) && (z <=? hi))%Z then Some z else None
         | None => None
         end
  end.
Definition parse_i64 (radix : N) (s : rstring) : option Z := parse_int i64_min i64_max radix s.
Definition parse_i32 (radix : N) (s : rstring) : option Z :=
  parse_int (- 2 ^ 31) (2 ^ 31 - 1) radix s.
