(** The functions of Console.v as the direct evaluation of programs knows them: the same
    functions of values.  What a function hashes to is left open there. *)
From Verif Require Import Base Float NumText Value Ast Arith VmOps Args Builtins Compiler Vm Console SpecEval SpecStd.

Definition console_direct (orc : oracle) : list (rstring * sbuiltin (D := world)) :=
  map (fun b => (fst b, SFn (fun w args (_ : options) => console_call orc sfi (fun _ => Panic) (fst b) args w)))
      (console_list orc sfi (fun _ => Panic)).
Definition stdio_known (m : mode) (orc : oracle) : rstring -> option (sbuiltin (D := world)) :=
  fold_left with_builtin (std_direct m orc ++ console_direct orc) (fun _ => None).

(** ** The world (C70, C71) *)

(** Everything but the output, and but the input, is the same. *)
Definition same_but_output (w w' : world) : Prop :=
  w_in w' = w_in w /\ w_file w' = w_file w /\ w_clock w' = w_clock w /\ w_reads w' = w_reads w /\
  w_rand w' = w_rand w /\ w_float w' = w_float w /\ w_draws w' = w_draws w /\ w_hash w' = w_hash w.
(** [w'] comes after [w]: more was written behind what was written before, and the lines
    still to be read are the last ones of those that were. *)
Definition after (w w' : world) : Prop :=
  (exists t, w_out w' = w_out w ++ t) /\ (exists l, w_in w = l ++ w_in w') /\ w_file w' = w_file w.
(** Each text followed by a space. *)
Fixpoint with_spaces (ts : list rstring) : rstring :=
  match ts with [] => [] | t :: r => t ++ str " " ++ with_spaces r end.
(** [t] is [s] without the characters of [p] at its ends. *)
Definition trimmed (p : N -> bool) (s t : rstring) : Prop :=
  exists a b, s = a ++ t ++ b /\
    Forall (fun c => p c = true) a /\ Forall (fun c => p c = true) b /\
    (forall c r, t = c :: r -> p c = false) /\ (forall c r, t = r ++ [c] -> p c = false).

(** ** The calendar (C72) *)
Definition leap (y : N) : bool :=
  ((y mod 4 =? 0) && negb (y mod 100 =? 0) || (y mod 400 =? 0))%N.
Definition month_days (y : N) : list N :=
  [31; if leap y then 29 else 28; 31; 30; 31; 30; 31; 31; 30; 31; 30; 31]%N.
Definition sum (l : list N) : N := fold_right N.add 0%N l.
(** Day [d] of month [m] (from 1) of the year [y] is [n] days after 1 January 1970. *)
Definition calendar (n y m d : N) : Prop :=
  exists k, (y = 1970 + N.of_nat k)%N /\ (1 <= m <= 12)%N /\
    (1 <= d <= nth (N.to_nat m - 1) (month_days y) 0)%N /\
    n = (sum (map (fun i => sum (month_days (1970 + N.of_nat i))) (List.seq 0 k))
         + sum (firstn (N.to_nat m - 1) (month_days y)) + (d - 1))%N.
(** [h]:[m]:[s] is the time of day [t] seconds after midnight. *)
Definition clock_time (t h m s : N) : Prop :=
  (h < 24 /\ m < 60 /\ s < 60 /\ t = 3600 * h + 60 * m + s)%N.

(** ** @hash (C74) *)
(** No zero float, array, callable or loop inside. *)
Inductive plainly_hashed {Fn} : gvalue Fn -> Prop :=
| ph_none : plainly_hashed VNone
| ph_bool b : plainly_hashed (VBool b)
| ph_int z : plainly_hashed (VInt z)
| ph_float f : feqb f fzero = false -> plainly_hashed (VFloat f)
| ph_range a b : plainly_hashed (VRange a b)
| ph_color r g b a : plainly_hashed (VColor r g b a)
| ph_string s : plainly_hashed (VString s)
| ph_pair a b : plainly_hashed a -> plainly_hashed b -> plainly_hashed (VPair a b).
(** The [k] bytes of a number, the least first. *)
Definition little (k : nat) (z : Z) (l : list hitem) : Prop :=
  exists bs, l = map HByte bs /\ length bs = k /\ Forall (fun b => (b < 256)%N) bs /\
             fold_right (fun b n => Z.of_N b + 256 * n)%Z 0%Z bs = (z mod 2 ^ (8 * Z.of_nat k))%Z.
(** What the hasher is fed with for a value: numbers by their bytes, the four parts of a colour
    behind their number, the two parts of a pair one after the other. *)
Inductive fed {Fn} : gvalue Fn -> list hitem -> Prop :=
| fe_none l : little 4 0 l -> fed VNone l
| fe_false l : little 1 0 l -> fed (VBool false) l
| fe_true l : little 1 1 l -> fed (VBool true) l
| fe_int z l : little 8 z l -> fed (VInt z) l
| fe_float f : fed (VFloat f) [HBits f]
| fe_range a b l k : little 4 a l -> little 4 b k -> fed (VRange a b) (l ++ k)
| fe_color r g b a n l0 l1 l2 l3 : little 8 4 n -> little 1 (Z.of_N r) l0 -> little 1 (Z.of_N g) l1 -> little 1 (Z.of_N b) l2 ->
    little 1 (Z.of_N a) l3 -> fed (VColor r g b a) (n ++ l0 ++ l1 ++ l2 ++ l3)
| fe_string s : fed (VString s) [HStr s]
| fe_pair a b l k : fed a l -> fed b k -> fed (VPair a b) (l ++ k).
