(** qstd/src/io.rs, time.rs, and the functions of math.rs and colors.rs whose results come
    from outside the program: random numbers and @hash. *)
From Verif Require Import Base Float NumText Vecc Value Ast Arith VmOps Args Builtins Compiler Vm Std.

(** ** The world outside

    What a value feeds to a hasher (value.rs:158-183, vecc.rs:80-88): bytes, the bits of
    floats and texts.  Numbers are fed as their bytes, the lowest first; their type leaves no
    trace.  Simplification: the bits of a float are one item, the float, so NaN payloads are
    not seen; a text, with the byte the standard library puts behind it, is one item. *)
Inductive hitem := HByte (n : N) | HBits (f : f64) | HStr (s : rstring).
Fixpoint le_bytes (k : nat) (z : Z) : list hitem :=
  match k with O => [] | S k => HByte (Z.to_N (z mod 256)) :: le_bytes k (z / 256) end.
Definition hu8 (n : N) : list hitem := le_bytes 1 (Z.of_N n).
Definition hi32 (z : Z) : list hitem := le_bytes 4 z.
Definition hi64 (z : Z) : list hitem := le_bytes 8 z.
Definition husize (n : N) : list hitem := le_bytes 8 (Z.of_N n).

(** What was written to the standard output, the lines that can still be read ([None]: a
    line that is not text), the files by name (contents, or why not), the clock by the number
    of the reading (seconds and nanoseconds since the epoch; [None]: before the epoch), the
    random numbers and floats by the number of the draw, and [DefaultHasher] as a function.
    Simplification: the standard output always takes what is written. *)
Record world := mkWorld {
  w_out : rstring;
  w_in : list (option rstring);
  w_file : rstring -> rstring + rstring;
  w_clock : nat -> option (N * N); w_reads : nat;
  w_rand : nat -> N; w_float : nat -> f64; w_draws : nat;
  w_hash : list hitem -> N }.

Definition say (t : rstring) (w : world) : world :=
  mkWorld (w_out w ++ t) (w_in w) (w_file w) (w_clock w) (w_reads w) (w_rand w) (w_float w)
          (w_draws w) (w_hash w).
Definition put_in (l : list (option rstring)) (w : world) : world :=
  mkWorld (w_out w) l (w_file w) (w_clock w) (w_reads w) (w_rand w) (w_float w) (w_draws w) (w_hash w).
(** [SystemTime::now().duration_since(UNIX_EPOCH)] *)
Definition read_clock (w : world) : option (N * N) * world :=
  (w_clock w (w_reads w),
   mkWorld (w_out w) (w_in w) (w_file w) (w_clock w) (S (w_reads w)) (w_rand w) (w_float w)
           (w_draws w) (w_hash w)).
Definition drawn (w : world) : world :=
  mkWorld (w_out w) (w_in w) (w_file w) (w_clock w) (w_reads w) (w_rand w) (w_float w)
          (S (w_draws w)) (w_hash w).
(** A random number below [n].  Simplification: the generator of the rand crate gives some
    number of the range; which one, and how often it draws, is left open. *)
Definition draw_below (n : N) (w : world) : N * world := ((w_rand w (w_draws w) mod n)%N, drawn w).
(** A random float from [lo] to below [hi]. *)
Definition draw_float (lo hi : f64) (w : world) : f64 * world :=
  let x := w_float w (w_draws w) in (if fleb lo x && fltb x hi then x else lo, drawn w).

Section Console.
Context {Fn : Type} (o : oracle) (fi : fn_info Fn) (fhash : Fn -> res (list hitem)).
Notation val := (gvalue Fn).

(** macros.rs:11-37, for bodies that reach outside. *)
Fixpoint wsig (ps : list param) : Type :=
  match ps with
  | [] => world -> world * res val
  | Req k :: t => @pty Fn k -> wsig t
  | Opt k :: t => option (@pty Fn k) -> wsig t
  end.
Fixpoint wcall (ps : list param) : wsig ps -> list val -> world -> world * res val :=
  match ps return wsig ps -> list val -> world -> world * res val with
  | [] => fun body args w =>
      match stop fi args with Ok _ => body w | Err e => (w, Err e) | Panic => (w, Panic) end
  | Req k :: t => fun body args w =>
      match take fi k args with
      | Ok p => wcall t (body (fst p)) (snd p) w | Err e => (w, Err e) | Panic => (w, Panic)
      end
  | Opt k :: t => fun body args w =>
      match take_opt fi k args with
      | Ok p => wcall t (body (fst p)) (snd p) w | Err e => (w, Err e) | Panic => (w, Panic)
      end
  end.

(** ** qstd/src/io.rs *)

(** io.rs:12-14, 21-23, 32-34: [print!("{} ", arg)] for every argument. *)
Definition spaced (l : list val) : rstring := flat_map (fun v => display o fi v ++ [32%N]) l.
(** io.rs:11-17 *)
Definition b_println : wsig [Req PRest] := fun l w => (say (spaced l ++ [10%N]) w, Ok VNone).
(** io.rs:20-25 *)
Definition b_print : wsig [Req PRest] := fun l w => (say (spaced l) w, Ok VNone).
(** io.rs:28-38; 27 is the escape character. *)
Definition b_debug : wsig [Req PRest] := fun l w =>
  (say (27%N :: str "[38;5;208mDEBUG: " ++ spaced l ++ 27%N :: str "[0m" ++ [10%N]) w, Ok VNone).
(** io.rs:41-53.  [read_line] gives an empty line at the end of the input. *)
Definition b_input : wsig [Req PStr] := fun prompt w =>
  let w := say prompt w in
  match w_in w with
  | [] => (w, Ok (VString []))
  | Some l :: t => (put_in t w, Ok (VString (trim_both (o_whitespace o) l)))
  | None :: t => (put_in t w, err_msg (str "could not read input"))
  end.
(** io.rs:56-61 *)
Definition b_readfile : wsig [Req PStr] := fun path w =>
  (w, match w_file w path with
      | inl text => Ok (VString text)
      | inr e => err_msg (str "could not read file: " ++ e)
      end).

(** ** qstd/src/time.rs *)

(** time.rs:9-15, [Duration::as_secs_f64] *)
Definition b_now : wsig [] := fun w =>
  let (t, w) := read_clock w in
  (w, match t with
      | Some (s, n) => Ok (VFloat (fadd (fN s) (fdiv (fN n) (f_of_Z (10 ^ 9)))))
      | None => err_msg (str "failed to get time")
      end).
(** time.rs:25-38 *)
Definition date_text (secs : N) : rstring :=
  let mins := (secs / 60)%N in
  let hours := (mins / 60)%N in
  let days := (hours / 24)%N in
  let year := (1970 + days / 365)%N in
  let month := (days mod 365 / 30)%N in
  let day := (days mod 365 mod 30)%N in
  let hour := (hours mod 24)%N in
  let minute := (mins mod 60)%N in
  let sec := (secs mod 60)%N in
  let t n := int_text (Z.of_N n) in
  t year ++ str "-" ++ t month ++ str "-" ++ t day ++ str " " ++ t hour ++ str ":" ++ t minute
  ++ str ":" ++ t sec.
(** time.rs:18-41 *)
Definition b_date : wsig [] := fun w =>
  let (t, w) := read_clock w in
  (w, match t with
      | Some (s, _) => Ok (VString (date_text s))
      | None => err_msg (str "failed to get time")
      end).

(** ** Random numbers *)

(** math.rs:189-197 *)
Definition b_random : wsig [] := fun w =>
  let (x, w) := draw_float fzero f1 w in (w, Ok (VFloat x)).
Definition b_randbool : wsig [] := fun w =>
  let (n, w) := draw_below 2 w in (w, Ok (VBool (n =? 1)%N)).
(** math.rs:200-206 *)
Definition b_randint : wsig [Req PInt; Req PInt] := fun start end_ w =>
  if (end_ <=? start)%Z then (w, err_msg (str "start must be less than end"))
  else let (n, w) := draw_below (Z.to_N (end_ - start)) w in (w, Ok (VInt (start + Z.of_N n))).
(** math.rs:209-215.  [gen_range] panics when the range is empty (an end is not a number) or
    its length is not finite. *)
Definition f_finite (x : f64) : bool :=
  match x with S754_zero _ | S754_finite _ _ _ => true | _ => false end.
Definition b_randfloat : wsig [Req PDouble; Req PDouble] := fun start end_ w =>
  if fleb end_ start then (w, err_msg (str "start must be less than end"))
  else if fltb start end_ && f_finite (fsub end_ start)
  then let (x, w) := draw_float start end_ w in (w, Ok (VFloat x))
  else (w, Panic).
(** math.rs:218-226 *)
Definition b_randchoice : wsig [Req PList] := fun l w =>
  match l with
  | [] => (w, err_msg (str "list must not be empty"))
  | _ => let (n, w) := draw_below (N.of_nat (length l)) w in
         (w, match nth_error l (N.to_nat n) with Some v => Ok v | None => Panic end)
  end.
(** [wide & 0xFF], [(wide >> 8) & 0xFF], [(wide >> 16) & 0xFF] *)
Definition byte_at (k wide : N) : N := (N.shiftr wide k mod 256)%N.
(** colors.rs:195-202 *)
Definition b_random_color : wsig [] := fun w =>
  let (d, w) := draw_below (2 ^ 32) w in
  (w, Ok (VColor (byte_at 0 d) (byte_at 8 d) (byte_at 16 d) 255)).
(** colors.rs:207-209; 127.5 is 255/2. *)
Definition pastel (n : N) : N := f_to_u8 (fadd (fmul (fN n) fhalf) (fdiv f255 (f_of_Z 2))).
(** colors.rs:205-212 *)
Definition b_random_pastel_color : wsig [] := fun w =>
  let (d, w) := draw_below (2 ^ 32) w in
  (w, Ok (VColor (pastel (byte_at 0 d)) (pastel (byte_at 8 d)) (pastel (byte_at 16 d)) 255)).
(** colors.rs:215-218 *)
Definition b_random_rainbow_color : wsig [] := fun w =>
  let (d, w) := draw_below (2 ^ 64) w in
  (w, match nth_error rainbow (N.to_nat (d mod 10)) with Some v => Ok v | None => Panic end).

(** ** @hash *)

(** value.rs:158-183; an array is hashed with its size and limit (derived, vecc.rs:80-88). *)
Fixpoint hash_items (v : val) : res (list hitem) :=
  match v with
  | VNone => Ok (hi32 0)
  | VBool b => Ok (hu8 (if b then 1 else 0))
  | VInt i => Ok (hi64 i)
  | VFloat f => Ok [HBits f]
  | VRange a b => Ok (hi32 a ++ hi32 b)
  | VColor r g b a => Ok (husize 4 ++ hu8 r ++ hu8 g ++ hu8 b ++ hu8 a)
  | VString s => Ok [HStr s]
  | VSpecial n i => Ok (HStr n :: husize i)
  | VArray l size mx =>
      let! items := (fix go (l : list val) : res (list hitem) :=
        match l with
        | [] => Ok []
        | x :: t => let! a := hash_items x in let! b := go t in Ok (a ++ b)
        end) l in
      Ok (husize (N.of_nat (length l)) ++ items ++ husize size ++ husize mx)
  | VLoopCtx i => Ok (husize i)
  | VPair a b => let! x := hash_items a in let! y := hash_items b in Ok (x ++ y)
  | VFn f => fhash f
  end.
(** math.rs:42-60 *)
Definition b_hash : wsig [Req PAny] := fun arg w =>
  (w, match arg with
      | VSpecial _ _ | VArray _ _ _ | VLoopCtx _ | VFn _ => Err (ECannotHash (ntype fi arg))
      | _ => let! items := hash_items arg in Ok (VInt (Z.of_N (w_hash w items mod 2 ^ 31)))
      end).

(** ** Registration: qstd/src/lib.rs:19-39 *)
Definition wfun := (rstring * (list val -> world -> world * res val))%type.
Definition wreg (name : rstring) (ps : list param) (f : wsig ps) : wfun := (name, wcall ps f).
Definition io_list : list wfun :=
  [ wreg (str "println") _ b_println; wreg (str "print") _ b_print; wreg (str "debug") _ b_debug;
    wreg (str "input") _ b_input; wreg (str "readfile") _ b_readfile ].
Definition time_list : list wfun := [ wreg (str "now") _ b_now; wreg (str "date") _ b_date ].
Definition random_list : list wfun :=
  [ wreg (str "random") _ b_random; wreg (str "randbool") _ b_randbool;
    wreg (str "randint") _ b_randint; wreg (str "randfloat") _ b_randfloat;
    wreg (str "randchoice") _ b_randchoice; wreg (str "random_color") _ b_random_color;
    wreg (str "random_pastel_color") _ b_random_pastel_color;
    wreg (str "random_rainbow_color") _ b_random_rainbow_color ].
Definition console_list : list wfun :=
  io_list ++ time_list ++ random_list ++ [ wreg (str "hash") _ b_hash ].

(** Calling the builtin registered under a name. *)
Definition console_call (name : rstring) (args : list val) (w : world) : world * res val :=
  match alookup seqb name console_list with
  | Some f => f args w
  | None => (w, Err (EUndefinedBuiltin name))
  end.
End Console.

(** lib.rs:33-39: everything the command line gives to a program.  [feq] compares callables
    and [fhash] hashes them; a builtin does not see the machine, so both are left open. *)
Definition console (orc : oracle) (fhash : mfn -> res (list hitem)) : list (rstring * builtin world) :=
  map (fun b => (fst b, BFn (fun w args _ => console_call orc mfi fhash (fst b) args w)))
      (console_list orc mfi fhash).
Definition stdio (m : mode) (orc : oracle) feq fhash : list (rstring * builtin world) :=
  std m orc feq ++ console orc fhash.
