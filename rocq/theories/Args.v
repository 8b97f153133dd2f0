(** interpreter/src/builtins/mod.rs and macros.rs: how a builtin takes its arguments. *)
From Verif Require Import Base Float NumText Vecc Value.

(** [as f32] (round to nearest even); the result is again an [f64] value. *)
Definition f_to_f32 (a : f64) : f64 :=
  match a with
  | S754_finite s m e => binary_normalize 24 128 (if s then Z.neg m else Z.pos m) e s
  | _ => a
  end.
Definition f32_of_Z (z : Z) : f64 := binary_normalize 24 128 z 0 false.
(** [f64 as i32] *)
Definition f_to_i32 (a : f64) : Z := f_to_int (- 2 ^ 31) (2 ^ 31 - 1) a.

(** mod.rs:101-125: the kinds of parameters. *)
Inductive pkind :=
| PAny | PInt | PInt32 | PU8 | PBool | PFloat | PDouble | PNum | PStr | PColor | PList | PPair
| PRest | PSpecial (id : rstring).

(** macros.rs:11: a parameter is required or optional. *)
Inductive param := Req (k : pkind) | Opt (k : pkind).

Section Args.
Context {Fn : Type} (fi : fn_info Fn).
Notation val := (gvalue Fn).

(** What the body of a builtin gets for a parameter. *)
Definition pty (k : pkind) : Type :=
  match k with
  | PAny => val
  | PInt | PInt32 => Z
  | PU8 => N
  | PBool => bool
  | PFloat | PDouble | PNum => f64
  | PStr => rstring
  | PColor => (N * N * N * N)%type
  | PList | PRest => list val
  | PPair => (val * val)%type
  | PSpecial _ => N
  end.

(** mod.rs:145-158: the next argument. *)
Definition consume (expected : rstring) (args : list val) : res (val * list val) :=
  match args with
  | v :: rest => Ok (v, rest)
  | [] => Err (EBuiltin (str "too litte arguments supplied to builtin, expected `"
                         ++ expected ++ str "`"))
  end.

(** mod.rs:128-131, with the arguments in its order. *)
Definition expected_err {A} (got expected : rstring) : res A := Err (EExpected expected got).

(** mod.rs:160-304: one conversion per kind.  The argument container is the list of the
    arguments not yet taken. *)
Definition convert (k : pkind) (v : val) : res (pty k) :=
  match k return res (pty k) with
  | PAny => Ok v
  | PInt => match v with
            | VInt i => Ok i
            | VFloat f => Ok (f_to_i64 f)
            | _ => expected_err (ntype fi v) (str "int")
            end
  | PInt32 => match v with
              | VInt i => Ok (wrap32 i)
              | VFloat f => Ok (f_to_i32 f)
              | _ => expected_err (ntype fi v) (str "int")
              end
  | PU8 => match v with
           | VInt i => Ok (Z.to_N (Z.max (Z.min i 255) 0))
           | VFloat f => Ok (f_to_u8 (fmax (fmin (fmul f (f_of_Z 255)) (f_of_Z 255)) (f_of_Z 0)))
           | _ => expected_err (ntype fi v) (str "u8")
           end
  | PBool => match v with
             | VBool b => Ok b
             | _ => expected_err (ntype fi v) (str "bool")
             end
  | PFloat => match v with
              | VInt i => Ok (f32_of_Z i)
              | VFloat f => Ok (f_to_f32 f)
              | _ => expected_err (ntype fi v) (str "float")
              end
  | PDouble => match v with
               | VInt i => Ok (f_of_Z i)
               | VFloat f => Ok f
               | _ => expected_err (ntype fi v) (str "float")
               end
  | PNum => match v with
            | VInt i => Ok (f_of_Z i)
            | VFloat f => Ok f
            | _ => expected_err (ntype fi v) (str "num")
            end
  | PStr => match v with
            | VString s => Ok s
            | _ => expected_err (ntype fi v) (str "str")
            end
  | PColor => match v with
              | VColor r g b a => Ok (r, g, b, a)
              | _ => expected_err (ntype fi v) (str "color")
              end
  | PList => match v with
             | VArray l _ _ => Ok l
             | VPair a b => Ok [a; b]
             | _ => expected_err (ntype fi v) (str "list")
             end
  | PPair => match v with
             | VPair a b => Ok (a, b)
             | _ => expected_err (ntype fi v) (str "pair")
             end
  | PRest => Ok [v] (* not used: see [take] *)
  | PSpecial id => match v with
                   | VSpecial n i => if seqb id n then Ok i else expected_err n id
                   | _ => expected_err (ntype fi v) id
                   end
  end.

(** The name each kind passes to [consume]. *)
Definition kind_name (k : pkind) : rstring :=
  match k with
  | PAny => str "any"
  | PInt | PInt32 => str "int"
  | PU8 => str "u8"
  | PBool => str "bool"
  | PFloat | PDouble => str "float"
  | PNum => str "num"
  | PStr => str "str"
  | PColor => str "color"
  | PList => str "list"
  | PPair => str "pair"
  | PRest => []
  | PSpecial id => id
  end.

(** One parameter; [rest] (mod.rs:283-285) takes all arguments that are left. *)
Definition take (k : pkind) (args : list val) : res (pty k * list val) :=
  match k return res (pty k * list val) with
  | PRest => Ok (args, [])
  | k' => let! p := consume (kind_name k') args in
          let! x := convert k' (fst p) in Ok (x, snd p)
  end.

(** mod.rs:134-143 *)
Definition take_opt (k : pkind) (args : list val) : res (option (pty k) * list val) :=
  match args with
  | [] => Ok (None, [])
  | _ => let! p := take k args in Ok (Some (fst p), snd p)
  end.

(** mod.rs:288-299 *)
Definition stop (args : list val) : res unit :=
  match args with
  | v :: _ => Err (EBuiltin (str "too many arguments, got extra " ++ ntype fi v))
  | [] => Ok tt
  end.

(** macros.rs:11-37: the type of the body, and the generated function. *)
Fixpoint sig (ps : list param) : Type :=
  match ps with
  | [] => res val
  | Req k :: t => pty k -> sig t
  | Opt k :: t => option (pty k) -> sig t
  end.
Fixpoint call (ps : list param) : sig ps -> list val -> res val :=
  match ps return sig ps -> list val -> res val with
  | [] => fun body args => let! _ := stop args in body
  | Req k :: t => fun body args => let! p := take k args in call t (body (fst p)) (snd p)
  | Opt k :: t => fun body args => let! p := take_opt k args in call t (body (fst p)) (snd p)
  end.
End Args.
