(** Specifications of the standard builtins, written without the model's helpers. *)
From Verif Require Import Base Float Value Args SpecArith.

(** ** Arguments (C44) *)

(** The whole part of a finite float, and its conversion to an integer in [lo..hi]: the
    fraction is dropped, values outside are limited, NaN gives 0. *)
Definition whole_part (f : f64) (q : Z) : Prop :=
  match f with
  | S754_zero _ => q = 0
  | S754_finite s p e =>
      exists n, 0 <= n /\
        n * 2 ^ Z.max 0 (- e) <= Z.pos p * 2 ^ Z.max 0 e < (n + 1) * 2 ^ Z.max 0 (- e) /\
        q = if s then - n else n
  | _ => False
  end%Z.
Definition float_to_int (lo hi : Z) (f : f64) (z : Z) : Prop :=
  match f with
  | S754_nan => z = 0
  | S754_infinity s => z = if s then lo else hi
  | _ => exists q, whole_part f q /\ z = Z.max lo (Z.min hi q)
  end%Z.

Section Spec.
Context {Fn : Type} (fi : fn_info Fn).
Notation val := (gvalue Fn).

(** [accepts k v x]: a parameter of kind [k] takes the value [v] and receives [x]. *)
Definition accepts (k : pkind) (v : val) : @pty Fn k -> Prop :=
  match k return pty k -> Prop with
  | PAny => fun x => x = v
  | PInt => fun x => match v with
                     | VInt i => x = i
                     | VFloat f => float_to_int (- 2 ^ 63) (2 ^ 63 - 1) f x
                     | _ => False
                     end
  | PInt32 => fun x => match v with
                       | VInt i => (- 2 ^ 31 <= x < 2 ^ 31)%Z /\ exists q, x = (i + q * 2 ^ 32)%Z
                       | VFloat f => float_to_int (- 2 ^ 31) (2 ^ 31 - 1) f x
                       | _ => False
                       end
  | PU8 => fun x => match v with
                    | VInt i => Z.of_N x = clamp255 i
                    | VFloat f =>
                        let y := fmul f (f_of_Z 255) in
                        if is_nan y then x = 255%N
                        else if fltb y (f_of_Z 0) then x = 0%N
                        else if fltb (f_of_Z 255) y then x = 255%N
                        else float_to_int 0 255 y (Z.of_N x)
                    | _ => False
                    end
  | PBool => fun x => v = VBool x
  | PFloat => fun x => match v with
                       | VInt i => x = f32_of_Z i
                       | VFloat f => x = f_to_f32 f
                       | _ => False
                       end
  | PDouble | PNum => fun x => match v with
                               | VInt i => x = f_of_Z i
                               | VFloat f => x = f
                               | _ => False
                               end
  | PStr => fun x => v = VString x
  | PColor => fun x => let '(r, g, b, a) := x in v = VColor r g b a
  | PList => fun x => (exists s mx, v = VArray x s mx) \/ exists a b, v = VPair a b /\ x = [a; b]
  | PPair => fun x => v = VPair (fst x) (snd x)
  | PRest => fun _ => False
  | PSpecial id => fun x => v = VSpecial id x
  end.

(** [arg k args x rest]: the next parameter receives [x]; [rest] is left for the others.
    A parameter of kind [PRest] takes everything. *)
Definition arg (k : pkind) (args : list val) (x : pty k) (rest : list val) : Prop :=
  match k return pty k -> Prop with
  | PRest => fun x => x = args /\ rest = []
  | k' => fun x => exists v, args = v :: rest /\ accepts k' v x
  end x.

(** [matches ps body args r]: the arguments fit the parameters, and the body applied to
    what they receive is [r]. *)
Fixpoint matches (ps : list param) : sig ps -> list val -> res val -> Prop :=
  match ps return sig ps -> list val -> res val -> Prop with
  | [] => fun body args r => args = [] /\ r = body
  | Req k :: t => fun body args r =>
      exists x rest, arg k args x rest /\ matches t (body x) rest r
  | Opt k :: t => fun body args r =>
      args = [] /\ matches t (body None) [] r \/
      args <> [] /\ exists x rest, arg k args x rest /\ matches t (body (Some x)) rest r
  end.

Definition too_few (k : pkind) : error :=
  EBuiltin (str "too litte arguments supplied to builtin, expected `" ++ kind_name k ++ str "`").
Definition too_many (v : val) : error :=
  EBuiltin (str "too many arguments, got extra " ++ ntype fi v).
Definition wrong_type (k : pkind) (v : val) : error := EExpected (kind_name k) (ntype fi v).

(** [misfit ps args e]: the first thing wrong with the arguments, from left to right. *)
Fixpoint misfit (ps : list param) (args : list val) (e : error) : Prop :=
  match ps with
  | [] => exists v rest, args = v :: rest /\ e = too_many v
  | Req k :: t =>
      (k <> PRest /\ args = [] /\ e = too_few k) \/
      (k <> PRest /\ exists v rest, args = v :: rest /\ (forall x, ~ accepts k v x) /\ e = wrong_type k v) \/
      (exists x rest, arg k args x rest /\ misfit t rest e)
  | Opt k :: t =>
      (k <> PRest /\ exists v rest, args = v :: rest /\ (forall x, ~ accepts k v x) /\ e = wrong_type k v) \/
      (args = [] /\ misfit t [] e) \/
      (args <> [] /\ exists x rest, arg k args x rest /\ misfit t rest e)
  end.

(** ** Lists *)

(** What a list parameter sees of a value. *)
Definition items_of (v : val) : option (list val) :=
  match v with
  | VArray l _ _ => Some l
  | VPair a b => Some [a; b]
  | _ => None
  end.
Definition total_size (l : list val) : N := fold_right (fun x n => (get_size x + n)%N) 0%N l.
End Spec.

(** [replaced l i x l']: [l'] is [l] with the element at index [i] replaced by [x]. *)
Definition replaced {A} (l : list A) (i : Z) (x : A) (l' : list A) : Prop :=
  exists pre y post, l = pre ++ y :: post /\ l' = pre ++ x :: post /\
    (Z.of_nat (length pre) = i \/ Z.of_nat (length pre) = Z.of_nat (length l) + i)%Z.

(** The position a slice bound denotes. *)
Definition position (len bound : Z) : Z := if (bound <? 0)%Z then (len + bound)%Z else bound.

(** [part l a b l']: [l'] are the elements at positions [a..b-1] of [l]. *)
Definition part {A} (l : list A) (a b : Z) (l' : list A) : Prop :=
  exists pre post, l = pre ++ l' ++ post /\ Z.of_nat (length pre) = a /\ Z.of_nat (length l') = (b - a)%Z.

(** ** Strings *)

(** The pieces of a list of strings put together with [sep] between them. *)
Inductive joined (sep : rstring) : list rstring -> rstring -> Prop :=
| j_nil : joined sep [] []
| j_one s : joined sep [s] s
| j_more s l t : l <> [] -> joined sep l t -> joined sep (s :: l) (s ++ sep ++ t).

Definition occurs (pat s : rstring) : Prop := exists a b, s = a ++ pat ++ b.

Definition ascii (s : rstring) : Prop := Forall (fun c => (c < 128)%N) s.
