(** interpreter/src/value.rs: values, functions and closures. *)
From Verif Require Import Base Float NumText Vecc RleVec Bytecode Chunk.

(** value.rs:57-78.  One type for the machine's values and for the values of the
    reference semantics: [Fn] is the type of callable values.  [Rc] sharing is
    not modelled (values are immutable once built; only upvalue cells are shared
    and those live in an explicit heap).  An array is a [Vecc]: items, recorded
    size, maximal size. *)
Inductive gvalue (Fn : Type) : Type :=
| VNone
| VBool (b : bool)
| VInt (z : Z)
| VFloat (f : f64)
| VRange (a b : Z)
| VColor (r g b a : N)
| VString (s : rstring)
| VSpecial (name : rstring) (id : N)
| VArray (data : list (gvalue Fn)) (size max : N)
| VLoopCtx (i : N)
| VPair (a b : gvalue Fn)
| VFn (f : Fn).
Arguments VNone {Fn}.
Arguments VBool {Fn} b.
Arguments VInt {Fn} z.
Arguments VFloat {Fn} f.
Arguments VRange {Fn} a b.
Arguments VColor {Fn} r g b a.
Arguments VString {Fn} s.
Arguments VSpecial {Fn} name id.
Arguments VArray {Fn} data size max.
Arguments VLoopCtx {Fn} i.
Arguments VPair {Fn} a b.
Arguments VFn {Fn} f.

Section GInd.
  Context {Fn : Type} (P : gvalue Fn -> Prop).
  Hypothesis HNone : P VNone.
  Hypothesis HBool : forall b, P (VBool b).
  Hypothesis HInt : forall z, P (VInt z).
  Hypothesis HFloat : forall f, P (VFloat f).
  Hypothesis HRange : forall a b, P (VRange a b).
  Hypothesis HColor : forall r g b a, P (VColor r g b a).
  Hypothesis HString : forall s, P (VString s).
  Hypothesis HSpecial : forall n i, P (VSpecial n i).
  Hypothesis HArray : forall l s m, Forall P l -> P (VArray l s m).
  Hypothesis HLoop : forall i, P (VLoopCtx i).
  Hypothesis HPair : forall a b, P a -> P b -> P (VPair a b).
  Hypothesis HFn : forall f, P (VFn f).

  (** Induction over values, through arrays. *)
  Fixpoint gvalue_rect' (v : gvalue Fn) : P v :=
    match v with
    | VNone => HNone
    | VBool b => HBool b
    | VInt z => HInt z
    | VFloat f => HFloat f
    | VRange a b => HRange a b
    | VColor r g b a => HColor r g b a
    | VString s => HString s
    | VSpecial n i => HSpecial n i
    | VArray l s m =>
        HArray l s m ((fix go (l : list (gvalue Fn)) : Forall P l :=
                         match l with
                         | [] => Forall_nil P
                         | x :: t => Forall_cons x (gvalue_rect' x) (go t)
                         end) l)
    | VLoopCtx i => HLoop i
    | VPair a b => HPair a b (gvalue_rect' a) (gvalue_rect' b)
    | VFn f => HFn f
    end.
End GInd.

(** value.rs:17-30  GetSize *)
Fixpoint get_size {Fn} (v : gvalue Fn) : N :=
  match v with
  | VString s => slen s
  | VArray _ size _ => size
  | VPair a b => (get_size a + get_size b)%N
  | _ => 16%N
  end.

(** The [Vecc] inside an array value, and back. *)
Definition arr_vecc {Fn} (data : list (gvalue Fn)) (size max : N) : vecc (gvalue Fn) :=
  mkVecc data size max.
Definition of_vecc {Fn} (v : vecc (gvalue Fn)) : gvalue Fn :=
  VArray (vc_data v) (vc_size v) (vc_max v).

(** value.rs:400-402 *)
Definition make_value_array {Fn} (items : list (gvalue Fn)) (max : N) : res (gvalue Fn) :=
  rmap of_vecc (vecc_try_new_from get_size items max).

(** value.rs:404-415 (From<Vec<T>>) and vecc.rs:111-118 (force_new): the size of
    the items becomes the maximal size. *)
Definition force_array {Fn} (items : list (gvalue Fn)) : gvalue Fn :=
  of_vecc (vecc_force_new get_size items).

(** What the generic operations need to know about callables: the type name
    ([ntype], value.rs:142-143) and the printed form (value.rs:118-119). *)
Record fn_info (Fn : Type) := mkFnInfo { fi_type : Fn -> rstring; fi_text : Fn -> rstring }.
Arguments mkFnInfo {Fn}.
Arguments fi_type {Fn}.
Arguments fi_text {Fn}.

(** value.rs:129-147 *)
Definition ntype {Fn} (fi : fn_info Fn) (v : gvalue Fn) : rstring :=
  match v with
  | VNone => str "none"
  | VBool _ => str "bool"
  | VInt _ => str "int"
  | VFloat _ => str "float"
  | VRange _ _ => str "range"
  | VColor _ _ _ _ => str "color"
  | VString _ => str "str"
  | VSpecial n _ => n
  | VArray _ _ _ => str "list"
  | VPair _ _ => str "pair"
  | VFn f => fi_type fi f
  | VLoopCtx _ => str "loop_ctx"
  end.

(** [{:02x}] of a byte. *)
Definition hex2 (n : N) : rstring := [digit_char (n / 16); digit_char (n mod 16)]%N.

Definition bool_text (b : bool) : rstring := if b then str "true" else str "false".

(** value.rs:86-125  Display *)
Fixpoint display {Fn} (o : oracle) (fi : fn_info Fn) (v : gvalue Fn) : rstring :=
  match v with
  | VNone => str "none"
  | VBool b => bool_text b
  | VInt i => int_text i
  | VFloat f => o_f64_text o f
  | VString s => s
  | VColor r g b a => str "#" ++ hex2 r ++ hex2 g ++ hex2 b ++ hex2 a
  | VArray l _ _ =>
      str "[" ++
      (fix go (first : bool) (l : list (gvalue Fn)) : rstring :=
         match l with
         | [] => []
         | x :: t => (if first then [] else str ", ") ++ display o fi x ++ go false t
         end) true l
      ++ str "]"
  | VPair a b => str "(" ++ display o fi a ++ str ", " ++ display o fi b ++ str ")"
  | VRange l r => int_text l ++ str ":" ++ int_text r
  | VSpecial n i => str "<special id=" ++ n ++ str " value=" ++ radix_text 10 i ++ str ">"
  | VFn f => fi_text fi f
  | VLoopCtx i => str "<loop_ctx " ++ radix_text 10 i ++ str ">"
  end.

(** value.rs:56 [derive(PartialEq)], vecc.rs PartialEq (items only).  The
    comparison of two callables is a parameter; it may abort (unbounded
    recursion through closures).  Simplification: [Rc] pointer equality is not
    modelled, so a pair holding a NaN is never equal to itself. *)
Section Eq.
  Context {Fn : Type} (feq : Fn -> Fn -> res bool).
  Fixpoint geqb (v w : gvalue Fn) {struct v} : res bool :=
    match v, w with
    | VNone, VNone => Ok true
    | VBool a, VBool b => Ok (Bool.eqb a b)
    | VInt a, VInt b => Ok (a =? b)%Z
    | VFloat a, VFloat b => Ok (feqb a b)
    | VRange a b, VRange a' b' => Ok ((a =? a') && (b =? b'))%Z
    | VColor r g b a, VColor r' g' b' a' =>
        Ok ((r =? r') && (g =? g') && (b =? b') && (a =? a'))%N
    | VString s, VString s' => Ok (seqb s s')
    | VSpecial n i, VSpecial n' i' => Ok (seqb n n' && (i =? i')%N)
    | VArray l _ _, VArray l' _ _ =>
        if length l =? length l' then
          (fix go (l : list (gvalue Fn)) (l' : list (gvalue Fn)) : res bool :=
             match l, l' with
             | x :: t, x' :: t' =>
                 let! b := geqb x x' in
                 if (b : bool) then go t t' else Ok false
             | _, _ => Ok true
             end) l l'
        else Ok false
    | VLoopCtx i, VLoopCtx j => Ok (i =? j)%N
    | VPair a b, VPair a' b' =>
        let! x := geqb a a' in
        if (x : bool) then geqb b b' else Ok false
    | VFn f, VFn g => feq f g
    | _, _ => Ok false
    end.
End Eq.

(** value.rs:73-76: a callable is a function or a closure (function plus upvalue
    cells, identified by their position in the heap). *)
Inductive mfn_ (F : Type) := MFun (f : F) | MClo (f : F) (ups : list nat).
Arguments MFun {F} f.
Arguments MClo {F} f ups.

(** value.rs:187-193 *)
Inductive function :=
  mkFunction { fn_name : rstring; fn_nspan : span; fn_arity : N; fn_upcount : N;
               fn_chunk : chunk (gvalue (mfn_ function)) }.

Notation mfn := (mfn_ function).
Notation value := (gvalue (mfn_ function)).

(** value.rs:195-204 *)
Definition fn_blank (name : rstring) : function := mkFunction name default_span 0 0 chunk_new.

Definition mfn_function (f : mfn) : function := match f with MFun f => f | MClo f _ => f end.

(** value.rs:118-119, 142-143 *)
Definition mfi : fn_info mfn :=
  mkFnInfo (fun f => match f with MFun _ => str "function" | MClo _ _ => str "closure" end)
           (fun f => match f with
                     | MFun f => str "<function " ++ fn_name f ++ str ">"
                     | MClo f _ => str "<closure " ++ fn_name f ++ str ">"
                     end).

Fixpoint list_eqb {A} (eqb : A -> A -> bool) (l l' : list A) : bool :=
  match l, l' with
  | [], [] => true
  | x :: t, x' :: t' => eqb x x' && list_eqb eqb t t'
  | _, _ => false
  end.

(** rlevec.rs:4, chunk.rs:4, value.rs:187 [derive(PartialEq)] of a function: name,
    name span, arity, upvalue count and the whole chunk.  A constant that is a
    closure does not occur (the compiler only stores functions); it compares
    unequal here. *)
Definition rle_eqb (r r' : rle span) : bool :=
  list_eqb (fun p q => (fst p =? fst q) && span_eqb (snd p) (snd q)) r r'.

Section CEq.
  (** [kf]: comparison of floats, [kn]: comparison of nested functions. *)
  Context {Fn : Type} (kf : f64 -> f64 -> bool) (kn : Fn -> Fn -> bool) (kmax : bool).
  Fixpoint ceqb (v w : gvalue Fn) {struct v} : bool :=
    match v, w with
    | VNone, VNone => true
    | VBool a, VBool b => Bool.eqb a b
    | VInt a, VInt b => (a =? b)%Z
    | VFloat a, VFloat b => kf a b
    | VRange a b, VRange a' b' => ((a =? a') && (b =? b'))%Z
    | VColor r g b a, VColor r' g' b' a' =>
        ((r =? r') && (g =? g') && (b =? b') && (a =? a'))%N
    | VString s, VString s' => seqb s s'
    | VSpecial n i, VSpecial n' i' => seqb n n' && (i =? i')%N
    | VArray l s m, VArray l' s' m' =>
        (negb kmax || (s =? s')%N && (m =? m')%N) &&
        (fix go (l : list (gvalue Fn)) (l' : list (gvalue Fn)) : bool :=
           match l, l' with
           | [], [] => true
           | x :: t, x' :: t' => ceqb x x' && go t t'
           | _, _ => false
           end) l l'
    | VLoopCtx i, VLoopCtx j => (i =? j)%N
    | VPair a b, VPair a' b' => ceqb a a' && ceqb b b'
    | VFn f, VFn g => kn f g
    | _, _ => false
    end.
End CEq.

Section FEq.
  Context (kf : f64 -> f64 -> bool) (kmax : bool).
  Fixpoint function_eqb (f g : function) {struct f} : bool :=
    match f, g with
    | mkFunction n s a u (mkChunk ops spans consts syms),
      mkFunction n' s' a' u' (mkChunk ops' spans' consts' syms') =>
        seqb n n' && span_eqb s s' && (a =? a')%N && (u =? u')%N
        && list_eqb N.eqb ops ops' && rle_eqb spans spans'
        && (fix go (l l' : list value) : bool :=
              match l, l' with
              | [], [] => true
              | x :: t, x' :: t' =>
                  ceqb kf (fun p q => match p, q with
                                      | MFun f', MFun g' => function_eqb f' g'
                                      | _, _ => false
                                      end) kmax x x' && go t t'
              | _, _ => false
              end) consts consts'
        && list_eqb seqb syms syms'
    end.
End FEq.

(** Equality used by the constant pool (value.rs:158-183 Hash, derived PartialEq,
    through the hash map of common/src/pool.rs): floats agree bit by bit because
    their hash does.  Simplification: also inside nested functions. *)
Definition const_eqb (v w : value) : bool :=
  ceqb fbits_eqb (fun p q => match p, q with
                             | MFun f, MFun g => function_eqb fbits_eqb true f g
                             | _, _ => false
                             end) true v w.
