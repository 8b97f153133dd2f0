(** Values that agree up to what stands for a function: used to compare the results of two
    ways of running a program (C01). *)
From Verif Require Import Base Value.

Section Rel.
Context {A B : Type} (R : A -> B -> Prop).

Inductive grel : gvalue A -> gvalue B -> Prop :=
| gr_none : grel VNone VNone
| gr_bool b : grel (VBool b) (VBool b)
| gr_int z : grel (VInt z) (VInt z)
| gr_float f : grel (VFloat f) (VFloat f)
| gr_range a b : grel (VRange a b) (VRange a b)
| gr_color r g b a : grel (VColor r g b a) (VColor r g b a)
| gr_string s : grel (VString s) (VString s)
| gr_special n i : grel (VSpecial n i) (VSpecial n i)
| gr_array l l' s m : Forall2 grel l l' -> grel (VArray l s m) (VArray l' s m)
| gr_loop i : grel (VLoopCtx i) (VLoopCtx i)
| gr_pair a a' b b' : grel a a' -> grel b b' -> grel (VPair a b) (VPair a' b')
| gr_fn f g : R f g -> grel (VFn f) (VFn g).
End Rel.

(** Results: a panic on the left agrees with everything. *)
Definition rr {X Y} (P : X -> Y -> Prop) (x : res X) (y : res Y) : Prop :=
  match x, y with
  | Ok a, Ok b => P a b
  | Err e, Err e' => e = e'
  | Panic, _ => True
  | _, _ => False
  end.
