(** The parts of interpreter/src/vm.rs that only look at values: indexing, array and
    range construction, destructuring and iteration. *)
From Verif Require Import Base Float NumText Vecc Value Arith.

Section VmOps.
Context {Fn : Type} (m : mode) (fi : fn_info Fn).
Notation val := (gvalue Fn).

Definition rnth {A} (l : list A) (i : nat) : res A :=
  match nth_error l i with Some x => Ok x | None => Panic end.

Definition channels (r g b a : N) : list N := [r; g; b; a].

(** vm.rs:466-515  IndexGet, on the two popped values. *)
Definition v_index (index value : val) : res val :=
  match index with
  | VInt idx =>
      match value with
      | VArray d _ _ => let! i := fix_index m idx (length d) in rnth d i
      | VString s =>
          let! i := fix_index m idx (length s) in
          let! c := rnth s i in Ok (VString [c])
      | VColor r g b a =>
          let! i := fix_index m idx 4 in
          let! c := rnth (channels r g b a) i in Ok (VInt (Z.of_N c))
      | VPair x y => let! i := fix_index m idx 2 in rnth [x; y] i
      | _ => Err (EExpected (str "indexable") (ntype fi value))
      end
  | _ => Err (EExpected (str "int") (ntype fi index))
  end.

(** vm.rs:559-572  CreateArray, on the popped values in the order they are popped. *)
Fixpoint push_all (v : vecc val) (items : list val) : res (vecc val) :=
  match items with
  | [] => Ok v
  | x :: rest => match vecc_push get_size v x with
                 | (v', Ok _) => push_all v' rest
                 | (_, Err e) => Err e
                 | (_, Panic) => Panic
                 end
  end.
Definition v_array (amax : N) (items : list val) : res val :=
  let! v := push_all (vecc_new amax) items in Ok (of_vecc v).

(** vm.rs:574-593  CreateRange; the ends are cast with [as i32]. *)
Definition v_range (a b : val) : res val :=
  match a, b with
  | VInt x, VInt y => Ok (VRange (wrap32 x) (wrap32 y))
  | VInt _, _ => Err (EExpected (str "int") (ntype fi b))
  | _, _ => Err (EExpected (str "int") (ntype fi a))
  end.

(** vm.rs:595-638  Unpack: the components in source order (the VM pushes them last
    first).  Indexing a colour past its fourth channel panics. *)
Definition v_unpack (argc : N) (value : val) : res (list val) :=
  match value with
  | VPair a b => if (argc =? 2)%N then Ok [a; b] else Err (EInsufficientValues 2 argc)
  | VArray d _ _ => if (N.of_nat (length d) =? argc)%N then Ok d
                    else Err (EInsufficientValues (N.of_nat (length d)) argc)
  | VColor r g b a =>
      if (argc <? 1)%N then Err (EInsufficientValues 4 argc)
      else if (4 <? argc)%N then Panic
      else Ok (map (fun c => VInt (Z.of_N c)) (firstn (N.to_nat argc) (channels r g b a)))
  | _ => Err (EUnpackable (ntype fi value))
  end.

(** vm.rs:864-901  IterNext: the element at position [i], [None] at the end.  For a
    range the position is cast with [as i32] and added to the start in i32. *)
Definition v_iter (i : N) (iterable : val) : res (option val) :=
  match iterable with
  | VArray d _ _ => Ok (nth_error d (N.to_nat i))
  | VRange start fin =>
      let z := (start + wrap32 (Z.of_N i))%Z in
      let! k := if in_i32 z then Ok z
                else match m with Debug => Panic | Release => Ok (wrap32 z) end in
      Ok (if (k <? fin)%Z then Some (VInt k) else None)
  | VString s => Ok (option_map (fun c => VString [c]) (nth_error s (N.to_nat i)))
  | VColor r g b a =>
      Ok (option_map (fun c => VInt (Z.of_N c)) (nth_error (channels r g b a) (N.to_nat i)))
  | _ => Err (ENotIterable (ntype fi iterable))
  end.

End VmOps.
