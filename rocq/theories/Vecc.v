(** common/src/vecc.rs: a vector that tracks the size of its contents. *)
From Verif Require Import Base.

Section Vecc.
Context {T : Type} (gsize : T -> N).

(** vecc.rs:80-88.  Sizes are unbounded [N]: a usize overflow of a size sum is
    not modelled (it would need 2^64 bytes of items). *)
Record vecc := mkVecc { vc_data : list T; vc_size : N; vc_max : N }.

Definition sum_sizes (l : list T) : N := fold_right (fun x n => (gsize x + n)%N) 0%N l.

(** vecc.rs:103-109, 120-126 *)
Definition vecc_new (max : N) : vecc := mkVecc [] 0 max.

(** vecc.rs:111-118 *)
Definition vecc_force_new (data : list T) : vecc :=
  let s := sum_sizes data in mkVecc data s s.

(** vecc.rs:128-138 *)
Definition vecc_try_new_from (data : list T) (max : N) : res vecc :=
  let s := sum_sizes data in
  if (max <? s)%N then Err EArrayTooLarge else Ok (mkVecc data s max).

(** vecc.rs:140-146 *)
Definition vecc_new_from (data : list T) (max : N) : vecc := mkVecc data (sum_sizes data) max.

(** Operations on [&mut self] return the new value together with the result. *)

(** vecc.rs:171-180 *)
Definition vecc_push (v : vecc) (item : T) : vecc * res unit :=
  if (vc_max v <? vc_size v + gsize item)%N then (v, Err EArrayTooLarge)
  else (mkVecc (vc_data v ++ [item]) (vc_size v + gsize item) (vc_max v), Ok tt).

(** [usize] subtraction [a - b]: aborts on underflow in a checked build, wraps in
    a release build. *)
Definition usize_sub (m : mode) (a b : N) : res N :=
  if (b <=? a)%N then Ok (a - b)%N
  else match m with Debug => Panic | Release => Ok (usize_wrap (a + 2 ^ 64 - b)) end.

(** vecc.rs:182-187 *)
Definition vecc_pop (m : mode) (v : vecc) : vecc * res (option T) :=
  match rev (vc_data v) with
  | [] => (v, Ok None)
  | item :: r =>
      match usize_sub m (vc_size v) (gsize item) with
      | Ok s => (mkVecc (rev r) s (vc_max v), Ok (Some item))
      | Err e => (v, Err e)
      | Panic => (v, Panic)
      end
  end.

(** vecc.rs:201-203 *)
Definition vecc_get (v : vecc) (i : nat) : option T := nth_error (vc_data v) i.

(** vecc.rs:205-214  the replaced item's size is not subtracted. *)
Definition vecc_set (v : vecc) (i : nat) (item : T) : vecc * res unit :=
  if (vc_max v <? vc_size v + gsize item)%N then (v, Err EArrayTooLarge)
  else if i <? length (vc_data v)
  then (mkVecc (upd i item (vc_data v)) (vc_size v + gsize item) (vc_max v), Ok tt)
  else (mkVecc (vc_data v) (vc_size v + gsize item) (vc_max v), Panic).

(** vecc.rs:216-219 *)
Definition vecc_clear (v : vecc) : vecc := mkVecc [] 0 (vc_max v).

(** Vec::remove / Vec::insert / Vec::swap_remove of the standard library. *)
Definition list_remove (i : nat) (l : list T) : list T := firstn i l ++ skipn (S i) l.
Definition list_insert (i : nat) (x : T) (l : list T) : list T := firstn i l ++ x :: skipn i l.
Definition list_swap_remove (i : nat) (l : list T) : list T :=
  match rev l with
  | [] => []
  | last :: r => if i =? length r then rev r else upd i last (rev r)
  end.

(** vecc.rs:229-234 *)
Definition vecc_remove (m : mode) (v : vecc) (i : nat) : vecc * res T :=
  match nth_error (vc_data v) i with
  | None => (v, Panic)
  | Some item =>
      match usize_sub m (vc_size v) (gsize item) with
      | Ok s => (mkVecc (list_remove i (vc_data v)) s (vc_max v), Ok item)
      | Err e => (v, Err e)
      | Panic => (v, Panic)
      end
  end.

(** vecc.rs:236-244 *)
Definition vecc_insert (v : vecc) (i : nat) (item : T) : vecc * res unit :=
  if (vc_max v <? vc_size v + gsize item)%N then (v, Err EArrayTooLarge)
  else if i <=? length (vc_data v)
  then (mkVecc (list_insert i item (vc_data v)) (vc_size v + gsize item) (vc_max v), Ok tt)
  else (mkVecc (vc_data v) (vc_size v + gsize item) (vc_max v), Panic).

(** vecc.rs:246-257  the size is increased before the check. *)
Fixpoint vecc_extend (v : vecc) (items : list T) : vecc * res unit :=
  match items with
  | [] => (v, Ok tt)
  | item :: rest =>
      let s := (vc_size v + gsize item)%N in
      if (vc_max v <? s)%N then (mkVecc (vc_data v) s (vc_max v), Err EArrayTooLarge)
      else vecc_extend (mkVecc (vc_data v ++ [item]) s (vc_max v)) rest
  end.

(** vecc.rs:259-264 *)
Definition vecc_swap_remove (m : mode) (v : vecc) (i : nat) : vecc * res T :=
  match nth_error (vc_data v) i with
  | None => (v, Panic)
  | Some item =>
      match usize_sub m (vc_size v) (gsize item) with
      | Ok s => (mkVecc (list_swap_remove i (vc_data v)) s (vc_max v), Ok item)
      | Err e => (v, Err e)
      | Panic => (v, Panic)
      end
  end.

(** vecc.rs:266-272  [drain(len..)] panics when len is past the end. *)
Definition vecc_truncate (m : mode) (v : vecc) (len : nat) : vecc * res unit :=
  if length (vc_data v) <? len then (v, Panic)
  else match usize_sub m (vc_size v) (sum_sizes (skipn len (vc_data v))) with
       | Ok s => (mkVecc (firstn len (vc_data v)) s (vc_max v), Ok tt)
       | Err e => (v, Err e)
       | Panic => (v, Panic)
       end.

End Vecc.
Arguments vecc : clear implicits.
