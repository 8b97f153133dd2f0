(** common/src/rlevec.rs: run-length encoded vector. *)
From Verif Require Import Base.

Section Rle.
Context {T : Type} (teqb : T -> T -> bool).

(** rlevec.rs:5-6  [RleVec(Vec<(usize, T)>)], oldest run first.  Counts are
    [nat]: usize overflow of a count (2^64 elements) is not modelled. *)
Definition rle := list (nat * T).

(** rlevec.rs:12-15 *)
Definition rle_new : rle := [].

(** rlevec.rs:17-26 ([push]) is [push_n] with count 1, as in the source the two
    bodies differ only in the count. *)
Fixpoint rle_push_n (r : rle) (value : T) (count : nat) : rle :=
  match r with
  | [] => [(count, value)]
  | [(c, last)] => if teqb last value then [(c + count, last)] else [(c, last); (count, value)]
  | x :: r' => x :: rle_push_n r' value count
  end.

(** rlevec.rs:17-26 *)
Definition rle_push (r : rle) (value : T) : rle := rle_push_n r value 1.

(** rlevec.rs:39-41 *)
Fixpoint rle_last (r : rle) : option T :=
  match r with
  | [] => None
  | [(_, v)] => Some v
  | _ :: r' => rle_last r'
  end.

(** rlevec.rs:43-45 *)
Definition rle_first (r : rle) : option T :=
  match r with [] => None | (_, v) :: _ => Some v end.

(** rlevec.rs:47-58 *)
Fixpoint rle_get (r : rle) (index : nat) : option T :=
  match r with
  | [] => None
  | (count, value) :: r' => if index <? count then Some value else rle_get r' (index - count)
  end.

(** rlevec.rs:60-63 *)
Definition rle_len (r : rle) : nat := fold_right (fun p n => fst p + n) 0 r.

(** rlevec.rs:65-68 *)
Definition rle_data_len (r : rle) : nat := length r.

(** rlevec.rs:71-80  indexing panics out of bounds. *)
Definition rle_index (r : rle) (index : nat) : res T :=
  match rle_get r index with Some v => Ok v | None => Panic end.

End Rle.
Arguments rle : clear implicits.
