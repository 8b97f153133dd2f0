(** common/src/bluff.rs: a stack that keeps its buffer. *)
From Verif Require Import Base.

Section Bluff.
Context {T : Type}.

(** bluff.rs:1-4 *)
Record bluff := mkBluff { b_data : list T; b_idx : nat }.

(** bluff.rs:7-19 *)
Definition bluff_new : bluff := mkBluff [] 0.

(** bluff.rs:21-24 *)
Definition bluff_clear (b : bluff) : bluff := mkBluff (b_data b) 0.

(** bluff.rs:26-34  indexing past the end panics. *)
Definition bluff_push (b : bluff) (v : T) : res bluff :=
  if b_idx b =? length (b_data b) then Ok (mkBluff (b_data b ++ [v]) (S (b_idx b)))
  else if b_idx b <? length (b_data b)
       then Ok (mkBluff (upd (b_idx b) v (b_data b)) (S (b_idx b))) else Panic.

(** bluff.rs:36-40 *)
Definition bluff_init (b : bluff) (v : T) : res bluff := bluff_push (mkBluff (b_data b) 0) v.

(** bluff.rs:42-50 *)
Definition bluff_pop (b : bluff) : bluff * res (option T) :=
  match b_idx b with
  | O => (b, Ok None)
  | S i => (mkBluff (b_data b) i,
            match nth_error (b_data b) i with Some v => Ok (Some v) | None => Panic end)
  end.

(** bluff.rs:52-59 *)
Definition bluff_peek (b : bluff) : res (option T) :=
  match b_idx b with
  | O => Ok None
  | S i => match nth_error (b_data b) i with Some v => Ok (Some v) | None => Panic end
  end.

(** bluff.rs:61-64 *)
Definition bluff_len (b : bluff) : nat := b_idx b.

(** bluff.rs:66-70  the drained items, oldest first; [..idx] panics past the end. *)
Definition bluff_drain (b : bluff) : bluff * res (list T) :=
  (mkBluff (b_data b) 0,
   if b_idx b <=? length (b_data b) then Ok (firstn (b_idx b) (b_data b)) else Panic).

End Bluff.
Arguments bluff : clear implicits.
