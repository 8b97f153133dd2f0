(** common/src/pool.rs: interning pool with u16 identifiers. *)
From Verif Require Import Base.

Section Pool.
Context {V : Type} (veqb : V -> V -> bool).

(** pool.rs:4-8.  [duplicates] is the hash map from value to id. *)
Record pool := mkPool { p_entries : list V; p_dups : list (V * N) }.

(** pool.rs:15-20 *)
Definition pool_new : pool := mkPool [] [].

(** pool.rs:131-150  [ID::from_usize] for u16 is an [as] cast: it wraps. *)
Definition pool_id_from (n : nat) : N := wrap16u (N.of_nat n).

(** pool.rs:57-63, 77-83  [add_force]/[add_ref_force] *)
Definition pool_add_force (p : pool) (v : V) : pool * N :=
  let id := pool_id_from (length (p_entries p)) in
  (mkPool (p_entries p ++ [v]) (ainsert v id (p_dups p)), id).

(** pool.rs:42-52, 65-75  [add]/[add_ref] *)
Definition pool_add (p : pool) (v : V) : pool * N :=
  match alookup veqb v (p_dups p) with
  | Some id => (p, id)
  | None => pool_add_force p v
  end.

(** pool.rs:90-93 *)
Definition pool_id (p : pool) (v : V) : option N := alookup veqb v (p_dups p).

(** pool.rs:95-98 *)
Definition pool_get (p : pool) (id : N) : option V := nth_error (p_entries p) (N.to_nat id).

(** pool.rs:100-103 *)
Definition pool_get_unchecked (p : pool) (id : N) : res V :=
  match pool_get p id with Some v => Ok v | None => Panic end.

(** pool.rs:115-118  does not touch [duplicates]. *)
Definition pool_update (p : pool) (id : N) (v : V) : res pool :=
  if (N.to_nat id <? length (p_entries p))
  then Ok (mkPool (upd (N.to_nat id) v (p_entries p)) (p_dups p)) else Panic.

(** pool.rs:32-35 *)
Definition pool_clear (p : pool) : pool := pool_new.

(** pool.rs:120-123 *)
Definition pool_len (p : pool) : nat := length (p_entries p).

End Pool.
Arguments pool : clear implicits.
