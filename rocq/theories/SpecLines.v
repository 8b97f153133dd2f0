(** Line numbers (C53). *)
From Verif Require Import Base.

(** Texts in which the line feed is the only line break. *)
Definition only_lf (s : rstring) : Prop :=
  Forall (fun c => ~ In c [11; 12; 13; 133; 8232; 8233]%N) s.
Definition breaks (s : rstring) : nat := length (filter (N.eqb 10) s).

(** What is assumed of the line table: positions are counted in characters, lines from 0;
    there is nothing behind the end. *)
Definition line_table (offset_line : rstring -> nat -> option nat) : Prop :=
  (forall s k, only_lf s -> k < length s -> offset_line s k = Some (breaks (firstn k s))) /\
  (forall s k, length s < k -> offset_line s k = None).

(** What is assumed of it besides for C39: the end of a text is on one of its lines. *)
Definition end_line (offset_line : rstring -> nat -> option nat) : Prop :=
  forall s, s <> [] -> only_lf s -> offset_line s (length s) <> None.

(** The character that starts at byte [b], as the text before it. *)
Definition starts_at (s : rstring) (b : nat) (before : rstring) : Prop :=
  exists c rest, s = before ++ c :: rest /\ N.to_nat (slen before) = b.
(** The line of the character that starts at byte [b], counted from 1. *)
Definition line_at (s : rstring) (b line : nat) : Prop :=
  exists before, starts_at s b before /\ line = S (breaks before).

Definition ascii (s : rstring) : Prop := Forall (fun c => c < 128)%N s.
