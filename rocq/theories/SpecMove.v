(** Positions moved by the length of the text put before a program (C106). *)
From Verif Require Import Base Ast Value SpecRename.

(** The sources [a] and [b] exchanged. *)
Definition swap (a b x : nat) : nat := if x =? a then b else if x =? b then a else x.
(** Everything [k] bytes further, in [b] instead of [a].  The place of nothing, which the compiler makes up, stays. *)
Definition slide (k a b : nat) (s : span) : span :=
  if sp_end s =? 0 then s else mkSpan (sp_start s + k) (sp_end s + k) (swap a b (sp_src s)).
(** After the text [g], of which the positions count the bytes, in [b] instead of [a]. *)
Definition after_text (g : rstring) (a b : nat) : span -> span := slide (N.to_nat (slen g)) a b.
(** Functions that differ in their positions only. *)
Definition moved_closure (mv : span -> span) : mfn -> mfn -> Prop := renamed_closure (fun x => x) mv (fun _ => True).
