(** common/src/sourcecache.rs: from source positions to line numbers. *)
From Verif Require Import Base.

Section Lines.
(** sourcecache.rs:49: the line table is [ariadne::Source] of another crate, which is not
    in the repository.  It is a parameter here: the 0-based line of the [k]-th character of
    a text, if it has one.  SpecLines.v states what is assumed of it. *)
Context (offset_line : rstring -> nat -> option nat).

(** sourcecache.rs:9-12, 56-63: the sources in the order they were added; names are left
    out. *)
Definition cache := list rstring.
Definition cache_add (src : rstring) (c : cache) : cache * nat := (c ++ [src], length c).

(** sourcecache.rs:40-51.  [source.len()] counts characters; it is 0 for the empty text
    only. *)
Definition get_lineno (c : cache) (sp : span) : option nat :=
  match nth_error c (sp_src sp) with
  | None => None
  | Some [] => None
  | Some src => match offset_line src (sp_start sp) with Some l => Some (S l) | None => None end
  end.
End Lines.
