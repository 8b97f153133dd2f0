(** What hosts that build scripts rely on (C100). *)
From Verif Require Import Base Float Ast Value Compiler Report SpecPos SpecIncludes Embed.
From Verif Require SpecDrawn.

Section Spec.
Context (parse : rstring -> nat -> option (list nodeS)) (read : rstring -> option rstring).
(** [carried c ast ast' c']: in [ast'] every include of [ast] carries the contents of its file, in
    which the includes are carried out in the same way, to any depth; everything else is unchanged.
    The texts [c] grow to [c'] by the files in the order they are met. *)
Inductive carried : list source -> list nodeS -> list nodeS -> list source -> Prop :=
| cr_nil c : carried c [] [] c
| cr_include c name nsp body sp t text a a' c1 t' c2 :
    read name = Some text -> parse text (length c) = Some a ->
    carried (c ++ [mkSource name text]) a a' c1 -> carried c1 t t' c2 ->
    carried c ((NInclude (name, nsp) body, sp) :: t) ((NInclude (name, nsp) (Some a'), sp) :: t') c2
| cr_other c n sp t t' c1 : (forall x b, n <> NInclude x b) -> carried c t t' c1 ->
    carried c ((n, sp) :: t) ((n, sp) :: t') c1.

(** Files that exist and parse, and so do those they include; no chain of includes is infinite. *)
Inductive available : rstring -> Prop :=
| available_file f text : read f = Some text -> (forall id, parse text id <> None) ->
    (forall g, includes read parse f g -> available g) -> available f.
End Spec.

(** A file as a text of the source cache. *)
Definition file (read : rstring -> option rstring) (n : rstring) : source := mkSource n (match read n with Some t => t | None => [] end).

(** Resolving that adds texts to those there are, and whose positions lie in the texts. *)
Definition grows (c c' : list source) : Prop := exists more, c' = c ++ more.
Definition fine {R} (c : list source) (x : built R (list nodeS)) : Prop :=
  match x with
  | Built ast _ c' => grows c c' /\ forall sp, position_of ast sp -> SpecDrawn.in_sources c' sp
  | Failed _ sp _ c' => grows c c' /\ SpecDrawn.in_sources c' sp
  | Deep => True
  end.
(** Resolvers that keep to this, provided the cache does. *)
Definition honest {R} (rs : resolver R) : Prop :=
  forall self, (forall r c name text, fine c (self r c name text)) ->
  forall r c name nsp, SpecDrawn.in_sources c nsp -> fine c (r_resolve rs self r c name nsp).
