(** parser/src/includes.rs: resolving include statements. *)
From Verif Require Import Base Float Ast.

Section Includes.
(** The file system ([std::fs::read_to_string]; [None] is any failure) and the parser
    ([parse_code] of a text under a source id; [None] is a syntax error). *)
Context (read : rstring -> option rstring) (parse : rstring -> nat -> option (list nodeS)).

(** sourcecache.rs:9-12 and includes.rs:17-20: the names in the cache, in order, and the
    set [resolved] of the default resolver. *)
Record istate := mkIState { i_sources : list rstring; i_resolved : list rstring }.

(** An error keeps the files read so far in the cache.  [IDeep]: the recursion went deeper than [fuel] (the source has no bound). *)
Inductive ires := IOk (ast : list nodeS) (s : istate) | IErr (e : error) (sp : span) (s : istate) | IDeep.

Definition i_mem (x : rstring) (s : istate) : bool := existsb (seqb x) (i_resolved s).
(** sourcecache.rs:49-56 *)
Definition i_add (x : rstring) (s : istate) : istate :=
  mkIState (i_sources s ++ [x]) (i_resolved s).
(** includes.rs:27 *)
Definition i_mark (x : rstring) (s : istate) : istate :=
  mkIState (i_sources s) (x :: i_resolved s).

(** includes.rs:89-114 with [resolve] (23-37) and [parse_with_includes] (69-83) inlined at
    the only place they are called. The offset of a syntax error is not
    modelled: the position is the beginning of the file. *)
Fixpoint resolve_includes (fuel : nat) (ast : list nodeS) (s : istate) {struct fuel} : ires :=
  match fuel with
  | O => IDeep
  | S k =>
      (fix go (ast : list nodeS) (s : istate) {struct ast} : ires :=
         match ast with
         | [] => IOk [] s
         | (NInclude (name, nsp) body, sp) :: t =>
             if i_mem name s then IErr (ECircularInclude name) nsp s else
             match read name with
             | None => IErr (ECouldNotResolve name) nsp s
             | Some text =>
                 let s1 := i_add name s in
                 match parse text (length (i_sources s)) with
                 | None => IErr (EUnexpectedToken 0) (mkSpan 0 0 (length (i_sources s))) s1
                 | Some a1 =>
                     match resolve_includes k a1 s1 with
                     | IOk a2 s2 =>
                         match resolve_includes k a2 (i_mark name s2) with
                         | IOk a3 s3 =>
                             match go t s3 with
                             | IOk t' s4 => IOk ((NInclude (name, nsp) (Some a3), sp) :: t') s4
                             | r => r
                             end
                         | r => r
                         end
                     | r => r
                     end
                 end
             end
         | x :: t => match go t s with IOk t' s' => IOk (x :: t') s' | r => r end
         end) ast s
  end.

(** includes.rs:69-83 with a fresh [DefaultIncludeResolver] and an empty cache. *)
Definition parse_with_includes (fuel : nat) (name text : rstring) : ires :=
  match parse text 0 with
  | None => IErr (EUnexpectedToken 0) (mkSpan 0 0 0) (mkIState [name] [])
  | Some ast => resolve_includes fuel ast (mkIState [name] [])
  end.
End Includes.
