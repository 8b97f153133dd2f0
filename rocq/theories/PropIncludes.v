(** Includes (C43).  [read] is the file system, [parse] the parser of one text under a
    source id, [fuel] the depth of recursion allowed (the source has no limit). *)
From Verif Require Import Base Float Ast Parse Includes SpecIncludes ProofIncludes.

(** When the included files exist, parse, include nothing themselves and are named once
    each, every include carries the parsed contents of its file and nothing else changes. *)
Theorem C43_flat_partial : forall read parse fuel name text ast, 2 <= fuel ->
  parse text 0 = Some ast ->
  (forall f, In f (included ast) -> exists content, read f = Some content /\
     forall id, exists a, parse content id = Some a /\ included a = []) ->
  NoDup (included ast) ->
  exists ast' s n, parse_with_includes read parse fuel name text = IOk ast' s /\
    spliced read parse 1 ast ast' n.
Proof. exact flat_ok. Qed.
Print Assumptions C43_flat_partial.
Example C43_flat_example : exists ast' s,
  parse_with_includes fs_flat q_parse 2 (str "main") use_ab = IOk ast' s /\
  included ast' = [str "a"; str "b"] /\ length ast' = 3.
Proof. eexists _, _. split; [vm_compute; reflexivity|split; reflexivity]. Qed.

(** Whenever includes are resolved, they were resolved like that: the result is the program
    with every file's own contents in place, no file was named twice, and no file included
    another one. *)
Theorem C43_result : forall read parse fuel name text ast' s,
  parse_with_includes read parse fuel name text = IOk ast' s ->
  exists ast n, parse text 0 = Some ast /\ spliced read parse 1 ast ast' n /\
    NoDup (included ast) /\
    forall f, In f (included ast) -> exists content id a,
      read f = Some content /\ parse content id = Some a /\ included a = [].
Proof. exact result_flat. Qed.
Print Assumptions C43_result.

(** An include of a file that cannot be read is reported under its name and at the place it
    is named, when no include
    before it fails. *)
Theorem C43_missing : forall read parse fuel name text before x xsp body sp after,
  parse text 0 = Some (before ++ (NInclude (x, xsp) body, sp) :: after) ->
  included before = [] -> read x = None ->
  parse_with_includes read parse (S fuel) name text = IErr (ECouldNotResolve x) xsp (mkIState [name] []).
Proof. exact missing_file. Qed.
Print Assumptions C43_missing.
Example C43_missing_example :
  parse_with_includes fs_self q_parse 5 (str "main") (str "include " ++ quoted (str "zz"))
  = IErr (ECouldNotResolve (str "zz")) (mkSpan 8 12 0) (mkIState [str "main"] []).
Proof. vm_compute. reflexivity. Qed.

(** False: includes "to any depth", and "acyclic includes are never reported".  A file that
    includes another one is always rejected with CircularInclude. *)
Theorem C43_nested_refuted : exists read name text file sp s, acyclic read q_parse /\
  forall fuel, 3 <= fuel ->
  parse_with_includes read q_parse fuel name text = IErr (ECircularInclude file) sp s.
Proof. exact nested_wrong. Qed.
Print Assumptions C43_nested_refuted.

(** No program with a nested include is ever resolved. *)
Theorem C43_nested_never_refuted : forall read parse fuel name text ast f g ast' s,
  parse text 0 = Some ast -> In f (included ast) ->
  (forall content id a, read f = Some content -> parse content id = Some a -> In g (included a)) ->
  parse_with_includes read parse fuel name text <> IOk ast' s.
Proof. exact nested_never. Qed.
Print Assumptions C43_nested_never_refuted.
Example C43_nested_never_example : forall fuel ast' s,
  parse_with_includes fs_nested q_parse fuel (str "main") use_a <> IOk ast' s.
Proof. exact nested_never_ex. Qed.

(** False: naming a file twice, without any cycle, is reported as circular. *)
Theorem C43_twice_refuted : exists read name text file sp s, (forall f g, ~ includes read q_parse f g) /\
  forall fuel, 2 <= fuel ->
  parse_with_includes read q_parse fuel name text = IErr (ECircularInclude file) sp s.
Proof. exact twice_wrong. Qed.
Print Assumptions C43_twice_refuted.

(** False: a file that includes itself is not reported, the recursion never ends. *)
Theorem C43_cycle_refuted : exists read name text file, includes read q_parse file file /\
  forall fuel, parse_with_includes read q_parse fuel name text = IDeep.
Proof. exact cycle_wrong. Qed.
Print Assumptions C43_cycle_refuted.
