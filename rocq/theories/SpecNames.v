(** Names of programs (C101). *)
From Verif Require Import Base Ast SpecParse SpecPos Value Chunk Pool Compiler SpecArith.

(** Identifiers: letters, digits and underscores, not a digit first; not a reserved word. *)
Definition letter (c : N) : Prop := (97 <= c <= 122 \/ 65 <= c <= 90 \/ c = 95)%N.
Definition digit (c : N) : Prop := (48 <= c <= 57)%N.
Definition reserved_words : list rstring :=
  [ str "true"; str "false"; str "none"; str "let"; str "fn"; str "include"; str "with"; str "as"; str "while";
    str "for"; str "in"; str "return"; str "switch"; str "default"; str "case"; str "external" ].
Definition identifier (x : rstring) : Prop :=
  match x with
  | c :: t => letter c /\ Forall (fun d => letter d \/ digit d) t /\ ~ In x reserved_words
  | [] => False
  end.

(** The names written directly in a node; the name of a file is none. *)
Definition names_said (n : node) : list rstring :=
  match n with
  | NIdentifier x => [x]
  | NInclude _ _ => []
  | n => map fst (names_of n)
  end.
(** A name of the program, at any depth. *)
Definition said (ast : list nodeS) (x : rstring) : Prop :=
  exists n sp b, In (n, sp) ast /\ inside b n /\ In x (names_said b).
(** Names the compiler makes up: of the program itself, of functions without a name, of the
    hidden variables of loops. *)
Definition made_up (x : rstring) : Prop :=
  x = str "@__main__" \/ x = str "@__lambda__" \/
  exists n ds, digits_of 10 ds n /\ x = str "#__temp_" ++ map digit_text ds.

(** The functions of a program: its own, and those among the constants of one. *)
Inductive part (f : function) : function -> Prop :=
| pa_self : part f f
| pa_in g h : part f g -> In (VFn (MFun h)) (ck_consts (fn_chunk g)) -> part f h.
(** The names in a compiled program: of globals, functions and variables. *)
Definition knows (sc : script) (x : rstring) : Prop :=
  In x (p_entries (sc_globals sc)) \/
  exists g, part (sc_function sc) g /\ (x = fn_name g \/ In x (ck_syms (fn_chunk g))).
