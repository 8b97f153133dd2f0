(** Names (C101).  [identifier], [said], [made_up], [knows] are in SpecNames.v. *)
From Verif Require Import Base Float Ast Parse Pool Chunk Value Compiler Includes Cli SpecParse SpecPos SpecNames
  ProofNames2 ProofNames3 ProofArithEx ProofNamesEx.
From Verif Require Import ExProg.

(** ** C101  Every name in a text that is accepted is an identifier ... *)
Theorem C101_text : forall o fuel text id ast i x,
  parse_code o fuel text id = PMatch ast i -> said ast x -> identifier x.
Proof. exact text_names. Qed.
Print Assumptions C101_text.
(** ... also in the files it includes. *)
Theorem C101_files : forall o read fuel name text ast is x,
  parse_with_includes read (parse_text o) fuel name text = IOk ast is -> said ast x -> identifier x.
Proof. exact files_names. Qed.
Print Assumptions C101_files.

(** The names in what is compiled, of globals, functions and variables at any depth, are those of
    the source and a few that are made up. *)
Theorem C101_compiled : forall m ast sc x, compile m ast = COk sc -> knows sc x -> said ast x \/ made_up x.
Proof. exact compiled_names. Qed.
Print Assumptions C101_compiled.
(** No identifier is made up, so a program cannot name what the compiler made. *)
Theorem C101_apart : forall x, identifier x -> ~ made_up x.
Proof. exact made_up_apart. Qed.
Print Assumptions C101_apart.

(** let if = [1]; for i in if { let f = fn (x) { x + i }; @print(f) } *)
Example C101_example :
  (exists i, parse_code no_oracle 100 names_text 0 = PMatch names_ast i) /\
  compile Release names_ast = COk (script_of names_ast) /\
  p_entries (sc_globals (script_of names_ast)) = [str "if"; str "print"] /\
  ck_syms (fn_chunk (sc_function (script_of names_ast))) = [str "#__temp_0"; str "#__temp_1"; str "i"; str "f"] /\
  part (sc_function (script_of names_ast)) names_lambda /\
  fn_name names_lambda = str "@__lambda__" /\ ck_syms (fn_chunk names_lambda) = [str "@__lambda__"; str "x"].
Proof.
  exact (conj names_parse (conj names_compile (conj (proj1 names_known) (conj (proj1 (proj2 names_known))
    (conj names_part (proj2 (proj2 (proj2 names_known)))))))).
Qed.
