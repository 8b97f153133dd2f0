(** C100: building scripts for a host program, with the host's own way of finding includes.

    [carried], [available] and [honest] are in SpecEmbed.v, [in_sources] in SpecDrawn.v.  [parse] is
    the parser of one text under a source id, [read] the files a resolver finds. *)
From Verif Require Import Base RleVec Pool Vecc Float NumText Bytecode Chunk Value Ast Arith VmOps Parse Compiler Vm Includes Report Cli
  SpecParse SpecReady SpecPos SpecDrawn SpecIncludes Embed SpecEmbed ProofIncludes ProofEmbed ProofEmbed2 ProofEmbedEx ExProg.

(** With a resolver that looks files up and parses them, and nothing more, includes are carried out
    to any depth: the script is that of the program with the contents of all files in place. *)
Theorem C100_nested : forall parse read m name text sc c,
  (exists n, forall k, n <= k -> build_script parse (table_resolver parse read) m k name text tt = Some (Built sc tt c)) <->
  exists ast ast', parse text 0 = Some ast /\ carried parse read [mkSource name text] ast ast' c /\ compile m ast' = COk sc.
Proof. exact table_build. Qed.
Print Assumptions C100_nested.

(** It is, whenever the files exist and parse and no chain of includes is infinite. *)
Theorem C100_available : forall parse read m name text ast, parse text 0 = Some ast ->
  (forall f, In f (included ast) -> available parse read f) ->
  exists ast' c n, carried parse read [mkSource name text] ast ast' c /\
  forall k, n <= k -> build_script parse (table_resolver parse read) m k name text tt =
    match compile m ast' with COk sc => Some (Built sc tt c) | CErr e sp => Some (Failed e sp tt c) | CPanic => None end.
Proof. exact table_all. Qed.
Print Assumptions C100_available.

(** With the resolver the crate comes with, the host gets what the command line program runs
    (C43, C88), and with an error the texts it is about. *)
Theorem C100_default : forall parse read m k name text,
  build_script parse (default_resolver read) m k name text [] =
  match parse_with_includes read parse k name text with
  | IDeep => Some Deep
  | IErr e sp s => Some (Failed e sp (i_resolved s) (mkSource name text :: map (file read) (tl (i_sources s))))
  | IOk ast s =>
      match compile m ast with
      | COk sc => Some (Built sc (i_resolved s) (mkSource name text :: map (file read) (tl (i_sources s))))
      | CErr e sp => Some (Failed e sp (i_resolved s) (mkSource name text :: map (file read) (tl (i_sources s))))
      | CPanic => None
      end
  end.
Proof. exact default_build. Qed.
Print Assumptions C100_default.

(** Whatever the resolver, as long as it keeps to the texts: an error lies in one of the texts that
    come with it, the first of which is the program. *)
Theorem C100_errors : forall orc R (rs : resolver R) m k name text r e sp r' c, honest rs ->
  build_script (parse_text orc) rs m k name text r = Some (Failed e sp r' c) ->
  in_sources c sp /\ exists more, c = mkSource name text :: more.
Proof. exact error_places. Qed.
Print Assumptions C100_errors.
(** The errors of running the script, and their tracebacks, lie in the texts it was built from. *)
Theorem C100_runs : forall orc R D (rs : resolver R) m (hst : host D) fuel name text r sc r' c s0 k e sp s', honest rs ->
  build_script (parse_text orc) rs m fuel name text r = Some (Built sc r' c) -> prepared sc s0 ->
  run m hst k s0 = RErr e sp s' ->
  in_sources c sp /\ forall n q, In (TFrame n q) (trace_back s') -> in_sources c q.
Proof. exact @built_places. Qed.
Print Assumptions C100_runs.
Theorem C100_honest : forall orc read, honest (default_resolver read) /\ honest (table_resolver (parse_text orc) read).
Proof. exact both_honest. Qed.
Print Assumptions C100_honest.

(** A program that includes a file that includes a file: built and run with one resolver, refused
    with the other. *)
Example C100_example :
  available q_parse fs_nested (str "a") /\ nested_run = Some (three, VInt 2) /\
  build_script q_parse (default_resolver fs_nested) Debug 5 (str "main") use_x [] =
  Some (Failed (ECircularInclude (str "b")) (mkSpan 8 11 1) [str "a"; str "b"] three).
Proof. exact (conj nested_available (conj nested_runs nested_default)). Qed.
Print Assumptions C100_example.

(** False: that building always ends.  A file that includes itself is never reported. *)
Theorem C100_cycle_refuted : exists read name text f, includes read q_parse f f /\
  forall k, build_script q_parse (table_resolver q_parse read) Debug k name text tt = Some Deep.
Proof. exact (ex_intro _ fs_self (ex_intro _ (str "main") (ex_intro _ use_a (ex_intro _ (str "a") (conj self_includes self_table))))). Qed.
Print Assumptions C100_cycle_refuted.
