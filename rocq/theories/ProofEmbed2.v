(** Scripts that were built, with the parser of the language (C100). *)
From Verif Require Import Base RleVec Pool Vecc Float NumText Bytecode Chunk Value Ast Arith VmOps Parse Compiler Vm Includes Report Cli
  SpecParse SpecReady SpecPos SpecDrawn SpecIncludes Embed SpecEmbed ProofIncludes ProofPos1 ProofPos10 ProofSpans3 ProofEmbed.

Lemma table_all parse read m name text ast : parse text 0 = Some ast -> (forall f, In f (included ast) -> available parse read f) ->
  exists ast' c n, carried parse read [mkSource name text] ast ast' c /\
  forall k, n <= k -> build_script parse (table_resolver parse read) m k name text tt =
    match compile m ast' with COk sc => Some (Built sc tt c) | CErr e sp => Some (Failed e sp tt c) | CPanic => None end.
Proof.
  intros Hp Ha. destruct (available_carried parse read ast [mkSource name text] Ha) as (ast' & c & Hc).
  destruct (carried_table _ _ _ _ _ _ Hc) as [n Hn]. exists ast', c, n. split; [exact Hc|]. intros k Hk.
  unfold build_script, parse_files, cache_parse, add_source. cbn [app length]. rewrite Hp, Hn by exact Hk. reflexivity.
Qed.
Lemma error_places orc {R} (rs : resolver R) m k name text r e sp r' c : honest rs ->
  build_script (parse_text orc) rs m k name text r = Some (Failed e sp r' c) ->
  in_sources c sp /\ exists more, c = mkSource name text :: more.
Proof. intros H. apply build_error; [exact (text_positions orc)|exact H]. Qed.
Lemma built_places orc {R D} (rs : resolver R) m (hst : host D) fuel name text r sc r' c s0 k e sp s' : honest rs ->
  build_script (parse_text orc) rs m fuel name text r = Some (Built sc r' c) -> prepared sc s0 ->
  run m hst k s0 = RErr e sp s' ->
  in_sources c sp /\ forall n q, In (TFrame n q) (trace_back s') -> in_sources c q.
Proof.
  unfold build_script. intros H E Hs Hr. pose proof (parsed_fine (parse_text orc) (text_positions orc) rs H fuel name text r) as K.
  destruct (parse_files _ _ r [] name text) as [ast r1 c1| |]; try discriminate. destruct K as [[l G] A].
  destruct (compile m ast) as [sc1| |] eqn:Ec; try discriminate. injection E as <- <- <-.
  apply (run_places (in_sources c1) m hst ast sc1 s0 k e sp s'); auto. subst c1. now apply in_start.
Qed.
Lemma both_honest orc read : honest (default_resolver read) /\ honest (table_resolver (parse_text orc) read).
Proof. split; [apply default_honest|apply table_honest; exact (text_positions orc)]. Qed.
