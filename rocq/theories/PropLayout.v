(** Properties of the layout of programs: C87. *)
From Verif Require Import Base Pool Float Value Ast Parse Compiler CodeSize Vm Std SpecVm SpecReady SpecRel SpecEval SpecStd SpecProg SpecLayout
  ProofParse5 ProofProg13 ProofStdEx ProofLayoutB ProofLayoutC ProofLayoutD ProofLayoutE ProofArithEx ProofEvalEx ProofProgEx ProofLayoutEx.

(** * C87  Layout does not matter: texts of one program do the same, however they are laid out *)

(** Two texts of one program (other white space, comments, parentheses, spellings of numbers
    and strings) are accepted or refused together, with the same error; accepted, they have the
    same global names, the same externals and code of the same size. *)
Theorem C87_accepted : forall o m id id' program text text' fuel fuel',
  spelled_body (o_f64_parse o) program text -> spelled_body (o_f64_parse o) program text' ->
  S (length text) < fuel -> S (length text') < fuel' ->
  exists tree rest tree' rest', parse_code o fuel text id = PMatch tree rest /\ parse_code o fuel' text' id' = PMatch tree' rest' /\
    same_outcome (compile m tree) (compile m tree').
Proof.
  intros o m id id' program text text' fuel fuel' H H' HF HF'.
  destruct (program_reads o id program text fuel H HF) as (tree & rest & E & T).
  destruct (program_reads o id' program text' fuel' H' HF') as (tree' & rest' & E' & T').
  exists tree, rest, tree', rest'. split; [exact E|]. split; [exact E'|]. exact (compile_alike m tree tree' (program_trees _ _ _ _ T T')).
Qed.
Print Assumptions C87_accepted.

(** They mean the same: the same result, error, globals and data, with functions that differ
    in their positions at most; one needs more fuel exactly if the other does. *)
Theorem C87_meaning : forall D o m opts enter leave (builtins : rstring -> option (sbuiltin (D:=D))) program tree tree' rounds st st',
  body_tree false program tree -> body_tree false program tree' -> blind builtins -> like_state st st' ->
  like_out like (eval m o opts enter leave builtins rounds tree st) (eval m o opts enter leave builtins rounds tree' st').
Proof. exact (fun D o m opts en le b program tree tree' k st st' T T' HB HS => eval_alike m o opts en le b k tree tree' st st' HB (program_trees _ _ _ _ T T') HS). Qed.
Print Assumptions C87_meaning.

(** The library looks into no function. *)
Theorem C87_library : forall D m o, blind (std_known (D:=D) m o).
Proof. exact (fun D m o => std_blind m o). Qed.
Print Assumptions C87_library.

(** And they run the same: where one machine ends within [k] instructions, the other ends with
    a value that prints the same or with the same error, and with such globals.  As in C01 this
    is for programs of the size and with the places of declarations there, where the definition
    of programs settles what they do, and up to the limits of stack and time.  MISSING: programs
    outside of C01's conditions; that the limits are met together. *)
Theorem C87_run_partial : forall D m (hst : host D) orc id id' program text text' fuel fuel' tree rest tree' rest' sc sc' feq d opts k,
  let s := add_builtins_list (std m (h_oracle hst) feq) (vm_new d sc opts) in
  let s' := add_builtins_list (std m (h_oracle hst) feq) (vm_new d sc' opts) in
  spelled_body (o_f64_parse orc) program text -> spelled_body (o_f64_parse orc) program text' ->
  S (length text) < fuel -> S (length text') < fuel' ->
  parse_code orc fuel text id = PMatch tree rest -> parse_code orc fuel' text' id' = PMatch tree' rest' ->
  compile m tree = COk sc -> compile m tree' = COk sc' ->
  weights tree <= N.to_nat 65535 -> placed_program tree -> length (p_entries (v_gsyms s)) <= N.to_nat 65536 ->
  eval m (h_oracle hst) opts (h_enter hst) (h_leave hst) (std_known m (h_oracle hst)) k tree (mkSst [] [] d) <> Unspecified ->
  stopped_by_limit m hst s' \/
  match run m hst k s with
  | RDone w t => exists k' w' t', run m hst k' s' = RDone w' t' /\ alike_value w w' /\ alike_globals t t'
  | RErr e _ t => (e = EStackOverflow \/ exists l, e = ERuntimeLimit l) \/
                  exists k' sp' t', run m hst k' s' = RErr e sp' t' /\ alike_globals t t'
  | RPanic => False
  | ROut _ => True
  end.
Proof.
  intros D m hst orc id id' program text text' fuel fuel' tree rest tree' rest' sc sc' feq d opts k s s' H H' HF HF' E E' HC HC' HW HP HR HE.
  destruct (program_reads orc id program text fuel H HF) as (u & r & E1 & T). rewrite E in E1. injection E1 as <- <-.
  destruct (program_reads orc id' program text' fuel' H' HF') as (u' & r' & E1' & T'). rewrite E' in E1'. injection E1' as <- <-.
  pose proof (program_trees _ _ _ _ T T') as HT.
  assert (HG : sc_globals sc = sc_globals sc') by (pose proof (compile_alike m tree tree' HT) as HO; rewrite HC, HC' in HO; apply HO).
  eapply (layout_run m hst tree tree' sc sc' (std_known m (h_oracle hst)) (mkSst [] [] d) s s' k HT HC HC' HW HP
    (parse_code_named _ _ _ _ _ _ E) (parse_code_named _ _ _ _ _ _ E') (std_blind m _) (lib_starts m hst feq d sc opts) (lib_starts m hst feq d sc' opts)).
  - unfold s, s'. rewrite !lib_opts. reflexivity.
  - exact HR.
  - unfold s'. rewrite (lib_syms _ _ (vm_new d sc opts)); [exact HR|]. symmetry. exact HG.
  - unfold s. rewrite lib_opts. exact HE.
Qed.
Print Assumptions C87_run_partial.

(** The sample of C86 and the same program with a comment, empty lines and indentation. *)
Example C87_example : spelled_body (o_f64_parse no_oracle) sample sample_text /\ spelled_body (o_f64_parse no_oracle) sample sample_other /\
  map snd (tree_of_text sample_text) <> map snd (tree_of_text sample_other) /\
  weights (tree_of_text sample_text) <= N.to_nat 65535 /\ placed_program (tree_of_text sample_text) /\
  compile Release (tree_of_text sample_text) = COk (script_of_text sample_text) /\ compile Release (tree_of_text sample_other) = COk (script_of_text sample_other) /\
  length (p_entries (v_gsyms (ready_vm sample_text))) <= N.to_nat 65536 /\
  (eval_int sample_text = Some 27%Z /\ eval_int sample_other = Some 27%Z) /\ run_int sample_text = Some 27%Z /\ run_int sample_other = Some 27%Z.
Proof.
  exact (conj (sample_ok _) (conj (other_ok _) (conj trees_differ (conj sample_weight (conj sample_placed
    (conj sample_compiles (conj other_compiles (conj sample_room (conj both_eval both_run))))))))).
Qed.
