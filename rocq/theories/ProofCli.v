(** Proofs about the command line program (C88). *)
From Verif Require Import Base RleVec Pool Float NumText Bytecode Chunk Value Ast Arith VmOps Args Parse Builtins
  Compiler Vm Std Console Includes Report Repl Cli CodeSize SpecIncludes SpecParse SpecReady SpecRel SpecVm SpecEval SpecStd SpecConsole
  ProofParse5 ProofSim13 ProofIncludes ProofEval2 ProofConsole3 ProofConsoleEx.

Section Cli.
Context (m : mode) (hst : host world) (orc : oracle) (pr : printer)
        (feq : mfn -> mfn -> res bool) (fhash : mfn -> res (list hitem)).
Notation parse_text := (parse_text orc).
Notation cli := (cli m hst orc pr feq fhash).

Lemma parse_text_named t id ast : parse_text t id = Some ast -> ordinary_names ast.
Proof.
  unfold Cli.parse_text. destruct (parse_code orc (2 + length t) t id) as [a i| |] eqn:E; intros [= <-].
  exact (parse_code_named _ _ _ _ _ _ E).
Qed.
Lemma spliced_named read id ast ast' n : spliced read parse_text id ast ast' n -> ordinary_names ast -> ordinary_names ast'.
Proof.
  unfold ordinary_names. induction 1 as [|id name nsp body sp t text a t' id' HR HP _ IH|id n sp t t' id' _ _ IH]; intros HN.
  - constructor.
  - inversion HN as [|? ? H1 H2]; subst. constructor; [|auto]. cbn [fst] in *.
    intros b Hb. inversion Hb as [|? c csp ? HI HJ]; subst; [exact Logic.I|]. cbn [children opt_list] in HI.
    pose proof (parse_text_named _ _ _ HP) as HA. unfold ordinary_names in HA. rewrite Forall_forall in HA. exact (HA _ HI b HJ).
  - inversion HN as [|? ? H1 H2]; subst. constructor; [exact H1|auto].
Qed.
Lemma included_named read fuel name text ast is : parse_with_includes read parse_text fuel name text = IOk ast is -> ordinary_names ast.
Proof.
  intros H. apply result_flat in H as (a & n & HP & HS & _). exact (spliced_named _ _ _ _ _ HS (parse_text_named _ _ _ HP)).
Qed.

(** More depth does not change the result of including. *)
Lemma resolve_mono read parse k : forall ast s r, resolve_includes read parse k ast s = r -> r <> IDeep -> resolve_includes read parse (S k) ast s = r.
Proof.
  induction k as [|k IH]; intros ast s r H Hr; [cbn in H; congruence|].
  revert s r H Hr. induction ast as [|[n sp] t IHt]; intros s r H Hr; [exact H|].
  destruct (is_include n) as [(x & b & ->)|Hn].
  - destruct x as [name nsp]. rewrite resolve_include in H |- *.
    destruct (i_mem name s); [exact H|]. destruct (read name) as [text|]; [|exact H].
    destruct (parse text (length (i_sources s))) as [a|]; [|exact H].
    destruct (resolve_includes read parse k a (i_add name s)) as [a2 s2|e|] eqn:E1.
    + rewrite (IH _ _ _ E1) by discriminate.
      destruct (resolve_includes read parse k a2 (i_mark name s2)) as [a3 s3|e|] eqn:E2.
      * rewrite (IH _ _ _ E2) by discriminate.
        destruct (resolve_includes read parse (S k) t s3) as [t' s4|e|] eqn:E3.
        -- rewrite (IHt _ _ E3) by discriminate. exact H.
        -- rewrite (IHt _ _ E3) by discriminate. exact H.
        -- congruence.
      * rewrite (IH _ _ _ E2) by discriminate. exact H.
      * congruence.
    + rewrite (IH _ _ _ E1) by discriminate. exact H.
    + congruence.
  - rewrite resolve_other in H |- * by exact Hn.
    destruct (resolve_includes read parse (S k) t s) as [t' s4|e|] eqn:E3.
    + rewrite (IHt _ _ E3) by discriminate. exact H.
    + rewrite (IHt _ _ E3) by discriminate. exact H.
    + congruence.
Qed.
Lemma includes_mono read parse k j name text r : parse_with_includes read parse k name text = r -> r <> IDeep -> k <= j ->
  parse_with_includes read parse j name text = r.
Proof.
  intros H Hr. induction 1 as [|j Hj IH]; [exact H|]. revert IH. unfold parse_with_includes.
  destruct (parse text 0); [|auto]. intros IH. exact (resolve_mono _ _ _ _ _ _ IH Hr).
Qed.
Lemma run_mono k j (s : vm world) : (forall s', run m hst k s <> ROut s') -> k <= j -> run m hst j s = run m hst k s.
Proof. intros H Hj. unfold run. replace j with (k + (j - k)) by lia. apply loop_more. exact H. Qed.

Context (a : arguments) (name : rstring) (w : world).

(** The process does not change its mind. *)
Theorem cli_settled k j : cli k a name w <> Running -> k <= j -> cli j a name w = cli k a name w.
Proof.
  unfold Cli.cli. destruct (w_file w name) as [text|e]; [|reflexivity].
  intros HR Hj. destruct (parse_with_includes (read_text w) parse_text k name text) as [ast is|e|] eqn:E.
  - rewrite (includes_mono _ _ _ _ _ _ _ E) by (auto; discriminate). destruct (compile m ast) as [sc|e sp|]; [|reflexivity|reflexivity].
    rewrite (run_mono k j _); [reflexivity| |exact Hj].
    intros s' HS. rewrite HS in HR. congruence.
  - rewrite (includes_mono _ _ _ _ _ _ _ E) by (auto; discriminate). reflexivity.
  - congruence.
Qed.

Context (text : rstring) (ast : list nodeS) (is : istate) (depth : nat).
Hypothesis (HF : w_file w name = inl text) (HI : parse_with_includes (read_text w) parse_text depth name text = IOk ast is).
Notation files := (sources w (i_sources is)).
Notation printed v d := (match v with VNone => d | _ => if a_result a then say (str "RETURNED: " ++ display (h_oracle hst) mfi v ++ newline) d else d end).

Lemma cli_refused e sp k : compile m ast = CErr e sp -> depth <= k ->
  cli k a name w = Exited 1 (say (report pr files e sp) w) [].
Proof using HF HI.
  intros HC Hk. unfold Cli.cli. rewrite HF, (includes_mono _ _ _ _ _ _ _ HI) by (auto; discriminate). rewrite HC. reflexivity.
Qed.

Context (sc : script).
Hypothesis (HC : compile m ast = COk sc).
Notation s := (add_builtins_list (stdio m (h_oracle hst) feq fhash) (vm_new w sc (a_limits a))).
Hypothesis (HW : weights ast <= N.to_nat 65535) (HP : placed_program ast) (HR : length (p_entries (v_gsyms s)) <= N.to_nat 65536).
Notation evals fuel := (eval m (h_oracle hst) (a_limits a) (h_enter hst) (h_leave hst) (stdio_known m (h_oracle hst)) fuel ast (mkSst [] [] w)).

Lemma cli_run k : depth <= k -> cli k a name w =
  match run m hst k s with
  | ROut _ => Running
  | RPanic => Aborted
  | RDone v t => Exited 0 (printed v (v_data t)) []
  | RErr e sp t => Exited 1 (say (traceback hst pr files t ++ report pr files e sp) (v_data t)) []
  end.
Proof using HF HI HC.
  intros Hk. unfold Cli.cli. rewrite HF, (includes_mono _ _ _ _ _ _ _ HI) by (auto; discriminate). rewrite HC.
  destruct (run m hst k s) as [v t| | |]; try reflexivity. destruct v; reflexivity.
Qed.
Lemma stdio_opts : v_opts s = a_limits a.
Proof.
  assert (G : forall l (t : vm world), v_opts (add_builtins_list l t) = v_opts t).
  { induction l as [|[n b] l IH]; intros t; [reflexivity|]. cbn [add_builtins_list].
    destruct (pool_add seqb (v_gsyms t) n) as [p i]. rewrite IH. reflexivity. }
  rewrite G. reflexivity.
Qed.

Theorem cli_ends fuel :
  stopped_by_limit m hst s \/
  match evals fuel with
  | Got v st => exists k val, same_value v val /\ cli k a name w = Exited 0 (printed val (ss_data st)) []
  | Failed e st => exists k sp t, cli k a name w = Exited 1 (say (traceback hst pr files t ++ report pr files e sp) (ss_data st)) []
  | More => forall k, k <= fuel -> cli k a name w = Running
  | Unspecified => True
  | Returned _ _ => False
  end.
Proof using HF HI HC HW HP HR.
  destruct (whole_program m hst ast sc (stdio_known m (h_oracle hst)) (mkSst [] [] w) s fuel HC HW HP (included_named _ _ _ _ _ _ HI) (io_starts m hst feq fhash w sc (a_limits a)) HR) as [HL|HA];
    [left; exact HL|right].
  rewrite stdio_opts in HA.
  destruct (evals fuel) as [v st|v st|e st| |]; cbn [agrees] in HA; auto.
  - destruct HA as (k & val & t & E & K1 & K2 & K3). exists (Nat.max depth k), val. split; [exact K1|].
    rewrite cli_run by lia. rewrite (run_mono k) by (lia || (rewrite E; discriminate)). rewrite E, K2. reflexivity.
  - destruct HA as (k & sp & t & E & K2 & K3). exists (Nat.max depth k), sp, t.
    rewrite cli_run by lia. rewrite (run_mono k) by (lia || (rewrite E; discriminate)). rewrite E, K2. reflexivity.
  - intros k Hk. destruct (HA k Hk) as [t E]. unfold Cli.cli. rewrite HF.
    destruct (parse_with_includes (read_text w) parse_text k name text) as [ast2 is2|e esp eis|] eqn:E2; [|exfalso|reflexivity].
    + assert (G : IOk ast2 is2 = IOk ast is).
      { rewrite <- (includes_mono _ _ _ (Nat.max depth k) _ _ _ E2) by (discriminate || lia).
        apply (includes_mono _ _ depth); [exact HI|discriminate|lia]. }
      injection G as -> ->. rewrite HC, E. reflexivity.
    + assert (G : IErr e esp eis = IOk ast is).
      { rewrite <- (includes_mono _ _ _ (Nat.max depth k) _ _ _ E2) by (discriminate || lia).
        apply (includes_mono _ _ depth); [exact HI|discriminate|lia]. }
      discriminate.
Qed.
End Cli.
