(** Raising limits (C102).  [roomier], [limit_error], [fair], [alike], [twins] are in SpecLimits.v. *)
From Verif Require Import Base RleVec Pool Float NumText Bytecode Chunk Value Ast Compiler Vm Std Console Includes Report Cli
  SpecLimits ProofLimits ProofLimits2 ProofArithEx ProofConsoleEx ProofCliEx ProofLimitsEx.
From Verif Require Import ExProg.

(** ** C102  A run that does not stop at a limit is the same with higher limits: the same value or
    the same error at the same place with the same traceback, after the same number of steps,
    and machines that cannot be told apart afterwards. *)
Theorem C102_same : forall D m (hst : host D) o o' k s s', roomier o o' -> twins m hst o o' s s' ->
  match run m hst k s with
  | RDone v t => exists t', run m hst k s' = RDone v t' /\ alike t t'
  | RErr e sp t => limit_error e \/ exists t', run m hst k s' = RErr e sp t' /\ alike t t' /\ trace_back t = trace_back t'
  | ROut t => exists t', run m hst k s' = ROut t' /\ alike t t'
  | RPanic => True
  end.
Proof. intros D m hst o o' k s s'. exact (larger m hst o o' k s s'). Qed.
Print Assumptions C102_same.

(** Lower limits can make a run that ends with a value report a limit, but not end with another value
    or another error. *)
Theorem C102_lower : forall D m (hst : host D) o o' k s s' v t', roomier o o' -> twins m hst o o' s s' ->
  run m hst k s' = RDone v t' ->
  (exists t, run m hst k s = RDone v t /\ alike t t') \/
  (exists e sp t, run m hst k s = RErr e sp t /\ limit_error e) \/ run m hst k s = RPanic.
Proof. intros D m hst o o' k s s' v t'. exact (smaller m hst o o' k s s' v t'). Qed.
Print Assumptions C102_lower.

(** The builtins of the library do not look at these limits. *)
Theorem C102_library : forall m orc feq fhash n b, In (n, b) (stdio m orc feq fhash) -> fair b.
Proof. exact library_fair. Qed.
Print Assumptions C102_library.

(** On the command line: the same status and the same output, unless the smaller limit is reported. *)
Theorem C102_command : forall m hst orc pr feq fhash k r o o' name w, roomier o o' ->
  let file l := cli m hst orc pr feq fhash k (mkArguments r l) name w in
  file o = file o' \/ file o = Aborted \/
  exists c e sp s, limit_error e /\ file o = Exited 1 (say (traceback hst pr c s ++ report pr c e sp) (v_data s)) [].
Proof. exact command. Qed.
Print Assumptions C102_command.

(** 3 calls are the same with both limits; 30 are too many for the smaller. *)
Example C102_example :
  roomier small large /\
  (seen (deep small (str "3")) = Some (0%N, str "3 2 1 RETURNED: 7" ++ [10%N]) /\ seen (deep large (str "3")) = seen (deep small (str "3"))) /\
  (option_map fst (seen (deep small (str "30"))) = Some 1%N /\ option_map fst (seen (deep large (str "30"))) = Some 0%N) /\
  twins Release talk_host small large (deep_second small) (deep_second large) /\
  (value_of_run (deep_second small) = Some (VInt 7, str "3 2 1 12 11 10 9 8 7 6 5 4 3 2 1 ") /\
   value_of_run (deep_second large) = value_of_run (deep_second small)).
Proof. exact (conj small_large (conj deep_alike (conj deep_apart (conj deep_twins deep_again)))). Qed.
