(** A program that needs 31 calls, for C102. *)
From Verif Require Import Base RleVec Pool Vecc Float NumText Bytecode Chunk Value Ast Arith VmOps Args Parse Builtins
  Compiler Vm Std Console Includes Report Repl Cli SpecLimits ProofLimits ProofLimits2 ProofArithEx ProofConsoleEx ProofCliEx ExProg.

Definition deep_text (n : rstring) : rstring := str "let f = fn(n) { if n == 0 { return 7 } @print(n) f(n - 1) } f(" ++ n ++ str ")".
Definition large : options := mkOptions 20 500 100 1000 1000.
Definition deep_files (n : rstring) : rstring + rstring := inl (deep_text n).
Definition deep_world : world :=
  mkWorld [] [] deep_files (fun _ => Some (0%N, 0%N)) 0 (fun _ => 7%N) (fun _ => fzero) 0 (fun _ => 42%N).
Definition deep (o : options) (n : rstring) :=
  cli Release talk_host talk_oracle plain_printer no_feq no_fhash 2000 (mkArguments true o) n deep_world.
Definition seen (e : ended) : option (N * rstring) :=
  match e with Exited s w _ => Some (s, w_out w) | _ => None end.
Lemma small_large : roomier small large.
Proof. vm_compute. repeat split; try discriminate; repeat constructor. Qed.
Lemma deep_alike : seen (deep small (str "3")) = Some (0%N, str "3 2 1 RETURNED: 7" ++ [10%N]) /\ seen (deep large (str "3")) = seen (deep small (str "3")).
Proof. split; vm_compute; reflexivity. Qed.
(** 30 calls are too many for one of them. *)
Lemma deep_apart : option_map fst (seen (deep small (str "30"))) = Some 1%N /\ option_map fst (seen (deep large (str "30"))) = Some 0%N.
Proof. split; vm_compute; reflexivity. Qed.
(** A session of two programs on machines with the limits. *)
Definition deep_script (n : rstring) : script :=
  match parse_text talk_oracle (deep_text n) 0 with Some ast => script_of ast | None => script_of [] end.
Definition deep_vm (o : options) : vm world := vm_new_with deep_world (deep_script (str "3")) o [stdio Release talk_oracle no_feq no_fhash].
Definition vm_after (s : vm world) : vm world := match run Release talk_host 2000 s with RDone _ t => t | _ => s end.
Definition deep_second (o : options) : vm world := update_script (deep_script (str "12")) (vm_after (deep_vm o)).
Definition sevens (s : vm world) : bool :=
  match run Release talk_host 2000 s with RDone (VInt z) _ => (z =? 7)%Z | _ => false end.
Lemma sevens_after s : sevens s = true -> run Release talk_host 2000 s = RDone (VInt 7) (vm_after s).
Proof.
  unfold sevens, vm_after. destruct (run Release talk_host 2000 s) as [v t|e sp t| |t]; try discriminate.
  destruct v; try discriminate. intros H. apply Z.eqb_eq in H. now subst.
Qed.
Lemma deep_first_small : sevens (deep_vm small) = true. Proof. vm_compute. reflexivity. Qed.
Lemma deep_first_large : sevens (deep_vm large) = true. Proof. vm_compute. reflexivity. Qed.
Lemma deep_fair l n b : In l [stdio Release talk_oracle no_feq no_fhash] -> In (n, b) l -> fair b.
Proof. intros [<-|[]]. apply library_fair. Qed.
Lemma deep_twins : twins Release talk_host small large (deep_second small) (deep_second large).
Proof.
  unfold deep_second. apply tw_script. apply (tw_done Release talk_host small large 2000 (VInt 7) (deep_vm small) (deep_vm large)).
  - exact (tw_new Release talk_host small large deep_world (deep_script (str "3")) _ deep_fair).
  - exact (sevens_after _ deep_first_small).
  - exact (sevens_after _ deep_first_large).
Qed.
Definition value_of_run (s : vm world) : option (value * rstring) :=
  match run Release talk_host 2000 s with RDone v t => Some (v, w_out (v_data t)) | _ => None end.
Lemma deep_again : value_of_run (deep_second small) = Some (VInt 7, str "3 2 1 12 11 10 9 8 7 6 5 4 3 2 1 ") /\
  value_of_run (deep_second large) = value_of_run (deep_second small).
Proof. split; vm_compute; reflexivity. Qed.
