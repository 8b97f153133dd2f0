(** A program that talks, for C01, C03, C68 and C70. *)
From Verif Require Import Base RleVec Pool Vecc Float NumText Bytecode Chunk Value Ast Arith VmOps Parse
  Builtins Compiler Vm Std Console CodeSize SpecParse SpecReady SpecVm SpecEval SpecStd SpecConsole SpecHeld ProofArithEx ExProg
  ProofVmEx ProofParse ProofReady3 ProofStdUse ProofHeldEx ProofSim13 ProofParse5 ProofConsole ProofConsole2.

Definition io_vm m (hst : host world) feq fhash d sc o : vm world :=
  add_builtins_list (stdio m (h_oracle hst) feq fhash) (vm_new d sc o).
Lemma io_starts m hst feq fhash d sc o :
  starts sc (stdio_known m (h_oracle hst)) (mkSst [] [] d) (io_vm m hst feq fhash d sc o).
Proof. apply starts_builtins; [constructor|apply stdio_same]. Qed.
Lemma io_prepared m (hst : host world) feq fhash d sc o : prepared sc (io_vm m hst feq fhash d sc o).
Proof. apply pr_builtins; [constructor|apply stdio_honest]. Qed.

Definition talk_oracle : oracle :=
  mkOracle (fun _ => []) (fun _ => None) (fun _ _ => fzero) (fun _ _ => fzero) (fun _ => []) (fun _ => [])
           (fun c => (c =? 32) || (c =? 10))%N.
Definition talk_host : host world := mkHost (fun x => x) (fun x => x) (fun _ => 0%N) 10 talk_oracle.
Definition talk_text : rstring := str
"let name = @input(""name? "")
let greet = fn(n) { @println(""hi"", n, [1, #ff0000]) @len(n) }
let k = if name == """" { @print(""nobody"") 0 } else { greet(name) }
[k, @input(""""), @hash(k)]".
Definition talk_ast : list nodeS := match parse_code talk_oracle 100 talk_text 0 with PMatch a _ => a | _ => [] end.
Definition talk_world : world :=
  mkWorld (str "$ ") [Some (str " Ada "); Some (str "x")] (fun _ => inr (str "no such file"))
          (fun _ => Some (86399%N, 0%N)) 0 (fun _ => 7%N) (fun _ => fzero) 0 (fun _ => 42%N).
Definition no_feq : mfn -> mfn -> res bool := fun _ _ => Ok false.
Definition no_fhash : mfn -> res (list hitem) := fun _ => Panic.
Definition talk_vm : vm world :=
  io_vm Release talk_host no_feq no_fhash talk_world (script_of talk_ast) small.
Definition talk_eval (fuel : nat) :=
  match eval Release talk_oracle small (fun d => d) (fun d => d) (stdio_known Release talk_oracle) fuel talk_ast
          (mkSst [] [] talk_world) with
  | Got v s => Some (v, w_out (ss_data s))
  | _ => None
  end.
Definition talk_output : rstring := str "$ name? hi Ada [1, #ff0000ff] " ++ [10%N].
Definition talk_value {Fn} : gvalue Fn := VArray [VInt 3; VString (str "x"); VInt 42] 33 1000.
Lemma talk_parses : exists i, parse_code talk_oracle 100 talk_text 0 = PMatch talk_ast i.
Proof. eexists. vm_compute. reflexivity. Qed.
Lemma talk_compiles : compile Release talk_ast = COk (script_of talk_ast).
Proof. vm_compute. reflexivity. Qed.
Lemma talk_weight : weights talk_ast <= N.to_nat 65535.
Proof. apply Nat.leb_le. vm_compute. reflexivity. Qed.
Lemma talk_placed : placed_program talk_ast.
Proof. vm_compute. reflexivity. Qed.
Lemma talk_room : length (p_entries (v_gsyms talk_vm)) <= N.to_nat 65536.
Proof. apply Nat.leb_le. vm_compute. reflexivity. Qed.
Lemma talk_evals : talk_eval 30 = Some (talk_value, talk_output).
Proof. vm_compute. reflexivity. Qed.
Lemma talk_runs :
  match run Release talk_host 500 talk_vm with
  | RDone v s => v = talk_value /\ w_out (v_data s) = talk_output /\ w_in (v_data s) = []
  | _ => False
  end.
Proof. vm_compute. repeat split. Qed.

(** The machine in the middle of the call, after both lines of output. *)
Fixpoint walked {D} m (hst : host D) (k : nat) (s : vm D) : vm D :=
  match k with
  | O => s
  | S k => match step m hst s with SNext s' => walked m hst k s' | _ => s end
  end.
Lemma walked_reach {D} m (hst : host D) s0 k : forall s, reach m hst s0 s -> reach m hst s0 (walked m hst k s).
Proof.
  induction k as [|k IH]; intros s H; cbn [walked]; [exact H|].
  destruct (step m hst s) as [s'| | |] eqn:E; auto. apply IH. eapply reach_step; eauto.
Qed.
Definition talk_mid : vm world := walked Release talk_host 18 talk_vm.
Lemma talk_mid_reach : reach Release talk_host talk_vm talk_mid.
Proof. apply walked_reach. constructor. Qed.
Lemma talk_mid_is : length (v_frames talk_mid) = 1 /\ w_out (v_data talk_mid) = talk_output /\
  w_in (v_data talk_mid) = [Some (str "x")].
Proof. vm_compute. repeat split. Qed.
