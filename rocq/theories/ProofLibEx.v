(** Programs for C78. *)
From Verif Require Import Base RleVec Pool Vecc Float NumText Bytecode Chunk Value Ast Arith VmOps Parse
  Builtins Compiler Vm Std Console SpecArith ProofArithEx ExProg ProofVmEx ProofHeldEx ProofConsoleEx.

Lemma err_of {D} (r : rres D) e : match r with RErr x _ _ => x = e | _ => False end -> exists sp s, r = RErr e sp s.
Proof. destruct r; try contradiction. intros ->. eauto. Qed.
(** A new machine with the whole library, running the given program. *)
Definition fresh_run (ast : list nodeS) : rres world :=
  run Release talk_host 50 (io_vm Release talk_host no_feq no_fhash talk_world (script_of ast) small).

Definition eager_text : rstring := str "false && @panic(""both sides"")".
Definition eager_ast : list nodeS := match parse_code talk_oracle 100 eager_text 0 with PMatch a _ => a | _ => [] end.
Lemma eager_parses : exists i, parse_code talk_oracle 100 eager_text 0 = PMatch eager_ast i.
Proof. eexists. vm_compute. reflexivity. Qed.
Lemma eager_compiles : compile Release eager_ast = COk (script_of eager_ast).
Proof. vm_compute. reflexivity. Qed.
Lemma eager_runs : exists sp s, fresh_run eager_ast = RErr (EBuiltin (str "both sides")) sp s.
Proof. apply err_of. vm_compute. reflexivity. Qed.
Definition eager2_text : rstring := str "true || @panic(""both sides"")".
Definition eager2_ast : list nodeS := match parse_code talk_oracle 100 eager2_text 0 with PMatch a _ => a | _ => [] end.
Lemma eager2_parses : exists i, parse_code talk_oracle 100 eager2_text 0 = PMatch eager2_ast i.
Proof. eexists. vm_compute. reflexivity. Qed.
Lemma eager2_compiles : compile Release eager2_ast = COk (script_of eager2_ast).
Proof. vm_compute. reflexivity. Qed.
Lemma eager2_runs : exists sp s, fresh_run eager2_ast = RErr (EBuiltin (str "both sides")) sp s.
Proof. apply err_of. vm_compute. reflexivity. Qed.
