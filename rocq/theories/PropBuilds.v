(** Checked and release builds (C105).  [checked_builtins], [checked_run] (the checked build aborts or both do the same) and
    [checked_session] are in SpecBuilds.v. *)
From Verif Require Import Base RleVec Pool Float Bytecode Chunk Value Ast Parse Compiler Vm Std Console Repl Cli Main SpecVm SpecBuilds
  ProofArithEx ProofConsoleEx ProofCliEx ProofMainEx ProofBuilds ProofBuilds2 ProofBuildsEx.

(** ** C105  The compiler of a checked build aborts, or compiles and complains as the one of a release build. *)
Theorem C105_compile : forall ast, compile Debug ast = CPanic \/ compile Debug ast = compile Release ast.
Proof. exact compile_comes. Qed.
Print Assumptions C105_compile.

(** ** C105  So does the machine, after every number of instructions, with builtins that do (in particular the same builtins);
    those of the library do. *)
Theorem C105_run : forall D (hst : host D) ast sc d o bs bs' k,
  compile Debug ast = COk sc -> Forall2 checked_builtins bs bs' ->
  compile Release ast = COk sc /\
  checked_run (run Debug hst k (vm_new_with d sc o bs)) (run Release hst k (vm_new_with d sc o bs')).
Proof.
  intros D hst ast sc d o bs bs' k H B. split; [|now apply checked_runs, beside_new].
  destruct (compile_comes ast) as [E|E]; rewrite H in E; [discriminate E|now rewrite <- E].
Qed.
Print Assumptions C105_run.
Theorem C105_library : forall orc feq fhash,
  checked_builtins (stdio Debug orc feq fhash) (stdio Release orc feq fhash) /\
  forall D (l : list (rstring * builtin D)), checked_builtins l l.
Proof. exact (fun orc feq fhash => conj (stdio_checked orc feq fhash) (@checked_same)). Qed.
Print Assumptions C105_library.

(** ** C105  Lines of a session come to the same until the checked build aborts. *)
Theorem C105_session : forall D (hst : host D) d o bs bs' k lines, Forall2 checked_builtins bs bs' ->
  checked_session (fst (session_of Debug hst k (repl_new d o bs) lines)) (fst (session_of Release hst k (repl_new d o bs') lines)).
Proof. intros D hst d o bs bs' k lines B. now apply session_two, repl_new_two. Qed.
Print Assumptions C105_session.

(** ** C105  The command of a checked build aborts, or ends with the same status having written the same. *)
Theorem C105_command : forall hst orc pr elapsed feq fhash k g a name w,
  quilt Debug hst orc pr elapsed feq fhash k g a name w = Aborted \/
  quilt Debug hst orc pr elapsed feq fhash k g a name w = quilt Release hst orc pr elapsed feq fhash k g a name w.
Proof. exact quilt_two. Qed.
Print Assumptions C105_command.

(** A program on both builds; two that abort in the checked build and come to a value in the other: an index from
    the end, and a sum that is out of range. *)
Example C105_example :
  (comes_to Debug fine_text = Some (Some (VInt 6, str "$ 6 
2 
4 
")) /\ comes_to Release fine_text = comes_to Debug fine_text) /\
  (comes_to Debug back_text = Some None /\ comes_to Release back_text = Some (Some (VInt 2, str "$ [3, 1, 2] 
"))) /\
  (comes_to Debug sum_text = Some None /\ comes_to Release sum_text = Some (Some (VInt (- 2 ^ 63), str "$ "))).
Proof. exact (conj ex_fine (conj ex_back ex_sum)). Qed.
Example C105_session_example :
  map told (firstn 5 (session Debug)) = [Some (inl VNone); None; Some (inl (VInt 42)); Some (inr (inl (ENameUndefined (str "b")))); Some (inr (inr tt))] /\
  map told (session Release) = [Some (inl VNone); None; Some (inl (VInt 42)); Some (inr (inl (ENameUndefined (str "b")))); Some (inl (VInt 40)); Some (inl (VInt 40))].
Proof. exact ex_session. Qed.
Example C105_command_example :
  shown_by (quilt Debug talk_host talk_oracle plain_printer (fun _ => str "1ms") no_feq no_fhash 80 no_flags shop_args (str "a") tiny_world) =
  Some (0%N, str "$ 1 RETURNED: 7" ++ [10%N], [], []).
Proof. vm_compute. reflexivity. Qed.
