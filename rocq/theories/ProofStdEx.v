(** The example of C68 run with the standard library, by the machine and by definition. *)
From Verif Require Import Base RleVec Pool Vecc Float NumText Bytecode Chunk Value Ast Arith VmOps Parse
  Builtins Compiler Vm Std CodeSize SpecParse SpecReady SpecEval SpecStd SpecHeld ProofArithEx ExProg ProofVmEx
  ProofParse ProofReady3 ProofStdUse ProofHeldEx ProofSim13 ProofParse5.

Definition lib_vm {D} m (hst : host D) feq d sc o : vm D :=
  add_builtins_list (std m (h_oracle hst) feq) (vm_new d sc o).
Lemma lib_starts {D} m (hst : host D) feq d sc o :
  starts sc (std_known m (h_oracle hst)) (mkSst [] [] d) (lib_vm m hst feq d sc o).
Proof. apply starts_builtins; [constructor|apply std_same]. Qed.
Lemma lib_prepared {D} m (hst : host D) feq d sc o : prepared sc (lib_vm m hst feq d sc o).
Proof. apply pr_builtins; [constructor|apply std_honest]. Qed.

Definition lib_eval (fuel : nat) (ast : list nodeS) :=
  match eval Release no_oracle small (fun d => d) (fun d => d) (std_known Release no_oracle) fuel ast
          (mkSst [] [] tt) with
  | Got v _ => Some v
  | _ => None
  end.
Lemma held_weight : weights held_ast <= N.to_nat 65535.
Proof. apply Nat.leb_le. vm_compute. reflexivity. Qed.
Lemma held_placed : placed_program held_ast.
Proof. vm_compute. reflexivity. Qed.
Lemma held_eval : lib_eval 20 held_ast =
  Some (VArray [VColor 128 64 128 192; VInt (- 2 ^ 63); VInt (-16)] 48 1000).
Proof. vm_compute. reflexivity. Qed.
Lemma held_room : length (p_entries (v_gsyms (lib_vm Release (plain_host (D:=unit)) (fun _ _ => Ok false) tt
  (script_of held_ast) small))) <= N.to_nat 65536.
Proof. apply Nat.leb_le. vm_compute. reflexivity. Qed.
