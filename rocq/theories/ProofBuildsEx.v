(** Examples for C105. *)
From Verif Require Import Base RleVec Pool Float Bytecode Chunk Value Ast Parse Compiler Vm Std Console Repl SpecBuilds ProofArithEx ProofConsoleEx.
From Verif Require Import ExProg.

(** A program that stays in range, one that indexes from the end, and one whose sum is out of range. *)
Definition fine_text : rstring := str "let l = [3,1,2];for x in l { @println(x * 2) };@len(l) + l[0]".
Definition back_text : rstring := str "let l = [3,1,2];@println(l);l[-1]".
Definition sum_text : rstring := str "9223372036854775807 + 1".
Definition ast_of (t : rstring) : list nodeS := match parse_code talk_oracle 100 t 0 with PMatch a _ => a | _ => [] end.
Definition comes_to (m : mode) (t : rstring) : option (option (value * rstring)) :=
  match compile m (ast_of t) with
  | COk sc => match run m talk_host 500 (vm_new_with talk_world sc small [stdio m talk_oracle no_feq no_fhash]) with
              | RDone v s => Some (Some (v, w_out (v_data s))) | RPanic => Some None | _ => None end
  | _ => None
  end.
Lemma ex_fine : comes_to Debug fine_text = Some (Some (VInt 6, str "$ 6 
2 
4 
")) /\ comes_to Release fine_text = comes_to Debug fine_text.
Proof. split; vm_compute; reflexivity. Qed.
Lemma ex_back : comes_to Debug back_text = Some None /\ comes_to Release back_text = Some (Some (VInt 2, str "$ [3, 1, 2] 
")).
Proof. split; vm_compute; reflexivity. Qed.
Lemma ex_sum : comes_to Debug sum_text = Some None /\ comes_to Release sum_text = Some (Some (VInt (- 2 ^ 63), str "$ ")).
Proof. split; vm_compute; reflexivity. Qed.
Definition lines : list (option (list nodeS)) := [Some (ast_of (str "let a = 40")); None; Some (ast_of (str "a + 2")); Some (ast_of (str "b")); Some (ast_of (str "[a][-1]")); Some (ast_of (str "a"))].
Definition told (o : outcome world) : option (value + (error + unit)) :=
  match o with ORun (RDone v _) => Some (inl v) | ORun (RErr e _ _) => Some (inr (inl e)) | ORun RPanic => Some (inr (inr tt)) | _ => None end.
Definition session (m : mode) : list (outcome world) := fst (session_of m talk_host 500 (repl_new talk_world small [stdio m talk_oracle no_feq no_fhash]) lines).
Lemma ex_session :
  map told (firstn 5 (session Debug)) = [Some (inl VNone); None; Some (inl (VInt 42)); Some (inr (inl (ENameUndefined (str "b")))); Some (inr (inr tt))] /\
  map told (session Release) = [Some (inl VNone); None; Some (inl (VInt 42)); Some (inr (inl (ENameUndefined (str "b")))); Some (inl (VInt 40)); Some (inl (VInt 40))].
Proof. split; vm_compute; reflexivity. Qed.
