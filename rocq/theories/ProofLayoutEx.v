(** Witnesses for the properties of layout (C87). *)
From Verif Require Import Base Pool Float Value Ast Compiler CodeSize Vm Std SpecReady SpecArith SpecEval SpecStd Parse SpecParse SpecExpr SpecProg ProofArithEx ProofStd ExProg ProofProgEx ProofStdEx.

(** The program of C86 with a comment in front, empty lines and indentation. *)
Definition gap_in : rstring := nl ++ nl ++ str "  ".
Definition sample_other : rstring :=
  (str "// doubling" ++ nl ++ nl) ++
  str "fn f(a) { return a * 2 }" ++ gap_in ++ str "let x = 1" ++ gap_in ++ str "while x < 10 { x += f(x) }" ++ gap_in ++ str "x".
Lemma sep_in : separator gap_in.
Proof.
  right. split; [split; [|discriminate]|cbn; discriminate].
  apply (ga_line nl (nl ++ str "  ")); [constructor|]. apply (ga_line nl (str "  ")); [constructor|]. apply ga_blank; [cbn; tauto|]. apply gap_sp.
Qed.
Lemma comment_in : gap (str "// doubling" ++ nl ++ nl).
Proof.
  apply (ga_comment (str " doubling") nl nl); [repeat (constructor; [repeat split; discriminate|]); constructor|constructor|].
  apply (ga_line nl []); constructor.
Qed.
Section Ex.
Context (pf : rstring -> option f64).
Ltac starts_ := left; unfold letter; cbn; lia.
Lemma other_ok : spelled_body pf sample sample_other.
Proof.
  refine (sb_lines pf _ sample _ comment_in _).
  refine (so_more pf _ _ _ _ _ gap_in _ (double_ok pf) sep_in _ _); [discriminate|starts_|].
  refine (so_more pf _ _ _ _ _ gap_in _ _ sep_in _ _); [discriminate| |starts_|].
  { exact (sl_let pf (str "x") None [] _ (str "1") (str " ") (str " ") (str " ") name_x eq_refl (one_ok pf 0) some_sp gap_sp gap_sp). }
  refine (so_more pf _ _ _ _ _ gap_in _ (sl_value pf _ _ (loop_ok pf 0)) sep_in _ _); [discriminate|starts_|].
  exact (so_last pf _ (str "x") [] (sl_value pf _ _ (x_ok pf 0)) gap_0).
Qed.
End Ex.

(** Both texts, parsed, compiled, evaluated and run with the library. *)
Definition tree_of_text (t : rstring) : list nodeS := match parse_code no_oracle 200 t 0 with PMatch l _ => l | _ => [] end.
Definition script_of_text (t : rstring) : script := match compile Release (tree_of_text t) with COk sc => sc | _ => script_of [] end.
Definition ready_vm (t : rstring) : vm unit := lib_vm Release plain_host (fun _ _ => Ok false) tt (script_of_text t) small.
Lemma sample_parses : exists r, parse_code no_oracle 200 sample_text 0 = PMatch (tree_of_text sample_text) r.
Proof. eexists. vm_compute. reflexivity. Qed.
Lemma other_parses : exists r, parse_code no_oracle 200 sample_other 0 = PMatch (tree_of_text sample_other) r.
Proof. eexists. vm_compute. reflexivity. Qed.
Lemma sample_compiles : compile Release (tree_of_text sample_text) = COk (script_of_text sample_text).
Proof. vm_compute. reflexivity. Qed.
Lemma other_compiles : compile Release (tree_of_text sample_other) = COk (script_of_text sample_other).
Proof. vm_compute. reflexivity. Qed.
Lemma trees_differ : map snd (tree_of_text sample_text) <> map snd (tree_of_text sample_other).
Proof. vm_compute. discriminate. Qed.
Lemma sample_weight : weights (tree_of_text sample_text) <= N.to_nat 65535.
Proof. apply Nat.leb_le. vm_compute. reflexivity. Qed.
Lemma sample_placed : placed_program (tree_of_text sample_text).
Proof. vm_compute. reflexivity. Qed.
Lemma sample_room : length (p_entries (v_gsyms (ready_vm sample_text))) <= N.to_nat 65536.
Proof. apply Nat.leb_le. vm_compute. reflexivity. Qed.
Definition eval_int (t : rstring) : option Z :=
  match eval Release no_oracle small (fun d => d) (fun d => d) (std_known Release no_oracle) 300 (tree_of_text t) (mkSst [] [] tt) with
  | Got (VInt z) _ => Some z
  | _ => None
  end.
Definition run_int (t : rstring) : option Z :=
  match run Release plain_host 300 (ready_vm t) with RDone (VInt z) _ => Some z | _ => None end.
Lemma both_eval : eval_int sample_text = Some 27%Z /\ eval_int sample_other = Some 27%Z.
Proof. vm_compute. split; reflexivity. Qed.
Lemma both_run : run_int sample_text = Some 27%Z /\ run_int sample_other = Some 27%Z.
Proof. vm_compute. split; reflexivity. Qed.
