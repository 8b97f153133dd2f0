(** Data that is shown and read back (C98). *)
From Verif Require Import Base RleVec Pool Vecc Float NumText Bytecode Chunk Value Ast Arith VmOps Parse Compiler Vm SpecArith SpecParse
  SpecEval SpecRound SpecText ProofText ProofArithEx ProofParseEx ExProg.
From Verif Require SpecProg.

Definition some_data : value := 
  VArray [VInt (-4); VPair (VBool true) (VRange (-2) 3); VColor 255 0 16 1; VArray [] 0 7; VNone] 
    (get_size (VInt (-4) : value) + (get_size (VPair (VBool true) (VRange (-2) 3) : value) + (get_size (VColor 255 0 16 1 : value) + 
      (get_size (VArray [] 0 7 : value) + (get_size (VNone : value) + 0))))) 50.
Definition some_text : rstring := str "[-4, (true, -2:3), #ff001001, [], none]".
Lemma some_plain : plain_data no_oracle some_data.
Proof. repeat constructor; discriminate. Qed.
Lemma some_wf : value_wf some_data.
Proof. constructor; [|reflexivity]. repeat constructor; discriminate. Qed.
Lemma some_shows : display no_oracle mfi some_data = some_text.
Proof. vm_compute. reflexivity. Qed.
Lemma some_shown : written (o_f64_text no_oracle) some_data some_text.
Proof. rewrite <- some_shows. exact (written_display no_oracle some_data some_wf). Qed.
Lemma some_literal : parse_literal no_oracle 100 some_text = 
  PMatch (LArray [LInt (-4); LPair (LBool true) (LRange (-2) 3); LColor 255 0 16 1; LArray []; LNone]) (length some_text, []).
Proof. vm_compute. reflexivity. Qed.
(** What the program that was shown comes to. *)
Lemma some_runs : value_of_text Release some_text = 
  Some (VArray [VInt (-4); VPair (VBool true) (VRange (-2) 3); VColor 255 0 16 1; VArray [] 0 0; VNone] 80 80).
Proof. vm_compute. reflexivity. Qed.
Lemma one_digit : decimal 1 (str "1").
Proof. exists [1%Z]. repeat split. repeat constructor; discriminate. Qed.
Lemma one_text o fuel : parse_literal o (S fuel) (str "1") = PMatch (LInt 1) (1, []).
Proof. reflexivity. Qed.
Lemma least_shown : written (o_f64_text no_oracle) (VInt (- 2 ^ 63)) (str "-" ++ too_big).
Proof. exact (written_display no_oracle (VInt (- 2 ^ 63)) (wf_int _ (conj (Z.le_refl _) eq_refl))). Qed.
