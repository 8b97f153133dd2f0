(** Properties of the whole notation: C86. *)
From Verif Require Import Base Float Ast Parse SpecArith SpecParse SpecExpr SpecProg ProofArithEx ProofProg13 ProofProgEx.

(** * C86  Every text that is written as the notation says is read as the program it spells *)

(** White space, comments, literals, operators, calls, assignments, functions, blocks, all
    control structures and statements; the tree is the one of the program, whatever the layout. *)
Theorem C86_reading : forall o id program text fuel,
  spelled_body (o_f64_parse o) program text -> S (length text) < fuel ->
  exists tree rest, parse_code o fuel text id = PMatch tree rest /\ body_tree false program tree.
Proof. exact program_reads. Qed.
Print Assumptions C86_reading.

(** A text has one reading: whatever two programs it spells have one tree. *)
Theorem C86_one_reading : forall o program program' text,
  spelled_body (o_f64_parse o) program text -> spelled_body (o_f64_parse o) program' text ->
  exists tree, body_tree false program tree /\ body_tree false program' tree.
Proof. exact program_one. Qed.
Print Assumptions C86_one_reading.

(** fn f(a) { return a * 2 }, let x = 1, while x < 10 { x += f(x) }, x: a line each. *)
Example C86_example : spelled_body (o_f64_parse no_oracle) sample sample_text.
Proof. exact (sample_ok _). Qed.

(** A semicolon ends a comment: what stands behind it is part of the program. *)
Theorem C86_comment_refuted : exists text, (forall c, In c text -> c <> 10 /\ c <> 13)%N /\
  exists sp i, parse_code no_oracle 20 (str "1 //" ++ text) 0 = PMatch [(NLiteral (LInt 1), sp); (NIdentifier (str "b"), mkSpan 7 8 0)] i.
Proof.
  exists (str " a;b"). split; [intros c Hc; cbn in Hc; decompose [or] Hc; subst; try (split; discriminate); contradiction|].
  eexists _, _. vm_compute. reflexivity.
Qed.
Print Assumptions C86_comment_refuted.

(** An integer, a colon and an integer are a range before any operator is looked at:
    x + 1 : 2 adds the range 1 : 2 to x, though every operator binds tighter than the colon. *)
Theorem C86_range_refuted : exists text a b, 
  spelled (o_f64_parse no_oracle) 1 a (str "x + 1") /\ text = str "x + 1" ++ str " : " ++ str "2" /\ spelled (o_f64_parse no_oracle) 1 b (str "2") /\
  ~ (exists tree i, parse_code no_oracle 30 text 0 = PMatch tree i /\ body_tree false [SValue (PRange a b)] tree).
Proof.
  eexists _, (PBinary OAdd (var (str "x")) (int 1)), (int 2). split.
  { exact (sp_binary _ 1 OAdd (str "+") 5 _ _ (str "x") (str "1") (str " ") (str " ") eq_refl (le_S _ _ (le_S _ _ (le_S _ _ (le_S _ _ (le_n 1))))) (x_ok _ _) (one_ok _ _) some_sp spaced_sp). }
  split; [reflexivity|]. split; [apply two_ok|]. intros (tree & i & E & T). vm_compute in E. injection E as <- _.
  inversion T; subst. match goal with H : tree_of (PRange _ _) _ |- _ => inversion H end.
Qed.
Print Assumptions C86_range_refuted.

(** No text with a power and an assignment sign after a name is a program, though a sign for it is there for
    every other operator. *)
Example C86_power_sign : parse_code no_oracle 30 (str "x **= 2") 0 = PFail /\ assign_sign (Some OPow) = None.
Proof. split; vm_compute; reflexivity. Qed.
