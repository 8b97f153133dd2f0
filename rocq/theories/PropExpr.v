(** Properties of the notation for expressions: C67. *)
From Verif Require Import Base Float Ast Parse SpecArith SpecParse SpecExpr ProofArithEx ProofExpr5 ProofExprEx.

(** * C67  Operators bind as the table of levels says *)

(** Every text that spells an expression is read as that expression: tighter operators first,
    operators of the same level from left to right, parentheses as written. *)
Theorem C67_reading : forall o id e text before after fuel,
  spelled 0 e text -> spaces before -> spaces after ->
  S (length (before ++ text ++ after)) < fuel ->
  exists n sp i, parse_code o fuel (before ++ text ++ after) id = PMatch [(n, sp)] i /\ tree_of e n.
Proof. exact expression_program. Qed.
Print Assumptions C67_reading.

(** So there is one way to read a text. *)
Theorem C67_one_reading : forall e e' text, spelled 0 e text -> spelled 0 e' text -> e = e'.
Proof. exact spelling_unique. Qed.
Print Assumptions C67_one_reading.

(** a - b - 2 * a is (a - b) - (2 * a). *)
Example C67_example :
  let mul := EBinary OMul (ENumber 2) (EName (str "a")) in
  let sub := EBinary OSub (EName (str "a")) (EName (str "b")) in
  spelled 0 (EBinary OSub sub mul) (str "a - b - 2 * a") /\
  spelled 0 (EBinary OSub (EName (str "a")) (EBinary OSub (EName (str "b")) mul)) (str "a - (b - 2 * a)").
Proof.
  assert (M : spelled 6 (EBinary OMul (ENumber 2) (EName (str "a"))) (str "2 * a")).
  { exact (sp_binary 6 OMul (str "*") 6 _ _ _ _ (str " ") (str " ") eq_refl (le_n _) (two_ok 6) (a_ok 7) sp1 sp1 some_space some_space). }
  split.
  - refine (sp_binary 0 OSub (str "-") 5 _ _ (str "a - b") _ (str " ") (str " ") eq_refl (Nat.le_0_l _) _ M sp1 sp1 some_space some_space).
    exact (sp_binary 5 OSub (str "-") 5 _ _ _ _ (str " ") (str " ") eq_refl (le_n _) (a_ok 5) (b_ok 6) sp1 sp1 some_space some_space).
  - refine (sp_binary 0 OSub (str "-") 5 _ _ (str "a") (str "(b - 2 * a)") (str " ") (str " ") eq_refl (Nat.le_0_l _) (a_ok 5) _ sp1 sp1 some_space some_space).
    refine (sp_paren 6 _ (str "b - 2 * a") [] [] _ sp0 sp0).
    exact (sp_binary 0 OSub (str "-") 5 _ _ _ _ (str " ") (str " ") eq_refl (Nat.le_0_l _) (b_ok 5) M sp1 sp1 some_space some_space).
Qed.
(** !f(a, b)[2] is !((f(a, b))[2]). *)
Example C67_calls_example :
  spelled 0 (EUnary ONot (EIndex (ECall (EName (str "f")) [EName (str "a"); EName (str "b")]) (ENumber 2))) (str "!f(a, b)[2]").
Proof.
  refine (sp_unary 0 ONot (str "!") _ (str "f(a, b)[2]") [] eq_refl (Nat.le_0_l _) _ sp0).
  refine (sp_index 8 _ _ (str "f(a, b)") (str "2") [] [] _ (two_ok 0) sp0 sp0).
  refine (sp_call 9 _ _ (str "f") (str "a, b") _ _).
  - apply sp_name. name_ok.
  - exact (sp_more _ _ _ (str "a") (str " b") [] [] (a_ok 0) (sp_last _ (str "b") (str " ") [] (b_ok 0) sp1 sp0) sp0 sp0).
Qed.
