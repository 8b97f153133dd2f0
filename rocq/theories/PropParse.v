(** Properties of the parser: C40, C41, C42, C66. *)
From Verif Require Import Base RleVec Pool Vecc Float NumText Bytecode Chunk Value Ast Arith VmOps Args Builtins
  Compiler Vm Parse SpecArith SpecParse ProofArithEx ProofParse ProofParse2 ProofParse3 ProofParse4 ProofParseEx.

(** * C40  Every body produces a value *)

(** However a text is parsed: the program and every body at any depth in it end in an
    expression or a return, function bodies in a return. *)
Theorem C40_every_body_yields : forall o fuel text id ast i,
  parse_code o fuel text id = PMatch ast i -> good_body false ast /\ complete_all ast.
Proof. exact parse_code_complete. Qed.
Print Assumptions C40_every_body_yields.

Example C40_example : exists ast i,
  parse_code no_oracle 20 (str "fn f(x) { if x { let y = 1 } }  let g = fn() {}") 0 = PMatch ast i /\
  length ast = 3 /\
  exists n a c s1 s2, nth_error ast 0 = Some (NFunction n a
     [(NReturn (Some (NConditional c [(NDeclaration (VarDecl (str "y", s1)) (NLiteral (LInt 1), s2), mkSpan 17 26 0);
                                      (NLiteral LNone, mkSpan 17 26 0)] None, mkSpan 10 29 0)), mkSpan 10 29 0)], mkSpan 0 30 0).
Proof. eexists _, _. split; [vm_compute; reflexivity|]. split; [reflexivity|]. repeat eexists. Qed.

(** The rule for one body: only what is missing is added. *)
Theorem C40_body : forall is_function sp written,
  complete_all written -> finished is_function sp written (add_implicit_none written sp is_function).
Proof. intros f sp b; exact (implicit_finished f sp b). Qed.
Print Assumptions C40_body.

Example C40_body_example :
  add_implicit_none [(NIdentifier (str "x"), default_span)] default_span true =
  [(NReturn (Some (NIdentifier (str "x"), default_span)), default_span)] /\
  complete_all [(NIdentifier (str "x"), default_span)].
Proof. split; [reflexivity|]. apply ca_cons; [cin|apply ca_nil]. Qed.

(** * C41  Colour text round-trips *)
Theorem C41_roundtrip : forall Fn o' (fi : fn_info Fn) o fuel m feq amax r g b a,
  (r < 256)%N -> (g < 256)%N -> (b < 256)%N -> (a < 256)%N ->
  parse_literal o (S fuel) (display o' fi (VColor r g b a)) = PMatch (LColor r g b a) (9, []) /\
  std_call m o fi feq amax (str "color") [VString (display o' fi (VColor r g b a))] = Ok (VColor r g b a).
Proof.
  exact (fun Fn o' fi o k m feq amax r g b a H1 H2 H3 H4 =>
    conj (color_text_parses o' fi o k r g b a H1 H2 H3 H4)
         (color_text_builtin m o o' fi feq amax r g b a H1 H2 H3 H4)).
Qed.
Print Assumptions C41_roundtrip.

Example C41_roundtrip_example :
  display no_oracle mfi (VColor 18 0 255 7) = str "#1200ff07" /\
  parse_literal no_oracle 1 (str "#1200ff07") = PMatch (LColor 18 0 255 7) (9, []).
Proof. split; reflexivity. Qed.

Theorem C41_digits : forall o fuel a b c d e f g h x y z u v w p q,
  hex_digit a x -> hex_digit b y -> hex_digit c z -> hex_digit d u -> hex_digit e v -> hex_digit f w ->
  hex_digit g p -> hex_digit h q ->
  parse_literal o (S fuel) (str "#" ++ [a; b; c]) = PMatch (LColor (17 * x) (17 * y) (17 * z) 255) (4, []) /\
  parse_literal o (S fuel) (str "#" ++ [a; b; c; d; e; f]) =
    PMatch (LColor (16 * x + y) (16 * z + u) (16 * v + w) 255) (7, []) /\
  parse_literal o (S fuel) (str "#" ++ [a; b; c; d; e; f; g; h]) =
    PMatch (LColor (16 * x + y) (16 * z + u) (16 * v + w) (16 * p + q)) (9, []).
Proof.
  exact (fun o k a b c d e f g h x y z u v w p q A B C D E F G H =>
    conj (hex3 o k a b c x y z A B C)
      (conj (hex6 o k a b c d e f x y z u v w A B C D E F)
            (hex8 o k a b c d e f g h x y z u v w p q A B C D E F G H))).
Qed.
Print Assumptions C41_digits.

Example C41_digits_example : hex_digit 70%N 15 /\ hex_digit 102%N 15 /\
  parse_literal no_oracle 1 (str "#fA0") = PMatch (LColor 255 170 0 255) (4, []).
Proof. split; [exists 15; repeat split; auto; lia|]. split; [exists 15; repeat split; auto; lia|reflexivity]. Qed.

(** Every other number of digits is rejected, except seven. *)
Theorem C41_lengths_partial : forall o fuel ds,
  Forall (fun c => exists v, hex_digit c v) ds -> length ds <> 3 -> ~ (6 <= length ds <= 8) ->
  parse_literal o (S fuel) (str "#" ++ ds) = PFail.
Proof. exact hex_other. Qed.
Print Assumptions C41_lengths_partial.

Example C41_lengths_example :
  Forall (fun c => exists v, hex_digit c v) (str "12ab") /\ parse_literal no_oracle 1 (str "#12ab") = PFail.
Proof. split; [repeat (constructor; [apply hex_is; cbn; auto 20|]); constructor|reflexivity]. Qed.

(** Seven digits are accepted; the last one is ignored. *)
Theorem C41_seven_refuted : exists ds,
  length ds = 7 /\ Forall (fun c => exists v, hex_digit c v) ds /\
  forall o fuel, parse_literal o (S fuel) (str "#" ++ ds) = PMatch (LColor 18 52 86 255) (8, []).
Proof. exact seven_refuted. Qed.
Print Assumptions C41_seven_refuted.

(** * C42  Integer literals denote the number written *)
Theorem C42_value : forall m o fuel text v id,
  numeral 10 text v -> (v <= i64_max)%Z -> 2 <= fuel ->
  exists ast i sc, parse_code o fuel text id = PMatch ast i /\ compile m ast = COk sc /\
  forall D (hst : host D) d opts, 1 <= o_stack_size opts ->
  exists s', run m hst 2 (vm_new d sc opts) = RDone (VInt v) s'.
Proof. exact int_program. Qed.
Print Assumptions C42_value.

Theorem C42_literal_partial : forall o fuel text v, numeral 10 text v -> 1 <= fuel ->
  ((v <= i64_max)%Z -> parse_literal o fuel text = PMatch (LInt v) (length text, [])) /\
  ((v <= 2 ^ 63)%Z -> parse_literal o fuel (str "-" ++ text) = PMatch (LInt (- v)) (S (length text), [])).
Proof. exact int_literal. Qed.
Print Assumptions C42_literal_partial.

Example C42_example : numeral 10 (str "0042") 42 /\ value_of_text Release (str "0042") = Some (VInt 42).
Proof.
  split; [|vm_compute; reflexivity]. exists [0; 0; 4; 2]%Z.
  split; [discriminate|]. split; [repeat constructor; discriminate|]. split; reflexivity.
Qed.

(** A literal that does not fit is not rejected: it means 0, and so does the smallest
    integer, whose digits are read before its sign. *)
Theorem C42_refuted : exists text,
  numeral 10 text (2 ^ 63) /\
  forall m, value_of_text m text = Some (VInt 0) /\ value_of_text m (str "-" ++ text) = Some (VInt 0).
Proof. exact (ex_intro _ too_big (conj too_big_numeral (fun m => conj (int_overflow m) (int_min_lost m)))). Qed.
Print Assumptions C42_refuted.

(** * C66  Every text is parsed or rejected *)
(** The model's bound on nesting, which the code does not have, is never reached once it
    exceeds the length of the text, and then its value makes no difference. *)
Theorem C66_parse_ends : forall o text id fuel,
  S (length text) < fuel ->
  parse_code o fuel text id <> PFuel /\
  forall fuel', fuel <= fuel' -> parse_code o fuel' text id = parse_code o fuel text id.
Proof.
  exact (fun o text id fuel H => conj (parse_code_ends o fuel text id H)
    (fun fuel' Hf => parse_code_more o fuel fuel' text id Hf (parse_code_ends o fuel text id H))).
Qed.
Print Assumptions C66_parse_ends.
Theorem C66_literal_ends : forall o text fuel,
  length text < fuel ->
  parse_literal o fuel text <> PFuel /\
  forall fuel', fuel <= fuel' -> parse_literal o fuel' text = parse_literal o fuel text.
Proof.
  exact (fun o text fuel H => conj (parse_literal_ends o fuel text H)
    (fun fuel' Hf => parse_literal_more o fuel fuel' text Hf (parse_literal_ends o fuel text H))).
Qed.
Print Assumptions C66_literal_ends.
(** Nested calls, with a bound of the length of the text plus two; one of two is too small. *)
Example C66_example : let text := str "f(g(h((x))))" in
  (exists ast i, parse_code no_oracle 14 text 0 = PMatch ast i) /\ parse_code no_oracle 2 text 0 = PFuel /\
  parse_code no_oracle 14 (str "f(g(h((x)))") 0 = PFail.
Proof. exact deep_parses. Qed.
