(** C98: what is shown reads back.

    [written] (SpecText.v, C69) is how a value is shown; [plain_data], [same_data] and [stands_for]
    are in SpecRound.v. *)
From Verif Require Import Base RleVec Pool Vecc Float NumText Bytecode Chunk Value Ast Arith VmOps Parse Compiler Vm SpecArith SpecParse
  SpecReady SpecVm SpecEval SpecRound ProofArithEx ProofParseEx ProofRound ProofRound2 ProofRoundEx ExProg.
From Verif Require SpecText SpecProg.

(** Numbers, booleans, ranges, colours, nothing, and lists and pairs of them at any depth: the text
    shown is a literal of the language that stands for the data. *)
Theorem C98_literal : forall o (v : value) t fuel, plain_data o v -> SpecText.written (o_f64_text o) v t -> length t < fuel ->
  exists l n, parse_literal o fuel t = PMatch l (n, []) /\ stands_for l v.
Proof. exact data_back. Qed.
Print Assumptions C98_literal.

(** The text is a program as well.  It compiles, and running it ends with the same data and changes
    nothing, unless a limit of the machine stops it. *)
Theorem C98_program : forall D o (v : value) t id fuel m (hst : host D),
  plain_data o v -> SpecText.written (o_f64_text o) v t -> S (length t) < fuel ->
  ~ (exists f, v = VFloat f /\ below_zero o v) -> v <> VInt (- 2 ^ 63) ->
  exists ast rest sc, parse_code o fuel t id = PMatch ast rest /\ compile m ast = COk sc /\
  forall builtins st s, starts sc builtins st s -> length (p_entries (v_gsyms s)) <= N.to_nat 65536 ->
  stopped_by_limit m hst s \/ exists k w s', run m hst k s = RDone w s' /\ same_data v w /\ same_state st s'.
Proof. exact (fun D o => @data_runs o D). Qed.
Print Assumptions C98_program.

(** Different data is shown differently. *)
Theorem C98_apart : forall o (v w : value) t, plain_data o v -> plain_data o w ->
  SpecText.written (o_f64_text o) v t -> SpecText.written (o_f64_text o) w t -> same_data v w.
Proof. exact shown_apart. Qed.
Print Assumptions C98_apart.

(** [-4, (true, -2:3), #ff001001, [], none] *)
Example C98_example :
  plain_data no_oracle some_data /\ SpecText.written (o_f64_text no_oracle) some_data some_text /\
  parse_literal no_oracle 100 some_text =
    PMatch (LArray [LInt (-4); LPair (LBool true) (LRange (-2) 3); LColor 255 0 16 1; LArray []; LNone]) (length some_text, []) /\
  ~ (exists f, some_data = VFloat f /\ below_zero no_oracle some_data) /\ some_data <> VInt (- 2 ^ 63) /\
  value_of_text Release some_text =
    Some (VArray [VInt (-4); VPair (VBool true) (VRange (-2) 3); VColor 255 0 16 1; VArray [] 0 0; VNone] 80 80).
Proof.
  refine (conj some_plain (conj some_shown (conj some_literal (conj _ (conj _ some_runs))))); [intros (f & E & _)|intros E]; discriminate E.
Qed.

(** Texts do not read back, nor do floats that the standard library writes without a point: 1.0 is
    shown as 1, which is an integer. *)
Theorem C98_refuted : exists s t, SpecText.written (o_f64_text no_oracle) (VString s) t /\
  forall fuel, parse_literal no_oracle (S fuel) t = PMatch (LInt 1) (1, []).
Proof. exact (ex_intro _ (str "1") (ex_intro _ (str "1") (conj (SpecText.wr_string _ _) (one_text _)))). Qed.
Print Assumptions C98_refuted.
Theorem C98_float_refuted : forall o f, o_f64_text o f = str "1" ->
  exists t, SpecText.written (o_f64_text o) (VFloat f) t /\ forall fuel, parse_literal o (S fuel) t = PMatch (LInt 1) (1, []).
Proof.
  exact (fun o f E => ex_intro _ _ (conj (SpecText.wr_float _ f) (fun fuel =>
    eq_ind_r (fun t => parse_literal o (S fuel) t = PMatch (LInt 1) (1, [])) (one_text o fuel) E))).
Qed.
Print Assumptions C98_float_refuted.
(** The smallest integer reads back as a literal but not as a program: that comes to 0. *)
Theorem C98_least_refuted : exists t, SpecText.written (o_f64_text no_oracle) (VInt (- 2 ^ 63)) t /\
  forall m, value_of_text m t = Some (VInt 0).
Proof. exact (ex_intro _ _ (conj least_shown int_min_lost)). Qed.
Print Assumptions C98_least_refuted.
