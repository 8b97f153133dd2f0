(** C92: every position the program reports lies in the text it is reported for.
    C93: errors are blamed on the construct that failed, and tracebacks name the calls.
    [within], [placed], [occurs], [position_of], [blamed] and [elsewhere] are in SpecPos.v.
    [weights] (CodeSize.v) bounds how many constants and symbols a program can need. *)
From Verif Require Import Base RleVec Pool Float NumText Bytecode Chunk Value Ast Arith VmOps Parse
  Compiler Vm CodeSize Includes SpecParse SpecReady SpecPos ProofArithEx ProofIncludes Cli ExProg
  ProofPos1 ProofPos2 ProofPos10 ProofPos11 ProofSpans3 ProofPosEx.

(** ** C92 *)

(** Every node and every name the parser makes carries a position in the text, with the number
    of the source it was given. *)
Theorem C92_parse : forall o fuel text id ast i sp,
  parse_code o fuel text id = PMatch ast i -> position_of ast sp -> within text sp /\ sp_src sp = id.
Proof. exact parse_positions. Qed.
Print Assumptions C92_parse.

(** With included files: the number is that of a file that was read, and the position lies in
    the text of that file. *)
Theorem C92_includes : forall o read fuel name text ast is sp,
  parse_with_includes read (parse_text o) fuel name text = IOk ast is -> position_of ast sp ->
  placed read name text (i_sources is) sp.
Proof. exact files_placed. Qed.
Print Assumptions C92_includes.

(** When the files cannot be put together, the error is reported in one of them: in the file that
    is not a program, or at the name in the include statement that failed, which lies in the
    text of its file. *)
Theorem C92_include_error : forall o read fuel name text e sp is,
  parse_with_includes read (parse_text o) fuel name text = IErr e sp is ->
  include_fails read (parse_text o) name text (i_sources is) e sp /\
  (e <> EUnexpectedToken 0 -> placed read name text (i_sources is) sp).
Proof.
  intros o read fuel name text e sp is H. pose proof (includes_err read (parse_text o) name text (text_positions o) _ _ _ _ H) as K.
  split; [exact K|exact (fails_placed read (parse_text o) name text (text_positions o) _ _ _ K)].
Qed.
Print Assumptions C92_include_error.
(** The file [a] includes [b]; the error is reported at [b]'s name in [a], the source number 1. *)
Example C92_include_error_example :
  parse_with_includes fs_nested (parse_text no_oracle) 3 (str "main") use_a =
  IErr (ECircularInclude (str "b")) (mkSpan 8 11 1) (mkIState [str "main"; str "a"; str "b"] [str "a"; str "b"]).
Proof. vm_compute. reflexivity. Qed.

(** The compiler reports its errors at a position of the program. *)
Theorem C92_compile_error : forall m ast e sp, compile m ast = CErr e sp -> position_of ast sp.
Proof. exact compile_error_position. Qed.
Print Assumptions C92_compile_error.

(** So does the machine, for the error and for every line of the traceback: in a text (the
    program has the source number 0) ... *)
Theorem C92_run_error : forall D m (hst : host D) o fuel text ast i sc s0 k e sp s',
  parse_code o fuel text 0 = PMatch ast i -> compile m ast = COk sc ->
  prepared sc s0 -> run m hst k s0 = RErr e sp s' ->
  within text sp /\ sp_src sp = 0 /\
  forall n q, In (TFrame n q) (trace_back s') -> within text q /\ sp_src q = 0.
Proof. exact @text_places. Qed.
Print Assumptions C92_run_error.

(** ... and in a program of several files. *)
Theorem C92_files : forall D m (hst : host D) o read fuel name text ast is sc s0 k e sp s',
  parse_with_includes read (parse_text o) fuel name text = IOk ast is -> compile m ast = COk sc ->
  prepared sc s0 -> run m hst k s0 = RErr e sp s' ->
  placed read name text (i_sources is) sp /\
  forall n q, In (TFrame n q) (trace_back s') -> placed read name text (i_sources is) q.
Proof. exact @file_places. Qed.
Print Assumptions C92_files.

(** A text with another number, when the program is not too large for the 16 bits of operands. *)
Theorem C92_run_error_partial : forall D m (hst : host D) o fuel text id ast i sc s0 k e sp s',
  parse_code o fuel text id = PMatch ast i -> compile m ast = COk sc -> weights ast <= N.to_nat 65535 ->
  prepared sc s0 -> run m hst k s0 = RErr e sp s' ->
  within text sp /\ sp_src sp = id /\
  forall n q, In (TFrame n q) (trace_back s') -> within text q /\ sp_src q = id.
Proof. exact @text_errors. Qed.
Print Assumptions C92_run_error_partial.

Example C92_example :
  (exists i, parse_code no_oracle 100 fall 0 = PMatch fall_ast i) /\ weights fall_ast <= N.to_nat 65535 /\
  compile Release fall_ast = COk (script_of fall_ast) /\ prepared (script_of fall_ast) (vm_of fall_ast) /\
  (exists s', run Release plain_host 500 (vm_of fall_ast) =
     RErr (EUnsupportedBinary (str "/") (str "int") (str "list")) (at_ 13 20) s' /\
   trace_back s' = [TFrame (str "half") (at_ 13 20); TFrame (str "outer") (at_ 41 48); TFrame (str "top") (at_ 63 71);
                    TFrame (str "@__main__") (at_ 75 77)]).
Proof. exact (conj fall_parses (conj fall_weight (conj fall_compiles (conj fall_prepared fall_runs)))). Qed.

(** The error is in the included file, which has the number 1; the call in the program itself. *)
Example C92_files_example :
  parse_with_includes two_files (parse_text no_oracle) 5 (str "main") two_main = IOk two_ast two_state /\
  weights two_ast <= N.to_nat 65535 /\ compile Release two_ast = COk (script_of two_ast) /\
  failure two_ast = Some (EUnsupportedBinary (str "/") (str "int") (str "list"), mkSpan 13 20 1,
    [TFrame (str "half") (mkSpan 13 20 1); TFrame (str "@__main__") (mkSpan 14 25 0)]).
Proof. exact (conj two_reads (conj two_weight (conj two_compiles two_fails))). Qed.

Example C92_compile_example :
  (exists i, parse_code no_oracle 100 stray 0 = PMatch (ast_of stray) i) /\
  compile Release (ast_of stray) = CErr EReturnOutsideFunction (at_ 10 18).
Proof. exact (conj stray_parses stray_fails). Qed.

(** ** C93 *)

(** An error of the run is that of the construct at the reported position, applied to the
    values then on the stack; or it is one of those that are reported elsewhere. *)
Theorem C93_blame_partial : forall D m (hst : host D) ast sc s0 k e sp s',
  compile m ast = COk sc -> weights ast <= N.to_nat 65535 -> complete_program ast ->
  prepared sc s0 -> run m hst k s0 = RErr e sp s' ->
  exists s, reach m hst (set_count 0 0 s0) s /\ step m hst s = SErr e sp s' /\
    (blamed m hst ast s e sp \/ elsewhere ast s e).
Proof.
  intros D m hst ast sc s0 k e sp s' Hc Hw Hp H0 E.
  exact (proj2 (proj2 (proj2 (run_errors m hst ast sc Hc Hw Hp s0 k e sp s' H0 E)))).
Qed.
Print Assumptions C93_blame_partial.

(** The lines of a traceback between the first and the last are calls. *)
Theorem C93_calls_partial : forall D m (hst : host D) ast sc s0 k e sp s' i n q,
  compile m ast = COk sc -> weights ast <= N.to_nat 65535 -> complete_program ast ->
  prepared sc s0 -> run m hst k s0 = RErr e sp s' ->
  0 < i -> S i < length (trace_back s') -> nth_error (trace_back s') i = Some (TFrame n q) ->
  exists f l, occurs ast (NCall f l) q.
Proof.
  intros D m hst ast sc s0 k e sp s' i n q Hc Hw Hp H0 E.
  exact (proj1 (proj2 (proj2 (run_errors m hst ast sc Hc Hw Hp s0 k e sp s' H0 E))) i n q).
Qed.
Print Assumptions C93_calls_partial.

(** The last line, that of the main program, need not be: it shows what follows the call. *)
Theorem C93_outermost_refuted : exists text ast i sc (s0 : vm unit) e sp s' k n q,
  parse_code no_oracle 100 text 0 = PMatch ast i /\ weights ast <= N.to_nat 65535 /\
  compile Release ast = COk sc /\ prepared sc s0 /\ run Release plain_host 500 s0 = RErr e sp s' /\
  0 < k /\ nth_error (trace_back s') k = Some (TFrame n q) /\ ~ exists f l, occurs ast (NCall f l) q.
Proof.
  destruct fall_parses as [i Hi]. destruct fall_runs as (s' & Hr & Ht).
  exists fall, fall_ast, i, (script_of fall_ast), (vm_of fall_ast), (EUnsupportedBinary (str "/") (str "int") (str "list")), (at_ 13 20), s', 3,
    (str "@__main__"), (at_ 75 77).
  rewrite Ht. exact (conj Hi (conj fall_weight (conj fall_compiles (conj fall_prepared (conj Hr
    (conj (Nat.lt_0_succ 2) (conj eq_refl fall_no_call))))))).
Qed.
Print Assumptions C93_outermost_refuted.

(** A call with a wrong number of arguments is not reported at the call. *)
Theorem C93_arity_refuted : exists text ast i sc (s0 : vm unit) f a b sp s',
  parse_code no_oracle 100 text 0 = PMatch ast i /\ weights ast <= N.to_nat 65535 /\
  compile Release ast = COk sc /\ prepared sc s0 /\
  run Release plain_host 500 s0 = RErr (EMismatchedArity f a b) sp s' /\
  ~ exists f l, occurs ast (NCall f l) sp.
Proof.
  destruct wrong_parses as [i Hi]. destruct wrong_runs as (s' & Hr & Ht).
  exists wrong, wrong_ast, i, (script_of wrong_ast), (vm_of wrong_ast), (str "f"), 1%N, 2%N, (at_ 15 17), s'.
  exact (conj Hi (conj wrong_weight (conj wrong_compiles (conj wrong_prepared (conj Hr wrong_no_call))))).
Qed.
Print Assumptions C93_arity_refuted.
