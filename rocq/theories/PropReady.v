(** C03: the machine is never led astray by the code the compiler emits.
    [ready] and [slots_ready] are in SpecReady.v.  [weights] (CodeSize.v) bounds how many
    constants and symbols a program can need; what it leaves out are programs so large that
    the 16-bit numbers of constants may wrap. *)
From Verif Require Import Base RleVec Pool Float NumText Bytecode Chunk Value Ast Arith VmOps Parse
  Compiler Vm CodeSize SpecParse SpecReady ProofArithEx ProofCode ExProg ProofVmEx ProofParse ProofReady3 ProofReadyEx.

(** However the program runs, and whatever honest builtins the host supplies. *)
Theorem C03_ready_partial : forall D m (hst : host D) ast sc s0 s,
  compile m ast = COk sc -> weights ast <= N.to_nat 65535 -> complete_program ast ->
  prepared sc s0 -> reach m hst s0 s -> ready s.
Proof. exact @main_ready. Qed.
Print Assumptions C03_ready_partial.

(** The same for program text: the parser makes complete programs. *)
Theorem C03_text_partial : forall D m (hst : host D) o fuel text id ast i sc s0 s,
  parse_code o fuel text id = PMatch ast i -> weights ast <= N.to_nat 65535 -> compile m ast = COk sc ->
  prepared sc s0 -> reach m hst s0 s -> ready s.
Proof.
  exact (fun D m hst o fuel text id ast i sc s0 s Hp Hw Hc =>
    main_ready m hst ast sc s0 s Hc Hw (parse_code_complete o fuel text id ast i Hp)).
Qed.
Print Assumptions C03_text_partial.

Example C03_ready_example :
  (exists i, parse_code no_oracle 100 tour 0 = PMatch tour_ast i) /\
  weights tour_ast <= N.to_nat 65535 /\ compile Release tour_ast = COk (script_of tour_ast) /\
  prepared (script_of tour_ast) tour_vm /\
  (reach Release plain_host tour_vm (at_step 77 tour_vm) /\ reach Release plain_host tour_vm (at_step 85 tour_vm) /\
   length (v_frames (at_step 77 tour_vm)) = 1 /\ length (f_ups (v_frame (at_step 77 tour_vm))) = 1 /\
   length (v_blocks (at_step 85 tour_vm)) = 1) /\
  result tour_ast = Some (VArray [VInt 8; VInt 1] 32 1000).
Proof.
  exact (conj tour_parses (conj tour_weight (conj tour_compiles
    (conj (pr_new _ _ _) (conj tour_at tour_result))))).
Qed.

(** Local variables are found below the top of the stack, in programs whose loops iterate
    over expressions that declare nothing ... *)
Theorem C03_slots_partial : forall D m (hst : host D) ast sc s0 s,
  compile m ast = COk sc -> weights ast <= N.to_nat 65535 -> complete_program ast ->
  (forall n sp, In (n, sp) ast -> tame n) ->
  prepared sc s0 -> reach m hst s0 s -> slots_ready s.
Proof. exact @main_slots. Qed.
Print Assumptions C03_slots_partial.

Example C03_slots_example : (forall n sp, In (n, sp) tour_ast -> tame n) /\ complete_program tour_ast.
Proof.
  exact (conj tour_tame (match tour_parses with ex_intro _ i H => parse_code_complete _ _ _ _ _ i H end)).
Qed.

(** ... and not in every program. *)
Theorem C03_slots_refuted : exists text ast i sc (s0 s : vm unit),
  parse_code no_oracle 100 text 0 = PMatch ast i /\ weights ast <= N.to_nat 65535 /\
  compile Release ast = COk sc /\ prepared sc s0 /\ reach Release plain_host s0 s /\ ~ slots_ready s.
Proof.
  destruct for_slots as ((i & H1) & H2 & H3 & H4 & H5 & H6).
  exact (ex_intro _ for_text (ex_intro _ for_decl (ex_intro _ i (ex_intro _ _ (ex_intro _ for_vm
    (ex_intro _ _ (conj H1 (conj H3 (conj H2 (conj H4 (conj H5 H6))))))))))).
Qed.
Print Assumptions C03_slots_refuted.
