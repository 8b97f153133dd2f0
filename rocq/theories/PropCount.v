(** The counts in compiled code are exact (C15). *)
From Verif Require Import Base RleVec Pool Vecc Float NumText Bytecode Chunk Value Ast Arith VmOps Parse Compiler Vm CodeSize
  SpecParse SpecReady SpecDisasm SpecPos SpecCount ProofCount2 ProofArithEx ProofPosEx ExProg ProofCountEx.

(** ** C15  Every instruction of a compiled program that has a count belongs to a construct with
    exactly that many arguments, items or names ([counted], SpecCount.v), ... *)
Theorem C15_instructions :
  forall m ast sc f p i next,
  compile m ast = COk sc -> weights ast <= N.to_nat 65535 -> complete_program ast ->
  used sc f -> boundary (fn_chunk f) p -> decode (ck_ops (fn_chunk f)) p = Ok (i, next) ->
  counted ast (p_entries (sc_globals sc)) i (chunk_get_span (fn_chunk f) (next - 1)).
Proof. exact instructions_counted. Qed.
Print Assumptions C15_instructions.
(** ... and every function, but the main one, is one of the program and takes exactly as many
    arguments as that has parameters. *)
Theorem C15_parameters :
  forall m ast sc f, compile m ast = COk sc -> used sc f ->
  (fn_name f = str "@__main__" /\ fn_arity f = 0%N) \/ declared ast f.
Proof. exact functions_declared. Qed.
Print Assumptions C15_parameters.
(** The errors of [let] and [with], which C15_error leaves out. *)
Theorem C15_unpack_error :
  forall m before sp x names v after,
  (exists sc, compile m (before ++ [(NDeclaration (VarDecl x) v, sp)]) = COk sc) -> 255 < length names ->
  compile m (before ++ (NDeclaration (VarMulti names) v, sp) :: after) = CErr ETooMuchToUnpack sp.
Proof. exact unpack_error. Qed.
Print Assumptions C15_unpack_error.
Theorem C15_context_error :
  forall m before sp x args v body after,
  (exists sc, compile m (before ++ [(NLiteral LNone, sp)]) = COk sc) -> 255 < length args ->
  compile m (before ++ (NContext x args v body, sp) :: after) = CErr ETooManyArgs sp.
Proof. exact context_error. Qed.
Print Assumptions C15_context_error.
Theorem C15_context_unpack_error :
  forall m before sp x xsp args names body after,
  (exists sc, compile m (before ++ [(NContext (x, xsp) args None body, sp)]) = COk sc) -> 255 < length names ->
  compile m (before ++ (NContext (x, xsp) args (Some (VarMulti names)) body, sp) :: after) = CErr ETooMuchToUnpack xsp.
Proof. exact context_unpack_error. Qed.
Print Assumptions C15_context_unpack_error.

Example C15_instructions_example :
  compile Release counting_ast = COk (script_of counting_ast) /\ weights counting_ast <= N.to_nat 65535 /\
  complete_program counting_ast /\
  (forall p i sp, In (p, i, sp) [ (9, IUnpack 2, at_ 36 53); (23, IEnterContext 3 2, at_ 60 66); (27, IUnpack 2, at_ 54 97);
     (41, ICallFunction 3, at_ 83 95); (59, IUnpack 2, at_ 110 126); (67, ICallBuiltin 4 2, at_ 130 135)] ->
     boundary (fn_chunk (sc_function (script_of counting_ast))) p /\
     exists next, decode (ck_ops (fn_chunk (sc_function (script_of counting_ast)))) p = Ok (i, next)) /\
  (exists g, adder = Some g /\ used (script_of counting_ast) g /\ fn_arity g = 3%N /\ fn_name g = str "@__lambda__").
Proof.
  split; [exact counting_compiles|]. split; [exact counting_weight|]. split; [exact counting_complete|].
  split; [|exact adder_used]. intros p i sp H. apply (picked p i sp).
  repeat (destruct H as [[= <- <- <-]|H]; [vm_compute; reflexivity|]). destruct H.
Qed.
Example C15_errors_example :
  (exists sc, compile Release [let_ "x" (int 1)] = COk sc) /\
  compile Release [e (NDeclaration (VarMulti (repeat (name "x") 256)) (int 1))] = CErr ETooMuchToUnpack sp0 /\
  compile Release [e (NContext (str "c", mkSpan 3 4 0) [] (Some (VarMulti (repeat (name "x") 256))) [int 1])] =
    CErr ETooMuchToUnpack (mkSpan 3 4 0) /\
  compile Release [e (NContext (name "c") (repeat (int 1) 256) None [int 1])] = CErr ETooManyArgs sp0.
Proof. split; [eexists; vm_compute; reflexivity|]. repeat split; vm_compute; reflexivity. Qed.
