(** What the compiler checks (C10, C15, C18, C61) and the jumps it writes (C14).
    [placed ast p n]: the node [n] occurs in the program [ast], at any depth, at the place
    [p]: at the top level, among the statements of some body, or where a value is wanted
    (SpecStatic.v). *)
From Verif Require Import Base RleVec Pool Vecc Float NumText Bytecode Chunk Value Ast Arith VmOps
  Compiler Vm SpecParse SpecReady SpecStatic SpecJump ProofStatic2 ProofStaticEx ProofJump ExProg ProofVmEx ProofReadyEx.

(** ** C10  A program with a return statement at its top level is rejected ... *)
Theorem C10_no_return_partial :
  forall m ast sc v, compile m ast = COk sc -> ~ placed ast Top (NReturn v).
Proof. exact static_return. Qed.
Print Assumptions C10_no_return_partial.
(** ... and the error is the right one, if what comes before compiles.  (Missing: return in
    a block outside a function is accepted, C10_return_refuted.) *)
Theorem C10_return_error_partial :
  forall m before sp v after, (exists sc, compile m (before ++ [(NLiteral LNone, sp)]) = COk sc) ->
  compile m (before ++ (NReturn v, sp) :: after) = CErr EReturnOutsideFunction sp.
Proof. exact return_error. Qed.
Print Assumptions C10_return_error_partial.
Example C10_example :
  (exists sc, compile Release checked = COk sc) /\ placed checked Nested (NReturn (Some (e (NArray [id "x"; int 2])))) /\
  (exists sc, compile Release (checked ++ [(NLiteral LNone, sp0)]) = COk sc) /\
  compile Release (checked ++ [return_ (int 1); int 2]) = CErr EReturnOutsideFunction sp0.
Proof.
  split; [apply checked_compiles|]. split; [apply checked_placed|]. split; [eexists; vm_compute; reflexivity|vm_compute; reflexivity].
Qed.

(** ** C15  Nothing in a program that compiles has more than 255 parts: arguments,
    parameters, names to unpack to, items of an array. *)
Theorem C15_counts :
  forall m ast sc p n k, compile m ast = COk sc -> placed ast p n -> In k (counts n) -> k <= 255.
Proof. exact static_counts. Qed.
Print Assumptions C15_counts.
(** The error is the one for the kind of node ... *)
Theorem C15_error :
  forall m before sp n after, (exists sc, compile m (before ++ [(NLiteral LNone, sp)]) = COk sc) ->
  match n with NContext _ _ _ _ | NDeclaration _ _ => False | _ => True end ->
  (exists k, In k (counts n) /\ 255 < k) ->
  compile m (before ++ (n, sp) :: after) = CErr (count_error n) sp.
Proof. exact count_rejected_top. Qed.
Print Assumptions C15_error.
(** ... and the count in the compiled code is exact.  (Missing: the counts of parameters and
    of names to unpack to.) *)
Theorem C15_exact_partial :
  forall m n sp c u c', cnode m KExpr n sp c = (COk u, c') ->
  match n with
  | NCall _ l => exists before, code_of c' = before ++ [op_CallFunction; N.of_nat (length l)]
  | NArray l => exists before, code_of c' = before ++ [op_CreateArray; N.of_nat (length l)]
  | NBuiltinCall _ l => exists before hi lo,
      code_of c' = before ++ [op_CallBuiltin; hi; lo; N.of_nat (length l)]
  | _ => True
  end.
Proof. exact count_emitted. Qed.
Print Assumptions C15_exact_partial.
Example C15_example :
  (exists sc, compile Release [call (id "f") most] = COk sc) /\
  compile Release [call (id "f") many] = CErr ETooManyArgs sp0 /\
  compile Release [e (NArray (int 2 :: many))] = CErr ETooManyItems sp0 /\
  compile Release [fn_ "f" (map (fun _ => name "x") many) []] = CErr ETooManyParams sp0 /\
  In 2 (counts (NArray [id "x"; int 2])) /\ placed checked Value (NArray [id "x"; int 2]).
Proof.
  split; [eexists; vm_compute; reflexivity|]. do 3 (split; [vm_compute; reflexivity|]).
  split; [left; reflexivity|apply checked_placed].
Qed.

(** ** C18  External variables are declared at the top level only, ... *)
Theorem C18_top_level :
  forall m ast sc p x v, compile m ast = COk sc -> placed ast p (NExternal x v) -> p = Top.
Proof. exact static_external. Qed.
Print Assumptions C18_top_level.
(** ... each once, ... *)
Theorem C18_distinct :
  forall m ast sc, compile m ast = COk sc -> NoDup (externals_of ast).
Proof. exact static_distinct. Qed.
Print Assumptions C18_distinct.
Theorem C18_redefined :
  forall m before sp x xs v after,
  (exists sc, compile m (before ++ [(NDeclaration (VarDecl (x, xs)) v, sp)]) = COk sc) ->
  In x (externals_of before) ->
  compile m (before ++ (NExternal (x, xs) v, sp) :: after) = CErr (EExternalRedefined x) xs.
Proof. exact external_error. Qed.
Print Assumptions C18_redefined.
(** ... and those are the names the host may set. *)
Theorem C18_declared :
  forall m ast sc x, compile m ast = COk sc ->
  length (p_entries (sc_globals sc)) <= N.to_nat 65536 ->
  (check_external sc x = true <-> In x (externals_of ast)).
Proof. exact static_check. Qed.
Print Assumptions C18_declared.
Example C18_compile_example :
  (exists sc, compile Release checked = COk sc /\ length (p_entries (sc_globals sc)) = 3 /\
     check_external sc (str "b") = true /\ check_external sc (str "f") = false) /\
  externals_of checked = [str "a"; str "b"] /\
  compile Release (checked ++ [ext_ "a" (int 3)]) = CErr (EExternalRedefined (str "a")) sp0 /\
  (exists sc, compile Release (checked ++ [let_ "a" (int 3)]) = COk sc) /\
  compile Release [e (NBlock [ext_ "a" (int 3)])] = CErr (EExternalNotGlobal (str "a")) sp0.
Proof.
  split; [eexists; split; [vm_compute; reflexivity|]; repeat split; vm_compute; reflexivity|].
  do 2 (split; [vm_compute; reflexivity|]). split; [eexists; vm_compute; reflexivity|vm_compute; reflexivity].
Qed.

(** ** C61  Statements stand where statements may, includes at the top level. *)
Theorem C61_values :
  forall m ast sc n, compile m ast = COk sc -> placed ast Value n -> is_statement n = false.
Proof. exact static_value. Qed.
Print Assumptions C61_values.
Theorem C61_includes :
  forall m ast sc p x b, compile m ast = COk sc -> placed ast p (NInclude x b) -> p = Top /\ b <> None.
Proof. exact static_include. Qed.
Print Assumptions C61_includes.
Example C61_example :
  (exists sc, compile Release [e (NInclude (name "lib") (Some checked)); id "a"] = COk sc) /\
  placed [e (NInclude (name "lib") (Some checked)); id "a"] Top (NInclude (name "lib") (Some checked)) /\
  compile Release [e (NBlock [e (NInclude (name "lib") (Some checked))])] = CErr EIncludeNotTopLevel sp0 /\
  compile Release [call (id "f") [let_ "x" (int 1)]] = CErr EStatementAsExpression sp0 /\
  placed [call (id "f") [int 1]] Value (NLiteral (LInt 1)).
Proof.
  split; [eexists; vm_compute; reflexivity|]. split; [eapply placed_top; left; reflexivity|].
  do 2 (split; [vm_compute; reflexivity|]). eapply placed_part; [eapply placed_top; left; reflexivity|right; left; reflexivity].
Qed.

(** ** C14  A forward jump is written with an empty distance, code follows, and the distance
    is filled in at the end: the jump leads exactly there, all other bytes stay, and a
    distance that does not fit is an error. *)
Theorem C14_forward :
  forall o f sp c, forward o = Some f ->
  exists off c1, write_jump o sp c = (COk off, c1) /\ code_of c1 = code_of c ++ [o; 0%N; 0%N] /\
  forall body c2 sp', code_of c2 = code_of c1 ++ body ->
    (length body <= N.to_nat 65535 -> exists c3, patch_jump off sp' c2 = (COk tt, c3) /\
       (exists hi lo, code_of c3 = code_of c ++ [o; hi; lo] ++ body) /\
       forall rest, exists i next, decode (code_of c3 ++ rest) (length (code_of c)) = Ok (i, next) /\
         jump_target i next = Some (length (code_of c3))) /\
    (N.to_nat 65535 < length body -> patch_jump off sp' c2 = (CErr EJumpTooLarge sp', c2)).
Proof. exact jump_forward_ok. Qed.
Print Assumptions C14_forward.
(** A backward jump leads exactly to the given start. *)
Theorem C14_backward :
  forall start sp c, start <= length (code_of c) ->
  (length (code_of c) + 3 - start <= N.to_nat 65535 ->
     exists c1, write_jump_backward start sp c = (COk tt, c1) /\
     (exists hi lo, code_of c1 = code_of c ++ [op_JumpBackward; hi; lo]) /\
     forall rest, exists i next, decode (code_of c1 ++ rest) (length (code_of c)) = Ok (i, next) /\
       jump_target i next = Some start) /\
  (N.to_nat 65535 < length (code_of c) + 3 - start ->
     write_jump_backward start sp c = (CErr EJumpTooLarge sp, c)).
Proof. exact jump_backward_ok. Qed.
Print Assumptions C14_backward.
(** The machine goes to the jump's target or on to the next instruction, by the value the
    instruction tests ([taken], SpecJump.v). *)
Theorem C14_machine :
  forall D m (hst : host D) s s' i next, decode (ck_ops (cur_chunk s)) (ip s) = Ok (i, next) ->
  jumps i = true -> step m hst s = SNext s' ->
  exists b, taken m hst s i b /\ v_frames s' = v_frames s /\
    (if b then jump_target i next = Some (ip s') else ip s' = next).
Proof. exact @machine_jumps. Qed.
Print Assumptions C14_machine.
Example C14_example :
  forward op_JumpIfFalse = Some IJumpIfFalse /\
  (let goes j := exists i next s', decode (ck_ops (cur_chunk (at_step j tour_vm))) (ip (at_step j tour_vm)) = Ok (i, next) /\
       jumps i = true /\ step Release plain_host (at_step j tour_vm) = SNext s' in
   goes 13 /\ goes 22 /\ goes 36 /\ goes 41 /\ goes 45).
Proof.
  split; [reflexivity|]. cbv zeta.
  repeat split; do 3 eexists; (split; [vm_compute; reflexivity|]); split; vm_compute; reflexivity.
Qed.
