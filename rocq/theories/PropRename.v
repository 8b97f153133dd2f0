(** Renaming and moving (C103).  [renaming], [moving], [rename_program], [renamed_script], [renamed_error], [paired], [blind] are in SpecRename.v. *)
From Verif Require Import Base Float Ast Parse Pool Bytecode Chunk Value Compiler SpecPos SpecNames SpecRename ProofRename ProofArithEx ProofRenameEx.
From Verif Require Import Std Console Vm SpecRel ProofConsoleEx ProofRename2 ProofRename3 ProofRename4.
From Verif Require Import ExProg.

(** ** C103  Replacing the names of a program, different names by different names, and its positions, different
    places by different places, changes nothing but the names and positions: the code, the constants and the number
    given to each global are the same, and a program that does not compile is reported at the place that was its
    place for the same reason. *)
Theorem C103_compile : forall r mv m ast, renaming r -> moving mv ->
  match compile m ast, compile m (rename_program r mv ast) with
  | COk sc, COk sc' => renamed_script r mv sc sc'
  | CErr e sp, CErr e' sp' => e' = renamed_error r e /\ sp' = mv sp
  | CPanic, CPanic => True
  | _, _ => False
  end.
Proof. intros r mv m ast H G. exact (compile_renamed r H mv G m ast). Qed.
Print Assumptions C103_compile.

(** A program whose functions capture variables, with two names exchanged.  A replacement that makes
    two names one is no renaming: the parameter hides the variable.  A comment put before a program moves it;
    a replacement that makes two places one is no move, since functions are compared with their places. *)
Example C103_example : (renaming exchange /\ moving below) /\
  (result (ast_of sum_text) = Some (VInt 15) /\ result (rename_program exchange below (ast_of sum_text)) = Some (VInt 15) /\ result (ast_of sum_text') = Some (VInt 15)) /\
  (table (ast_of sum_text) = [str "t"; str "f"] /\ table (rename_program exchange below (ast_of sum_text)) = [str "total"; str "f"] /\ table (ast_of sum_text') = [str "total"; str "f"]) /\
  (result (ast_of sum_text) = Some (VInt 15) /\ result (rename_program merge below (ast_of sum_text)) = Some (VInt 0)) /\
  (ast_of (before ++ sum_text) = rename_program (fun x => x) below (ast_of sum_text) /\ renaming (fun x => x)) /\
  (result (ast_of twins_text) = Some (VBool false) /\ result (rename_program (fun x => x) below (ast_of twins_text)) = Some (VBool false) /\
   result (rename_program (fun x => x) one_place (ast_of twins_text)) = Some (VBool true)).
Proof. exact (conj (conj exchange_renaming below_moving) (conj sum_runs (conj sum_names (conj merge_wrong (conj before_moves one_place_wrong))))). Qed.

(** ** C103, runs.  Machines with a program and with the renamed program, to which the same was done, and
    whose builtins do not look at names and positions: if the first gives a value, the second gives the same value up
    to the names and positions in functions, and did the same to the data of the host.  If the first fails, so does the
    second, with the same error and the same stack, up to names, at the moved places; if it goes on, so does the second.  Nothing is
    claimed when it aborts.  The machine calls a variable "unkown???" if its name is not known. *)
Theorem C103_run : forall (D : Type) r mv K m (hst : host D) k s s', renaming r -> moving mv -> r (str "unkown???") = str "unkown???" ->
  paired r mv K m hst s s' ->
  match run m hst k s with
  | RDone v t => exists v' t', run m hst k s' = RDone v' t' /\ renamed_value r mv K v v' /\ v_data t' = v_data t
  | RErr e sp t => exists t', run m hst k s' = RErr (renamed_error r e) (mv sp) t' /\ v_data t' = v_data t /\ trace_back t' = map (rename_line r mv) (trace_back t)
  | ROut t => exists t', run m hst k s' = ROut t' /\ v_data t' = v_data t
  | RPanic => True
  end.
Proof. intros D r mv K m hst k s s' rn mo U P. exact (run_renamed r rn mv mo U K m hst k s s' P). Qed.
Print Assumptions C103_run.

(** ** C103, whole programs with the standard library.  The library prints the names of functions, so these are
    kept, and so are the names of the library.  Then the renamed program compiles and, with the same limits, in the
    same world, leaves the same world: it has printed the same text, and read and drawn the same.  Its value
    looks the same; if it fails, the error is the same up to the name it mentions, with the same stack, at the
    moved places. *)
Theorem C103_program : forall r mv m (hst : host world) feq fhash ast sc,
  renaming r -> moving mv -> r (str "unkown???") = str "unkown???" -> (forall n b, In (n, b) (stdio m (h_oracle hst) feq fhash) -> r n = n) ->
  (forall f f' g g', renamed_closure r mv (fun x => r x = x) f f' -> renamed_closure r mv (fun x => r x = x) g g' -> feq f' g' = feq f g) ->
  (forall f g e, feq f g <> Err e) ->
  (forall f f', renamed_closure r mv (fun x => r x = x) f f' -> fhash f' = fhash f) -> (forall f e, fhash f <> Err e) ->
  compile m ast = COk sc -> (forall g, SpecNames.part (sc_function sc) g -> r (fn_name g) = fn_name g) ->
  exists sc', compile m (rename_program r mv ast) = COk sc' /\
  forall w o k,
  match run m hst k (vm_new_with w sc o [stdio m (h_oracle hst) feq fhash]) with
  | RDone v t => exists v' t', run m hst k (vm_new_with w sc' o [stdio m (h_oracle hst) feq fhash]) = RDone v' t' /\
      display (h_oracle hst) mfi v' = display (h_oracle hst) mfi v /\ v_data t' = v_data t
  | RErr e sp t => exists t', run m hst k (vm_new_with w sc' o [stdio m (h_oracle hst) feq fhash]) = RErr (renamed_error r e) (mv sp) t' /\
      v_data t' = v_data t /\ trace_back t' = map (move_line mv) (trace_back t)
  | ROut t => exists t', run m hst k (vm_new_with w sc' o [stdio m (h_oracle hst) feq fhash]) = ROut t' /\ v_data t' = v_data t
  | RPanic => True
  end.
Proof. exact program_renamed. Qed.
Print Assumptions C103_program.

(** A program of two functions, whose names are exchanged: the error and the stack show the new names. *)
Example C103_run_example :
  paired exchange below (fun _ => True) Release plain_host (wrong_vm (ast_of wrong_text)) (wrong_vm (rename_program exchange below (ast_of wrong_text))) /\
  told (wrong_vm (ast_of wrong_text)) = Some (EMismatchedArity (str "t") 1 2, (28, 35), [str "total"; str "@__main__"]) /\
  told (wrong_vm (rename_program exchange below (ast_of wrong_text))) = Some (EMismatchedArity (str "total") 1 2, (47, 54), [str "t"; str "@__main__"]).
Proof. exact (conj wrong_paired wrong_runs). Qed.

(** A program that prints and fails, the names of its variables exchanged; and one where the name of a
    function is exchanged and shows. *)
Example C103_program_example :
  (renaming exchange /\ exchange (str "unkown???") = str "unkown???") /\
  (forall n b, In (n, b) (stdio Release (h_oracle talk_host) no_feq no_fhash) -> exchange n = n) /\
  (forall g, SpecNames.part (sc_function (script_of (ast_of say_text))) g -> exchange (fn_name g) = fn_name g) /\
  (compile Release (ast_of say_text) = COk (script_of (ast_of say_text)) /\
   said_by (ast_of say_text) = Some (str "$ <closure show> [[1, 2], 3] [1, 2] " ++ 10%N :: str "<closure show> 1 [1, 2] " ++ [10%N], ENotCallable (str "int"), 1) /\
   said_by (rename_program exchange below (ast_of say_text)) = said_by (ast_of say_text)) /\
  (printed_by (ast_of named_text) = Some (str "$ <closure t> ") /\
   printed_by (rename_program exchange below (ast_of named_text)) = Some (str "$ <closure total> ")).
Proof. exact (conj (conj exchange_renaming eq_refl) (conj lib_kept (conj say_kept (conj say_runs named_shows)))). Qed.
