(** White space and comments before a program, and the number of its source (C106).  [gap] is in SpecProg.v, [after_text] and [moved_closure] in SpecMove.v,
    [rename_program], [renamed_script], [move_line] in SpecRename.v. *)
From Verif Require Import Base Float Ast Parse Pool Bytecode Chunk Value Compiler SpecPos SpecNames SpecProg SpecRename SpecMove ProofRename ProofArithEx ProofRenameEx.
From Verif Require Import Std Console Vm SpecRel ProofConsoleEx ProofRename2 ProofRename3 ProofRename4 ProofMove ProofMoveEx.
From Verif Require Import ExProg.

(** ** C106  Blanks, ends of lines and comments put before a text that is not empty: the text is read as before, every position
    being later by the length of what was put before, or is rejected as before.  The number of its source goes into
    the positions and nowhere else.  (The empty text is read as one line at the place of nothing.) *)
Theorem C106_parse : forall o fuel g text id id', gap g -> text <> [] ->
  match parse_code o fuel text id, parse_code o fuel (g ++ text) id' with
  | PMatch ast i, PMatch ast' i' => ast' = rename_program (fun x => x) (after_text g id id') ast
  | PFail, PFail => True
  | PFuel, PFuel => True
  | _, _ => False
  end.
Proof. exact parse_after. Qed.
Print Assumptions C106_parse.

(** ** C106, whole programs with the standard library, whose functions are compared and hashed without regard to
    where all of them are.  The program with [g] before it, read as another source, does not compile for the same reason, reported
    that much later, or compiles; then with the same limits, in the same world, it leaves the same world, gives a value
    that looks the same, or fails with the same error and the same stack, that much later. *)
Theorem C106_program : forall m (hst : host world) feq fhash fuel g text id id' ast i,
  gap g -> text <> [] ->
  (forall f f' h h', moved_closure (after_text g id id') f f' -> moved_closure (after_text g id id') h h' -> feq f' h' = feq f h) ->
  (forall f h e, feq f h <> Err e) ->
  (forall f f', moved_closure (after_text g id id') f f' -> fhash f' = fhash f) -> (forall f e, fhash f <> Err e) ->
  parse_code (h_oracle hst) fuel text id = PMatch ast i ->
  exists ast' i', parse_code (h_oracle hst) fuel (g ++ text) id' = PMatch ast' i' /\
  match compile m ast, compile m ast' with
  | CErr e sp, CErr e' sp' => e' = e /\ sp' = after_text g id id' sp
  | CPanic, CPanic => True
  | COk sc, COk sc' => forall w o k,
      match run m hst k (vm_new_with w sc o [stdio m (h_oracle hst) feq fhash]), run m hst k (vm_new_with w sc' o [stdio m (h_oracle hst) feq fhash]) with
      | RDone v t, RDone v' t' => display (h_oracle hst) mfi v' = display (h_oracle hst) mfi v /\ v_data t' = v_data t
      | RErr e sp t, RErr e' sp' t' => e' = e /\ sp' = after_text g id id' sp /\ v_data t' = v_data t /\ trace_back t' = map (move_line (after_text g id id')) (trace_back t)
      | ROut t, ROut t' => v_data t' = v_data t
      | RPanic, _ => True
      | _, _ => False
      end
  | _, _ => False
  end.
Proof. exact program_after. Qed.
Print Assumptions C106_program.

(** Functions compared by their code and positions.  Comments and empty lines before a program that prints and fails: it prints the same and fails 30 bytes later.  Text that is not white
    space before it changes more, and so does a comment that does not end. *)
Example C106_example :
  (gap opening /\ N.to_nat (slen opening) = 30) /\
  ((forall f f' h h', moved_closure (after_text opening 0 0) f f' -> moved_closure (after_text opening 0 0) h h' -> by_code f' h' = by_code f h) /\ (forall f h e, by_code f h <> Err e) /\
   (forall f f', moved_closure (after_text opening 0 0) f f' -> no_fhash f' = no_fhash f) /\ (forall f e, no_fhash f <> Err e)) /\
  (parse_code talk_oracle 100 (opening ++ say_text) 3 = PMatch (rename_program (fun x => x) (after_text opening 0 3) (ast_of say_text)) (124, []) /\
   ast_of (opening ++ say_text) = rename_program (fun x => x) (after_text opening 0 0) (ast_of say_text) /\ ast_of say_text <> []) /\
  (failed_at (ast_of say_text) = Some (ENotCallable (str "int"), (83, 93)) /\ failed_at (ast_of (opening ++ say_text)) = Some (ENotCallable (str "int"), (113, 123)) /\
   said_by (ast_of (opening ++ say_text)) = said_by (ast_of say_text)) /\
  (~ gap (str "// no end ") /\ ast_of (str "// no end " ++ str "1") <> rename_program (fun x => x) (after_text (str "// no end ") 0 0) (ast_of (str "1"))).
Proof. exact (conj opening_gap (conj (conj (by_code_moved opening 0 0) (conj by_code_answers (conj (fun _ _ _ => eq_refl) opening_hash))) (conj opening_moves (conj opening_fails no_end)))). Qed.
