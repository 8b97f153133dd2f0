(** C01 and C03 for programs that use the standard library of Builtins.v, registered with
    the machine as in Std.v and known by name in the direct evaluation as in SpecStd.v. *)
From Verif Require Import Base RleVec Pool Float NumText Bytecode Chunk Value Ast Arith VmOps Parse Builtins
  Compiler Vm Std CodeSize SpecParse SpecReady SpecRel SpecVm SpecEval SpecStd ProofArithEx ExProg ProofVmEx
  ProofParse ProofReady3 ProofSim13 ProofParse5 ProofHeldEx ProofStdEx.

(** A new machine with the library does with the text of a program what the definition of
    the language and the definitions of the builtins say. *)
Theorem C01_library_partial : forall D m (hst : host D) orc parse_fuel text id ast i sc feq d o fuel,
  let s := add_builtins_list (std m (h_oracle hst) feq) (vm_new d sc o) in
  parse_code orc parse_fuel text id = PMatch ast i -> compile m ast = COk sc ->
  weights ast <= N.to_nat 65535 -> placed_program ast ->
  length (p_entries (v_gsyms s)) <= N.to_nat 65536 ->
  stopped_by_limit m hst s \/
  agrees m hst fuel (eval m (h_oracle hst) (v_opts s) (h_enter hst) (h_leave hst)
                       (std_known m (h_oracle hst)) fuel ast (mkSst [] [] d)) s.
Proof.
  exact (fun D m hst orc pf text id ast i sc feq d o fuel Hp Hc Hw Hpl Hr =>
    whole_program m hst ast sc _ _ _ fuel Hc Hw Hpl (parse_code_named orc pf text id ast i Hp)
      (lib_starts m hst feq d sc o) Hr).
Qed.
Print Assumptions C01_library_partial.

Example C01_library_example :
  (exists i, parse_code no_oracle 100 held_text 0 = PMatch held_ast i) /\
  compile Release held_ast = COk (script_of held_ast) /\
  weights held_ast <= N.to_nat 65535 /\ placed_program held_ast /\
  lib_eval 20 held_ast = Some (VArray [VColor 128 64 128 192; VInt (- 2 ^ 63); VInt (-16)] 48 1000) /\
  match run Release plain_host 500 held_vm with
  | RDone v _ => v = VArray [VColor 128 64 128 192; VInt (- 2 ^ 63); VInt (-16)] 48 1000
  | _ => False
  end.
Proof.
  split; [exact held_parses|]. split; [exact held_compiles|]. split; [exact held_weight|].
  split; [exact held_placed|]. split; [exact held_eval|exact held_result].
Qed.
Example C01_library_room :
  length (p_entries (v_gsyms (lib_vm Release (plain_host (D:=unit)) (fun _ _ => Ok false) tt
    (script_of held_ast) small))) <= N.to_nat 65536.
Proof. exact held_room. Qed.

(** And is never led astray. *)
Theorem C03_library_partial : forall D m (hst : host D) orc parse_fuel text id ast i sc feq d o s,
  parse_code orc parse_fuel text id = PMatch ast i -> weights ast <= N.to_nat 65535 -> compile m ast = COk sc ->
  reach m hst (add_builtins_list (std m (h_oracle hst) feq) (vm_new d sc o)) s -> ready s.
Proof.
  exact (fun D m hst orc pf text id ast i sc feq d o s Hp Hw Hc =>
    main_ready m hst ast sc _ s Hc Hw (parse_code_complete orc pf text id ast i Hp)
      (lib_prepared m hst feq d sc o)).
Qed.
Print Assumptions C03_library_partial.
