(** Programs use no builtins but those they mention (C104).  [mentions] and [same_run] are in SpecOnly.v;
    [registered] (the last builtin registered under a name) and [names_fit] (at most 65536 names in all) in SpecVm.v;
    [honest_builtin] and [complete_program] in SpecReady.v. *)
From Verif Require Import Base RleVec Pool Float Bytecode Chunk Value Ast Parse Compiler Vm Std Console CodeSize SpecParse SpecReady SpecPos SpecVm SpecOnly
  ProofArithEx ProofConsoleEx ProofOnly2 ProofOnlyEx.
From Verif Require Import ExProg.

(** ** C104  Whatever else the host registers, or registers in place of builtins the program does not mention:
    the program does the same.  The builtins of the second machine may be any whatsoever. *)
Theorem C104_mentioned : forall D m (hst : host D) ast sc d o bs bs' k,
  compile m ast = COk sc -> weights ast <= N.to_nat 65535 -> complete_program ast ->
  names_fit sc bs -> names_fit sc bs' -> (forall l n b, In l bs -> In (n, b) l -> honest_builtin b) ->
  (forall x, mentions ast x -> registered x (concat bs') = registered x (concat bs)) ->
  same_run (run m hst k (vm_new_with d sc o bs)) (run m hst k (vm_new_with d sc o bs')).
Proof. intros D m hst ast sc d o bs bs' k Hc Hw Hp F F' Hh Hs. exact (only_mentioned m hst ast sc d o bs bs' Hc Hw Hp F F' Hh Hs k). Qed.
Print Assumptions C104_mentioned.

(** ** C104  A program that mentions no builtins runs as if there were none. *)
Theorem C104_alone : forall D m (hst : host D) ast sc d o bs k,
  compile m ast = COk sc -> weights ast <= N.to_nat 65535 -> complete_program ast -> names_fit sc bs ->
  (forall x, ~ mentions ast x) ->
  same_run (run m hst k (vm_new_with d sc o [])) (run m hst k (vm_new_with d sc o bs)).
Proof.
  intros D m hst ast sc d o bs k Hc Hw Hp F N. apply (C104_mentioned D m hst ast sc d o [] bs k Hc Hw Hp).
  - unfold names_fit in *. cbn [concat length]. lia.
  - exact F.
  - intros l n b [].
  - intros x M. destruct (N x M).
Qed.
Print Assumptions C104_alone.

(** A program that prints: the library, the library with a builtin replaced and one added that
    the program does not mention, and the library with a builtin replaced that it does. *)
Example C104_example :
  (exists i, parse_code talk_oracle 100 text 0 = PMatch lib_ast i) /\
  (compile Release lib_ast = COk (script_of lib_ast) /\ weights lib_ast <= N.to_nat 65535 /\ complete_program lib_ast) /\
  (names_fit (script_of lib_ast) [lib] /\ names_fit (script_of lib_ast) [lib; more]) /\
  (forall l n b, In l [lib] -> In (n, b) l -> honest_builtin b) /\
  (forall x, mentions lib_ast x -> registered x (concat [lib; more]) = registered x (concat [lib])) /\
  (says [lib] = Some (VInt 5, lines) /\ says [lib; more] = Some (VInt 5, lines) /\ says [lib; instead] = Some (VInt 5, str "$ !!")).
Proof.
  exact (conj text_parses (conj (conj lib_compiles (conj lib_weight lib_complete)) (conj lib_fits (conj lib_honest (conj lib_same lib_says))))).
Qed.

Example C104_alone_example :
  (compile Release calm_ast = COk (script_of calm_ast) /\ weights calm_ast <= N.to_nat 65535 /\ complete_program calm_ast /\ names_fit (script_of calm_ast) [lib; more]) /\
  (forall x, ~ mentions calm_ast x) /\
  match run Release talk_host 500 (vm_new_with talk_world (script_of calm_ast) small [lib; more]) with RDone v t => Some (v, w_out (v_data t)) | _ => None end = Some (VInt 10, str "$ ").
Proof. exact (conj calm_ok (conj calm_mentions calm_runs)). Qed.
