(** An example for C101. *)
From Verif Require Import Base Float Ast Parse Pool Chunk Value Compiler SpecParse SpecPos SpecNames ProofArithEx.
From Verif Require Import ExProg.

Definition names_text : rstring := str "let if = [1];for i in if { let f = fn (x) { x + i };@print(f) }".
Definition names_ast : list nodeS := match parse_code no_oracle 100 names_text 0 with PMatch a _ => a | _ => [] end.
Definition names_lambda : function :=
  match nth_error (ck_consts (fn_chunk (sc_function (script_of names_ast)))) 1 with
  | Some (VFn (MFun f)) => f | _ => fn_blank [] end.
Lemma names_parse : exists i, parse_code no_oracle 100 names_text 0 = PMatch names_ast i.
Proof. eexists. vm_compute. reflexivity. Qed.
Lemma names_compile : compile Release names_ast = COk (script_of names_ast).
Proof. vm_compute. reflexivity. Qed.
Lemma names_known : p_entries (sc_globals (script_of names_ast)) = [str "if"; str "print"] /\
  ck_syms (fn_chunk (sc_function (script_of names_ast))) = [str "#__temp_0"; str "#__temp_1"; str "i"; str "f"] /\
  In (VFn (MFun names_lambda)) (ck_consts (fn_chunk (sc_function (script_of names_ast)))) /\
  fn_name names_lambda = str "@__lambda__" /\ ck_syms (fn_chunk names_lambda) = [str "@__lambda__"; str "x"].
Proof. vm_compute. split; [reflexivity|]. split; [reflexivity|]. split; [right; left; reflexivity|]. split; reflexivity. Qed.
Lemma names_part : part (sc_function (script_of names_ast)) names_lambda.
Proof. eapply pa_in; [apply pa_self|]. exact (proj1 (proj2 (proj2 names_known))). Qed.
