(** Runs of the command line program, for C88-C91. *)
From Verif Require Import Base RleVec Pool Vecc Float NumText Bytecode Chunk Value Ast Arith VmOps Args Parse Builtins
  Compiler Vm Std Console Includes Report Repl Cli CodeSize SpecParse SpecReady SpecVm SpecEval SpecStd SpecReport
  SpecLines ProofLines ProofReport2 ProofArithEx ProofConsoleEx SpecConsole ExProg.

(** A plain way of drawing reports. *)
Definition plain_printer : printer :=
  mkPrinter (fun c => [c]) (fun _ => []) (fun _ => str "?")
    (fun c title sp text => text ++ [10%N]) simple_table simple_line.

Definition main_file : rstring := str "main.ql".
Definition shop_text : rstring := str
"include ""lib""
let n = @input(""how many? "")
total(@len(n))".
Definition lib_text : rstring := str "let total = fn(k) { let each = 12  @println(k) k * each }".
Definition broken_text : rstring := str "let f = fn(a) {
  a + none
}
@print(1)
f(2)".
Definition files (n : rstring) : rstring + rstring :=
  if seqb n main_file then inl shop_text
  else if seqb n (str "broken") then inl broken_text
  else if seqb n (str "scope") then inl (str "@print(1) return 2")
  else if seqb n (str "syntax") then inl (str "@print(1) )")
  else if seqb n (str "lib.ql") then inl lib_text else if seqb n (str "lib") then inl lib_text else inr (str "no such file").
Definition shop_world : world :=
  mkWorld [] [Some (str "xyz"); Some (str "left")] files (fun _ => Some (86399%N, 0%N)) 0 (fun _ => 7%N) (fun _ => fzero) 0 (fun _ => 42%N).
Definition shop_args : arguments := mkArguments true small.
Definition shop (k : nat) (n : rstring) := cli Release talk_host talk_oracle plain_printer no_feq no_fhash k shop_args n shop_world.


Definition shop_ast : list nodeS :=
  match parse_with_includes (read_text shop_world) (parse_text talk_oracle) 5 main_file shop_text with IOk a _ => a | _ => [] end.
Definition shop_state : istate :=
  match parse_with_includes (read_text shop_world) (parse_text talk_oracle) 5 main_file shop_text with IOk _ i => i | _ => mkIState [] [] end.
Definition shop_vm : vm world :=
  add_builtins_list (stdio Release talk_oracle no_feq no_fhash) (vm_new shop_world (script_of shop_ast) small).
Definition shop_eval (fuel : nat) :=
  match eval Release talk_oracle small (fun d => d) (fun d => d) (stdio_known Release talk_oracle) fuel shop_ast
          (mkSst [] [] shop_world) with
  | Got v s => Some (v, w_out (ss_data s))
  | _ => None
  end.
Definition shown_by (e : ended) : option (N * rstring * list (option rstring) * rstring) :=
  match e with Exited st w err => Some (st, w_out w, w_in w, err) | _ => None end.

Lemma shop_reads : w_file shop_world main_file = inl shop_text /\
  parse_with_includes (read_text shop_world) (parse_text talk_oracle) 5 main_file shop_text = IOk shop_ast shop_state.
Proof. split; vm_compute; reflexivity. Qed.
Lemma shop_compiles : compile Release shop_ast = COk (script_of shop_ast) /\ i_sources shop_state = [main_file; str "lib"].
Proof. split; vm_compute; reflexivity. Qed.
Lemma shop_weight : weights shop_ast <= N.to_nat 65535.
Proof. apply Nat.leb_le. vm_compute. reflexivity. Qed.
Lemma shop_placed : placed_program shop_ast.
Proof. vm_compute. reflexivity. Qed.
Lemma shop_room : length (p_entries (v_gsyms shop_vm)) <= N.to_nat 65536.
Proof. apply Nat.leb_le. vm_compute. reflexivity. Qed.
Lemma shop_evals : shop_eval 30 = Some (VInt 36, str "how many? 3 " ++ [10%N]).
Proof. vm_compute. reflexivity. Qed.
Lemma shop_runs : shown_by (shop 500 main_file) =
  Some (0%N, str "how many? 3 " ++ [10%N] ++ str "RETURNED: 36" ++ [10%N], [Some (str "left")], []).
Proof. vm_compute. reflexivity. Qed.
Lemma broken_runs : shown_by (shop 500 (str "broken")) =
  Some (1%N, str "1 Traceback (most recent call last):" ++ [10%N] ++
             call_text (str "broken") 4 (str "@__main__") (str "f(2)") ++ call_text (str "broken") 1 (str "@__lambda__") (str "a + none") ++
             str "TypeError: unsupported binary operation `+` on `int` and `none`" ++ [10%N], [Some (str "xyz"); Some (str "left")], []).
Proof. vm_compute. reflexivity. Qed.
Lemma refused_runs :
  shown_by (shop 500 (str "scope")) = Some (1%N, str "SyntaxError: return outside of function" ++ [10%N], [Some (str "xyz"); Some (str "left")], []) /\
  shown_by (shop 500 (str "syntax")) = Some (1%N, str "SyntaxError: unexpected token at ?" ++ [10%N], [Some (str "xyz"); Some (str "left")], []) /\
  shown_by (shop 500 (str "nope")) = Some (1%N, [], [Some (str "xyz"); Some (str "left")], str "Error reading file 'nope': no such file" ++ [10%N]).
Proof. split; [|split]; vm_compute; reflexivity. Qed.

(** A session: a function, a call of it that goes wrong, and a line that is no program. *)
Definition typed (l : list rstring) : world :=
  mkWorld [] (map Some l) (fun _ => inr (str "no such file")) (fun _ => None) 0 (fun _ => 0%N) (fun _ => fzero) 0 (fun _ => 0%N).
Definition wrong_lines : list rstring := [str "fn f(a) { a + none }"; str "f(1)"; str ")"].
Notation session l n :=
  (rounds Release talk_host talk_oracle plain_printer 200 n (interactive_new Release talk_host no_feq no_fhash small (typed l))).
Definition nobody : interactive := interactive_new Release talk_host no_feq no_fhash small (typed []).
Definition at_end (o : option interactive) : interactive := match o with Some r => r | None => nobody end.
Definition call_lines : rstring :=
  call_text (str "@__exec__1") 0 (str "@__repl__") (str "f(1)") ++ call_text (str "@__exec__0") 0 (str "f") (str "fn f(a) { a + none }").
Definition go_on (o : option interactive) : bool := match o with Some _ => true | None => false end.
Lemma went_on o : go_on o = true -> o = Some (at_end o).
Proof. destruct o; [reflexivity|discriminate]. Qed.
Lemma wrong_two : go_on (session wrong_lines 2) = true.
Proof. vm_compute. reflexivity. Qed.
Notation after_two := (at_end (session wrong_lines 2)).
Notation third := (round Release talk_host talk_oracle plain_printer 200 after_two).
Lemma wrong_three : go_on third = true.
Proof. vm_compute. reflexivity. Qed.
Lemma wrong_in : w_in (n_world after_two) = [Some (str ")")].
Proof. vm_compute. reflexivity. Qed.
Lemma wrong_out : w_out (n_world (at_end third)) = w_out (n_world after_two) ++ str ">>> Traceback (most recent call last):" ++ [10%N] ++ call_lines ++
      str "SyntaxError: unexpected token at ?" ++ [10%N].
Proof. vm_compute. reflexivity. Qed.
Lemma wrong_parse : parse_text talk_oracle (str ")") 2 = None.
Proof. vm_compute. reflexivity. Qed.
Lemma wrong_session :
  exists r2 r3, session wrong_lines 2 = Some r2 /\
    round Release talk_host talk_oracle plain_printer 200 r2 = Some r3 /\
    w_in (n_world r2) = [Some (str ")")] /\ parse_text talk_oracle (str ")") 2 = None /\
    w_out (n_world r3) = w_out (n_world r2) ++ str ">>> Traceback (most recent call last):" ++ [10%N] ++ call_lines ++
      str "SyntaxError: unexpected token at ?" ++ [10%N].
Proof.
  exists after_two, (at_end third). split; [exact (went_on _ wrong_two)|]. split; [exact (went_on _ wrong_three)|].
  split; [exact wrong_in|]. split; [exact wrong_parse|exact wrong_out].
Qed.
Definition good_lines : list rstring := [str "let x = 6"; str "x * 7"].
Lemma good_three : go_on (session good_lines 3) = true.
Proof. vm_compute. reflexivity. Qed.
Lemma good_in : w_in (n_world (at_end (session good_lines 3))) = [].
Proof. vm_compute. reflexivity. Qed.
Lemma good_out : w_out (n_world (at_end (session good_lines 3))) = str ">>> >>> 42" ++ [10%N] ++ str ">>> ".
Proof. vm_compute. reflexivity. Qed.
Lemma good_session : exists r, session good_lines 3 = Some r /\ w_in (n_world r) = [] /\
  w_out (n_world r) = str ">>> >>> 42" ++ [10%N] ++ str ">>> ".
Proof. exists (at_end (session good_lines 3)). split; [exact (went_on _ good_three)|]. split; [exact good_in|exact good_out]. Qed.
