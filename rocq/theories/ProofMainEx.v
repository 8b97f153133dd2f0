(** Examples for C95 and C96, and the limits. *)
From Verif Require Import Base RleVec Pool Vecc Float NumText Bytecode Chunk Value Ast Arith VmOps Args Parse Builtins
  Compiler Vm Std Console Includes Report Repl Lines Disasm Listing Cli Main SpecData SpecMain ProofArithEx ProofConsoleEx ProofCliEx ExProg.

Theorem limits_chosen c n x : let o := chosen c in
  match ch_max_runtime c with Some ms => o_max_runtime o = (ms * 1000000)%N | None => (500 * 366 * 24 * 3600 * 1000000000 < o_max_runtime o)%N end /\
  (ch_stack_size c = Some n -> o_stack_size o = n) /\ (ch_stack_size c = None -> N.of_nat (o_stack_size o) = 500000%N) /\
  (ch_call_stack_size c = Some n -> o_call_stack_size o = n) /\ (ch_call_stack_size c = None -> N.of_nat (o_call_stack_size o) = 1000%N) /\
  (ch_string_max c = Some x -> o_string_max o = x) /\ (ch_string_max c = None -> o_string_max o = 262144%N) /\
  (ch_array_max c = Some x -> o_array_max o = x) /\ (ch_array_max c = None -> o_array_max o = 262144%N).
Proof.
  cbv zeta. unfold chosen, default_options. cbn [o_max_runtime o_stack_size o_call_stack_size o_string_max o_array_max].
  split; [destruct (ch_max_runtime c); [reflexivity|vm_compute; reflexivity]|].
  repeat match goal with |- _ /\ _ => split end; intros ->; cbn [or_else]; rewrite ?N2Nat.id; reflexivity.
Qed.

(** A host that counts, and one that keeps a list. *)
Definition counting : host nat := mkHost (fun x => x) (fun x => x) (fun _ => 0%N) 10 no_oracle.
Definition keeping : host (list value) := mkHost (fun x => x) (fun x => x) (fun _ => 0%N) 10 no_oracle.
Definition counts (n : nat) (l : list value) : Prop := n = length l.
Definition count_note : rstring * builtin nat := (str "note", BFn (fun n args _ => (n + length args, Ok (VInt (Z.of_nat (n + length args)))))).
Definition keep_note : rstring * builtin (list value) :=
  (str "note", BFn (fun l args _ => (args ++ l, Ok (VInt (Z.of_nat (length l + length args)))))).
Lemma note_hosts : same_host counts counting keeping.
Proof. split; auto. Qed.
Lemma note_same : Forall2 (same_builtins counts) [[count_note]] [[keep_note]].
Proof.
  constructor; [|constructor]. constructor; [|constructor]. split; [reflexivity|]. constructor.
  intros d e args o H. unfold counts in H. subst d. split; [unfold counts; cbn; rewrite app_length; lia|reflexivity].
Qed.
Definition note_ast : list nodeS := match parse_code no_oracle 100 (str "external k = 4  @note(k, k + 1)") 0 with PMatch a _ => a | _ => [] end.
Definition note_script : script := script_of note_ast.
Definition note_uses : list use := [URun 50; UScript note_script; UExternal (str "k") (VInt 6); URun 50].

Definition tiny_world : world :=
  mkWorld (str "$ ") [] (fun n => if seqb n (str "a") then inl (str "@print(1) 7") else inr (str "none")) (fun _ => None) 0 (fun _ => 7%N) (fun _ => fzero) 0 (fun _ => 42%N).
Definition tiny (g : flags) : ended :=
  quilt Release talk_host talk_oracle plain_printer (fun _ => str "1ms") no_feq no_fhash 80 g shop_args (str "a") tiny_world.
Lemma tiny_reads : exists text ast is sc out, w_file tiny_world (str "a") = inl text /\
  parse_with_includes (read_text tiny_world) (parse_text talk_oracle) 80 (str "a") text = IOk ast is /\ compile Release ast = COk sc /\
  disassemble (line_of plain_printer (sources tiny_world (i_sources is))) 80 sc = Some (Ok out).
Proof.
  do 5 eexists. split; [vm_compute; reflexivity|]. split; [vm_compute; reflexivity|]. split; [vm_compute; reflexivity|].
  vm_compute. reflexivity.
Qed.
Lemma tiny_bare : shown_by (tiny no_flags) = Some (0%N, str "$ 1 RETURNED: 7" ++ [10%N], [], []).
Proof. vm_compute. reflexivity. Qed.
Lemma tiny_all : shown_by (tiny (mkFlags true true true)) = Some (0%N, str
"$ PARSED: 1ms
COMPILED: 1ms
DISASSEMBLED: 1ms
Disassembly of <func @__main__, file ""a"", line 1>
1          0    LoadConst       0    (1)
           3    CallBuiltin     1    (<builtin print>)
           7    Pop                  
           8    LoadConst       1    (7)
           11   Return               

1 TOOK: 1ms
RETURNED: 7
", [], []).
Proof. vm_compute. reflexivity. Qed.
