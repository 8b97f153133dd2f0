(** Examples for C01: a program with closures, loops, a switch, contexts and builtins. *)
From Verif Require Import Base RleVec Pool Vecc Float NumText Bytecode Chunk Value Ast Arith VmOps Parse
  Compiler Vm CodeSize SpecParse SpecReady SpecRel SpecVm SpecEval ProofArithEx ProofParse ProofCode ExProg ProofVmEx.

(** The host keeps a list of integers.  [@log(z)] appends to it; [@scope(z)] is a context
    that appends [z] on entry and -1 on exit. *)
Definition note {Fn} (d : list Z) (args : list (gvalue Fn)) (o : options) : list Z * res (gvalue Fn) :=
  match args with
  | [VInt z] => (d ++ [z], Ok (VInt z))
  | _ => (d, Err (ENotCallable []))
  end.
Definition leave_ (d : list Z) : list Z * res unit := (d ++ [(-1)%Z], Ok tt).
Definition walk_builtins : list (rstring * sbuiltin (D := list Z)) :=
  [(str "log", SFn note); (str "scope", SContext note leave_)].
Definition walk_machine_builtins : list (rstring * builtin (list Z)) :=
  [(str "log", BFn note); (str "scope", BContext note leave_)].

Lemma note_same : same_fn (@note sfn) (@note mfn).
Proof.
  intros R d vs ws o _ H. destruct H as [|v w vs ws Hv H]; [cbn; auto|]. destruct H as [|v' w' vs ws Hv' H].
  - destruct Hv; cbn; auto. split; auto. constructor.
  - destruct Hv; cbn; auto.
Qed.

Definition walk : rstring := str
"let make = fn(n) { let c = n   fn(k) { c = c + k   if c > 5 { return [c, k] }   c } }
let f = make(3)
for i in 0:4 { let a = i * 2
  with @scope(a) as d { switch a { case 0 { f(1) }   case 2 { let p, q = [a, i]   f(p + q) }
                                   default { while a > 5 { a = a - 1 }   @log(d + a) } } } }
f(1)".
Definition walk_ast : list nodeS := match parse_code no_oracle 100 walk 0 with PMatch a _ => a | _ => [] end.
Definition walk_vm : vm (list Z) :=
  insert_global (str "limit") (VInt 3) (add_builtins_list walk_machine_builtins (vm_new [] (script_of walk_ast) small)).
Definition walk_start : sst (D := list Z) := mkSst [] [(str "limit", VInt 3)] [].
Definition walk_eval (fuel : nat) (ast : list nodeS) :=
  eval Release no_oracle small (fun d => d) (fun d => d) (fold_left with_builtin walk_builtins (fun _ => None)) fuel ast walk_start.

Lemma walk_parses : exists i, parse_code no_oracle 100 walk 0 = PMatch walk_ast i.
Proof. eexists. vm_compute. reflexivity. Qed.
Lemma walk_compiles : compile Release walk_ast = COk (script_of walk_ast).
Proof. vm_compute. reflexivity. Qed.
Lemma walk_weight : weights walk_ast <= N.to_nat 65535.
Proof. apply Nat.leb_le. vm_compute. reflexivity. Qed.
Lemma walk_placed : placed_program walk_ast.
Proof. vm_compute. reflexivity. Qed.
Lemma walk_starts : starts (script_of walk_ast) (fold_left with_builtin walk_builtins (fun _ => None)) walk_start walk_vm.
Proof.
  apply (starts_global _ (str "limit") (VInt 3) (VInt 3) _ (mkSst [] [] [])); [|constructor].
  apply (starts_builtins _ walk_builtins walk_machine_builtins); [constructor|].
  constructor; [split; [reflexivity|exact note_same]|]. constructor; [split; [reflexivity|split; [exact note_same|auto]]|constructor].
Qed.
Lemma walk_room : length (p_entries (v_gsyms walk_vm)) <= N.to_nat 65536.
Proof. apply Nat.leb_le. vm_compute. reflexivity. Qed.

Definition name_ok (b : node) : Prop :=
  match b with
  | NIdentifier x => ordinary x
  | NAssignment x _ | NFunction x _ _ | NDeclaration (VarDecl x) _
  | NContext _ _ (Some (VarDecl x)) _ => ordinary (fst x)
  | _ => True
  end.
Lemma names_intro n : name_ok n -> Forall (fun c => forall b, inside b (fst c) -> name_ok b) (children n) ->
  forall b, inside b n -> name_ok b.
Proof.
  intros H1 H2 d Hd. inversion Hd; subst; auto. rewrite Forall_forall in H2. exact (H2 (c, sp) H d H0).
Qed.
Lemma walk_names : ordinary_names walk_ast.
Proof.
  change (Forall (fun c => forall b, inside b (fst c) -> name_ok b) walk_ast).
  let x := eval vm_compute in walk_ast in change walk_ast with x.
  repeat (first [apply Forall_nil | apply Forall_cons | apply names_intro | exact Logic.I
                | (cbn; discriminate)]; cbn [fst snd children opt_list app flat_map]).
Qed.

(** What comes of it, by direct evaluation and on the machine. *)
Definition told (o : out (D := list Z) sval) : option (sval * list Z) :=
  match o with Got v s => Some (v, ss_data s) | _ => None end.
Lemma walk_value : told (walk_eval 20 walk_ast) =
  Some (VArray [VInt 8; VInt 1] 32 1000, [0; -1; 2; -1; 4; 8; -1; 6; 11; -1]%Z).
Proof. vm_compute. reflexivity. Qed.
Lemma walk_runs : runs walk_vm = Some (VArray [VInt 8; VInt 1] 32 1000, [0; -1; 2; -1; 4; 8; -1; 6; 11; -1]%Z).
Proof. vm_compute. reflexivity. Qed.
(** The bound on calls and rounds is one that matters. *)
Lemma walk_short : walk_eval 3 walk_ast = More.
Proof. vm_compute. reflexivity. Qed.

(** A program that fails in the middle, and one that goes on for ever. *)
Definition fails_ast : list nodeS := [with_ "scope" [int 7] [bcall "log" [int 8]; call (int 9) []]].
Definition fails_vm : vm (list Z) := add_builtins_list walk_machine_builtins (vm_new [] (script_of fails_ast) small).
Lemma fails_both : walk_eval 20 fails_ast = Failed (ENotCallable (str "int")) (put_data [7; 8]%Z walk_start) /\
  exists sp s', run Release plain_host 2000 fails_vm = RErr (ENotCallable (str "int")) sp s' /\ v_data s' = [7; 8]%Z.
Proof. split; [vm_compute; reflexivity|]. eexists. eexists. vm_compute. split; reflexivity. Qed.
Definition spin_ast : list nodeS := [e (NWhile (e (NLiteral (LBool true))) [bcall "log" [int 1]])].
Lemma spin_more : walk_eval 50 spin_ast = More.
Proof. vm_compute. reflexivity. Qed.

(** A variable declared where an operand waits is found in the wrong place. *)
Definition misplaced : rstring := str "1 + { let a = 5   a }".
Definition misplaced_ast : list nodeS := match parse_code no_oracle 100 misplaced 0 with PMatch a _ => a | _ => [] end.
Definition misplaced_vm : vm (list Z) := vm_new [] (script_of misplaced_ast) small.
Lemma misplaced_parses : exists i, parse_code no_oracle 100 misplaced 0 = PMatch misplaced_ast i.
Proof. eexists. vm_compute. reflexivity. Qed.
Lemma misplaced_compiles : compile Release misplaced_ast = COk (script_of misplaced_ast).
Proof. vm_compute. reflexivity. Qed.
Lemma misplaced_values :
  eval Release no_oracle small (fun d => d) (fun d => d) (fun _ => None) 5 misplaced_ast (mkSst [] [] ([] : list Z)) =
    Got (VInt 6) (mkSst [VInt 5] [] []) /\
  runs misplaced_vm = Some (VInt 10, []) /\ ~ placed_program misplaced_ast.
Proof. vm_compute. split; [reflexivity|]. split; [reflexivity|]. intros H. discriminate H. Qed.
Lemma misplaced_refutes : exists text ast i sc (s : vm (list Z)) v st' w s',
  parse_code no_oracle 100 text 0 = PMatch ast i /\ compile Release ast = COk sc /\ s = vm_new [] sc small /\
  eval Release no_oracle small (fun d => d) (fun d => d) (fun _ => None) 5 ast (mkSst [] [] ([] : list Z)) = Got v st' /\
  run Release plain_host 2000 s = RDone w s' /\ ~ same_value v w.
Proof.
  assert (H : exists s', run Release plain_host 2000 misplaced_vm = RDone (VInt 10) s') by (eexists; vm_compute; reflexivity).
  destruct misplaced_parses as (i & H1). destruct H as (s' & H2).
  exists misplaced, misplaced_ast, i, (script_of misplaced_ast), misplaced_vm, (VInt 6), (mkSst [VInt 5] [] []), (VInt 10), s'.
  assert (H3 : ~ same_value (VInt 6) (VInt 10)) by (unfold same_value; inversion 1).
  exact (conj H1 (conj misplaced_compiles (conj eq_refl (conj (proj1 misplaced_values) (conj H2 H3))))).
Qed.
