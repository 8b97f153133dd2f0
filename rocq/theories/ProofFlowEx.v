(** Examples for the theorems about single constructs. *)
From Verif Require Import Base RleVec Pool Vecc Float NumText Bytecode Chunk Value Ast Arith VmOps Parse
  Compiler Vm CodeSize SpecArith SpecParse SpecReady SpecRel SpecVm SpecEval ProofArithEx ProofParse ProofCode ExProg ProofVmEx
  ProofEvalEx SpecFlow.

Definition parsed (text : rstring) : list nodeS :=
  match parse_code no_oracle 100 text 0 with PMatch a _ => a | _ => [] end.
Definition walk_map := fold_left with_builtin walk_builtins (fun _ => None).
Definition machine (ast : list nodeS) : vm (list Z) :=
  add_builtins_list walk_machine_builtins (vm_new [] (script_of ast) small).
Definition empty_start : sst (D := list Z) := mkSst [] [] [].
Lemma machine_starts ast : starts (script_of ast) walk_map empty_start (machine ast).
Proof.
  apply (starts_builtins _ walk_builtins walk_machine_builtins); [constructor|].
  constructor; [split; [reflexivity|exact note_same]|]. constructor; [split; [reflexivity|split; [exact note_same|auto]]|constructor].
Qed.
(** The conditions of the theorems, for a given program. *)
Definition fine {D} (ast : list nodeS) (s : vm D) : Prop :=
  compile Release ast = COk (script_of ast) /\ weights ast <= N.to_nat 65535 /\ placed_program ast /\
  ordinary_names ast /\ length (p_entries (v_gsyms s)) <= N.to_nat 65536.
Ltac fine :=
  split; [vm_compute; reflexivity|]; split; [apply Nat.leb_le; vm_compute; reflexivity|]; split; [vm_compute; reflexivity|];
  split; [|apply Nat.leb_le; vm_compute; reflexivity];
  match goal with |- ordinary_names ?a =>
    change (Forall (fun c => forall b, inside b (fst c) -> name_ok b) a);
    let x := eval vm_compute in a in change a with x end;
  repeat (first [apply Forall_nil | apply Forall_cons | apply names_intro | exact Logic.I
                | (cbn; discriminate)]; cbn [fst snd children opt_list app flat_map]).

(** A switch with two equal cases; the case expressions leave a trace. *)
Definition switch_text : rstring := str
"let x = 2
switch x + 1 { case @log(1) { @log(10) }  case @log(3) { @log(30) }  case @log(3) { @log(31) }  default { @log(40) } }".
Definition switch_ast := parsed switch_text.
Lemma switch_fine : fine switch_ast (machine switch_ast).
Proof. fine. Qed.
Definition switch_parts : list nodeS * nodeS * list (nodeS * list nodeS) * option (list nodeS) * span :=
  match switch_ast with [d; (NSwitch e cs o, sp)] => ([d], e, cs, o, sp) | _ => ([], int 0, [], None, sp0) end.
Lemma switch_shape : let '(pre, e, cs, o, sp) := switch_parts in
  switch_ast = pre ++ [(NSwitch e cs o, sp)] /\ length cs = 3 /\ o <> None.
Proof. vm_compute. repeat split. discriminate. Qed.
Notation sx := (value_at Release plain_host small walk_map 5).
Lemma switch_choice : let '(pre, e, cs, o, sp) := switch_parts in
  exists r0 s0 s1 c s2, statements_at Release plain_host small walk_map 5 pre empty_start = Got r0 s0 /\
    sx (fst e) (snd r0) s0 = Got (VInt 3) s1 /\
    choice (fun n s => sx n (snd r0) s) (VInt 3) cs s1 (Some c) s2 /\ ss_data s2 = [1; 3]%Z /\
    (exists s3, body_at Release plain_host small walk_map 5 c (snd r0) s2 = Got (VInt 30) s3 /\ ss_data s3 = [1; 3; 30]%Z).
Proof.
  let x := eval vm_compute in switch_parts in change switch_parts with x. cbv beta iota.
  eexists. eexists. eexists. eexists. eexists. split; [vm_compute; reflexivity|]. split; [vm_compute; reflexivity|].
  split; [eapply ch_next; [vm_compute; reflexivity|vm_compute; reflexivity|eapply ch_this; vm_compute; reflexivity]|].
  split; [vm_compute; reflexivity|]. eexists. split; vm_compute; reflexivity.
Qed.
Lemma switch_result : runs (machine switch_ast) = Some (VInt 30, [1; 3; 30]%Z).
Proof. vm_compute. reflexivity. Qed.

(** A block that declares variables as the left operand. *)
Definition left_ast := parsed (str "let x = 2
{ let a = x + 1   let b = a * 2   b + a } * @log(x)").
Lemma left_fine : fine left_ast (machine left_ast).
Proof. fine. Qed.
Definition left_parts : list nodeS * op * list nodeS * nodeS * span * span :=
  match left_ast with [d; (NBinary o (NBlock b, sb) c, sp)] => ([d], o, b, c, sb, sp) | _ => ([], OAdd, [], int 0, sp0, sp0) end.
Lemma left_shape : let '(pre, o, body, c, sb, sp) := left_parts in
  left_ast = pre ++ [(NBinary o (NBlock body, sb) c, sp)] /\ length body = 3.
Proof. vm_compute. auto. Qed.
Lemma left_values : let '(pre, o, body, c, sb, sp) := left_parts in
  exists r0 s0 s1 s2, statements_at Release plain_host small walk_map 5 pre empty_start = Got r0 s0 /\
    body_at Release plain_host small walk_map 5 body (snd r0) s0 = Got (VInt 9) s1 /\
    sx (fst c) (snd r0) s1 = Got (VInt 2) s2 /\ applied Release plain_host small o (VInt 9) (VInt 2) s2 = Got (VInt 18) s2.
Proof.
  let x := eval vm_compute in left_parts in change left_parts with x. cbv beta iota.
  eexists. eexists. eexists. eexists. repeat (split; [vm_compute; reflexivity|]). vm_compute; reflexivity.
Qed.
Lemma left_result : runs (machine left_ast) = Some (VInt 18, [2]%Z).
Proof. vm_compute. reflexivity. Qed.

(** A loop with two variables. *)
Definition for_text2 : rstring := str "for p, q in [[1, 2], [3, 4], [5, 6]] { let s = p * 10   @log(s + q) }".
Definition for_ast2 := parsed for_text2.
Lemma for_fine : fine for_ast2 (machine for_ast2).
Proof. fine. Qed.
Definition for_parts : list (spanned rstring) * nodeS * list nodeS * span :=
  match for_ast2 with [(NMultiFor xs i b, sp)] => (xs, i, b, sp) | _ => ([], int 0, [], sp0) end.
Lemma for_shape : let '(xs, i, b, sp) := for_parts in for_ast2 = [] ++ [(NMultiFor xs i b, sp)] /\ length xs = 2.
Proof. vm_compute. auto. Qed.
Lemma for_elements : let '(xs, i, b, sp) := for_parts in
  exists s0 it s1 l, statements_at Release plain_host small walk_map 5 [] empty_start = Got (None, []) s0 /\
    sx (fst i) [] s0 = Got it s1 /\ value_wf it /\ visits it = Some l /\ length l = 3 /\
    (exists s2, each (body_with Release plain_host small walk_map 5 (VarMulti xs) b []) l VNone s1 = Got (VInt 56) s2 /\
                ss_data s2 = [12; 34; 56]%Z).
Proof.
  let x := eval vm_compute in for_parts in change for_parts with x. cbv beta iota.
  eexists. eexists. eexists. eexists. split; [vm_compute; reflexivity|]. split; [vm_compute; reflexivity|].
  split; [repeat (constructor; try (vm_compute; intuition discriminate); try (vm_compute; reflexivity))|].
  split; [reflexivity|]. split; [reflexivity|]. eexists. split; vm_compute; reflexivity.
Qed.
Lemma for_result : runs (machine for_ast2) = Some (VInt 56, [12; 34; 56]%Z).
Proof. vm_compute. reflexivity. Qed.

(** Contexts inside loops and functions; one that is left by an error. *)
Definition enter_ {Fn} (n : rstring) (d : list event) (args : list (gvalue Fn)) (o : options) : list event * res (gvalue Fn) :=
  (d ++ [Entered n], Ok VNone).
Definition exit_ (n : rstring) (d : list event) : list event * res unit := (d ++ [Left n], Ok tt).
Definition outer : rstring := str "outer".
Definition inner : rstring := str "inner".
Definition nest_builtins : list (rstring * sbuiltin (D := list event)) :=
  [(outer, SContext (enter_ outer) (exit_ outer)); (inner, SContext (enter_ inner) (exit_ inner))].
Definition nest_machine_builtins : list (rstring * builtin (list event)) :=
  [(outer, BContext (enter_ outer) (exit_ outer)); (inner, BContext (enter_ inner) (exit_ inner))].
Definition nest_map := fold_left with_builtin nest_builtins (fun _ => None).
Definition nest_text : rstring := str
"let f = fn(n) { with @outer() { for i in 0:n { with @inner() { i } } } }
f(2)
with @outer() { f(1) }".
Definition nest_ast := parsed nest_text.
Definition nest_machine (ast : list nodeS) : vm (list event) :=
  add_builtins_list nest_machine_builtins (vm_new [] (script_of ast) small).
Definition nest_start : sst (D := list event) := mkSst [] [] [].
Lemma enter_same n : same_fn (@enter_ sfn n) (@enter_ mfn n).
Proof. intros R d vs ws o _ _. cbn. split; auto. constructor. Qed.
Lemma nest_starts ast : starts (script_of ast) nest_map nest_start (nest_machine ast).
Proof.
  apply (starts_builtins _ nest_builtins nest_machine_builtins); [constructor|].
  repeat (constructor; [split; [reflexivity|split; [apply enter_same|auto]]|]). constructor.
Qed.
Lemma nest_writes x f : nest_map x = Some f -> writes (fun d => d) x f.
Proof.
  unfold nest_map, nest_builtins, with_builtin. cbn [fold_left fst snd].
  destruct (seqb x inner) eqn:E1; [apply seqb_eq in E1 as ->; intros [= <-]; cbn; auto|].
  destruct (seqb x outer) eqn:E2; [apply seqb_eq in E2 as ->; intros [= <-]; cbn; auto|]. discriminate.
Qed.
Lemma nest_fine : fine nest_ast (nest_machine nest_ast).
Proof. fine. Qed.
Definition nest_trace : list event :=
  [Entered outer; Entered inner; Left inner; Entered inner; Left inner; Left outer;
   Entered outer; Entered outer; Entered inner; Left inner; Left outer; Left outer].
Lemma nest_result : option_map snd (runs (nest_machine nest_ast)) = Some nest_trace.
Proof. vm_compute. reflexivity. Qed.
Lemma nest_specified :
  eval Release no_oracle small (fun d => d) (fun d => d) nest_map 2000 nest_ast nest_start <> Unspecified.
Proof. vm_compute. discriminate. Qed.
Definition broken_ast := parsed (str "with @outer() { with @inner() { 1 }  with @inner() { x } }").
Lemma broken_result : match run Release plain_host 2000 (nest_machine broken_ast) with
  | RErr e _ s => e = ENameUndefined (str "x") /\ v_data s = [Entered outer; Entered inner; Left inner; Entered inner]
  | _ => False
  end.
Proof. vm_compute. auto. Qed.
