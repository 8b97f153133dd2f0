(** Examples and counterexamples for C03. *)
From Verif Require Import Base RleVec Pool Vecc Float NumText Bytecode Chunk Value Ast Arith VmOps Parse
  Compiler Vm Items CodeSize SpecParse SpecReady ProofArithEx ProofParse ProofCode ExProg ProofVmEx ProofReady3.

(** A program with closures, loops, blocks, a switch, and an early return. *)
Definition tour : rstring := str
"let make = fn(n) { let c = n   fn(k) { c = c + k   if c > 5 { return [c, k] }   c } }
let f = make(3)
for i in 0:4 { let a = i * 2   switch a { case 0 { f(1) }   case 2 { let p, q = [a, i]   f(p + q) }   default { while a > 5 { a = a - 1 } } } }
f(1)".
Definition tour_ast : list nodeS := match parse_code no_oracle 100 tour 0 with PMatch a _ => a | _ => [] end.
Definition tour_vm : vm unit := vm_new tt (script_of tour_ast) small.
Lemma tour_parses : exists i, parse_code no_oracle 100 tour 0 = PMatch tour_ast i.
Proof. eexists. vm_compute. reflexivity. Qed.
Lemma tour_compiles : compile Release tour_ast = COk (script_of tour_ast).
Proof. vm_compute. reflexivity. Qed.
Lemma tour_weight : weights tour_ast <= u16max.
Proof. apply Nat.leb_le. vm_compute. reflexivity. Qed.

Lemma tame_intro n :
  match n with
  | NIdentifier x => ordinary x
  | NAssignment x _ => ordinary (fst x)
  | NFor _ i _ | NMultiFor _ i _ => plain (fst i)
  | _ => True
  end -> Forall (fun c => tame (fst c)) (children n) -> tame n.
Proof.
  intros H1 H2 d Hd. inversion Hd; subst; auto. rewrite Forall_forall in H2. exact (H2 (c, sp) H d H0).
Qed.
Lemma plain_lit l : plain (NLiteral l).
Proof. intros d Hd. inversion Hd; subst; auto. contradiction. Qed.
Lemma tour_tame n sp : In (n, sp) tour_ast -> tame n.
Proof.
  assert (H : Forall (fun c => tame (fst c)) tour_ast).
  { let x := eval vm_compute in tour_ast in change tour_ast with x.
    repeat (first [apply Forall_nil | apply Forall_cons | apply tame_intro | apply plain_lit | exact I
                  | (cbn; discriminate)]; cbn [fst snd children opt_list app flat_map]). }
  rewrite Forall_forall in H. exact (H (n, sp)).
Qed.

(** Inside the closure, in its early return; and where a case of the switch ends. *)
Lemma tour_at : reach Release plain_host tour_vm (at_step 77 tour_vm) /\ reach Release plain_host tour_vm (at_step 85 tour_vm) /\
  length (v_frames (at_step 77 tour_vm)) = 1 /\ length (f_ups (v_frame (at_step 77 tour_vm))) = 1 /\
  length (v_blocks (at_step 85 tour_vm)) = 1.
Proof. repeat split; try (vm_compute; reflexivity); apply at_step_reach; eexists; vm_compute; reflexivity. Qed.
Lemma tour_result : result tour_ast = Some (VArray [VInt 8; VInt 1] 32 1000).
Proof. vm_compute. reflexivity. Qed.

(** The iterable of a [for] declares a variable. *)
Definition for_text : rstring := str "{ for x in { let a = [1] a } { x } }".
Definition for_decl : list nodeS := match parse_code no_oracle 100 for_text 0 with PMatch a _ => a | _ => [] end.
Definition for_vm : vm unit := vm_new tt (script_of for_decl) small.
Lemma for_slots : (exists i, parse_code no_oracle 100 for_text 0 = PMatch for_decl i) /\
  compile Release for_decl = COk (script_of for_decl) /\ weights for_decl <= u16max /\
  prepared (script_of for_decl) for_vm /\ reach Release plain_host for_vm (at_step 2 for_vm) /\
  ~ slots_ready (at_step 2 for_vm).
Proof.
  split; [eexists; vm_compute; reflexivity|].
  split; [vm_compute; reflexivity|]. split; [apply Nat.leb_le; vm_compute; reflexivity|].
  split; [constructor|]. split; [apply at_step_reach; eexists; vm_compute; reflexivity|].
  intros H. specialize (H (ISetLocal 2) 7 2%N ltac:(vm_compute; reflexivity) eq_refl). vm_compute in H. lia.
Qed.
