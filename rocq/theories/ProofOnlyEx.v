(** An example for C104. *)
From Verif Require Import Base RleVec Pool Float Bytecode Chunk Value Ast Parse Compiler Vm Std Console CodeSize SpecParse SpecReady SpecPos SpecVm SpecOnly
  ProofArithEx ProofParse ProofConsole ProofConsoleEx.
From Verif Require Import ExProg.

Definition text : rstring := str "let f = fn(x) { @println(x);@len(x) };f(""abc"") + f(""de"")".
Definition lib_ast : list nodeS := match parse_code talk_oracle 100 text 0 with PMatch a _ => a | _ => [] end.
Definition lib : list (rstring * builtin world) := stdio Release talk_oracle no_feq no_fhash.
(** A builtin that writes where it should not, once under a name of the library and once under a new one. *)
Definition noisy : builtin world := BFn (fun w _ _ => (say (str "!") w, Ok VNone)).
Definition more : list (rstring * builtin world) := [(str "print", noisy); (str "erase", noisy)].
Definition instead : list (rstring * builtin world) := [(str "println", noisy)].

Lemma text_parses : exists i, parse_code talk_oracle 100 text 0 = PMatch lib_ast i.
Proof. eexists. vm_compute. reflexivity. Qed.
Lemma lib_compiles : compile Release lib_ast = COk (script_of lib_ast). Proof. vm_compute. reflexivity. Qed.
Lemma lib_weight : weights lib_ast <= N.to_nat 65535. Proof. apply Nat.leb_le. vm_compute. reflexivity. Qed.
Lemma lib_complete : complete_program lib_ast.
Proof. destruct text_parses as [i H]. exact (parse_code_complete _ _ _ _ _ _ H). Qed.
Lemma lib_fits : names_fit (script_of lib_ast) [lib] /\ names_fit (script_of lib_ast) [lib; more].
Proof. split; apply Nat.leb_le; vm_compute; reflexivity. Qed.
Lemma lib_honest l n b : In l [lib] -> In (n, b) l -> honest_builtin b.
Proof.
  intros [<-|[]] I. pose proof (stdio_honest Release talk_oracle no_feq no_fhash) as H. rewrite Forall_forall in H. exact (H _ I).
Qed.

(** The nodes of a program by depth. *)
Fixpoint level (k : nat) (l : list nodeS) : list nodeS :=
  match k with O => l | S k => level k (flat_map (fun e => children (fst e)) l) end.
Lemma level_in k : forall l p psp n sp, In (p, psp) (level k l) -> In (n, sp) (children p) -> In (n, sp) (level (S k) l).
Proof.
  induction k as [|k IH]; intros l p psp n sp H C; [|exact (IH _ p psp n sp H C)].
  cbn [level]. apply in_flat_map. exists (p, psp). auto.
Qed.
Lemma occurs_level ast n sp : occurs ast n sp -> exists k, In (n, sp) (level k ast).
Proof. induction 1 as [n sp H|p psp n sp H [k IH] C]; [now exists 0|]. exists (S k). now apply (level_in k ast p psp). Qed.
Lemma level_nil k : level k [] = []. Proof. induction k; auto. Qed.
Lemma level_add k j : forall l, level (k + j) l = level j (level k l). Proof. induction k; intros l; cbn [level Nat.add]; auto. Qed.
Definition builtin_of (n : node) : option rstring :=
  match n with NBuiltinCall x _ => Some (fst x) | NContext x _ _ _ => Some (fst x) | _ => None end.
Lemma lib_mentions x : mentions lib_ast x -> x = str "println" \/ x = str "len".
Proof.
  intros M. assert (H : exists n sp, occurs lib_ast n sp /\ builtin_of n = Some x) by (destruct M as (sp & pl & [(a & O)|(a & v & b & O)]); eauto).
  destruct H as (n & sp & O & B). apply occurs_level in O as [k O].
  assert (E : level 8 lib_ast = []) by (vm_compute; reflexivity).
  assert (C : forallb (fun k => forallb (fun e : nodeS => match builtin_of (fst e) with None => true | Some x => seqb x (str "println") || seqb x (str "len") end) (level k lib_ast)) (seq 0 8) = true) by (vm_compute; reflexivity).
  destruct (Nat.lt_ge_cases k 8) as [L|L].
  - rewrite forallb_forall in C. specialize (C k ltac:(apply in_seq; lia)). rewrite forallb_forall in C. specialize (C _ O). cbn [fst] in C. rewrite B in C.
    apply orb_prop in C as [C|C]; apply seqb_eq in C; auto.
  - replace k with (8 + (k - 8)) in O by lia. rewrite level_add, E, level_nil in O. destruct O.
Qed.
Lemma lib_same x : mentions lib_ast x -> registered x (concat [lib; more]) = registered x (concat [lib]).
Proof. intros M. destruct (lib_mentions x M) as [-> | ->]; vm_compute; reflexivity. Qed.
Definition says bs : option (value * rstring) :=
  match run Release talk_host 500 (vm_new_with talk_world (script_of lib_ast) small bs) with RDone v t => Some (v, w_out (v_data t)) | _ => None end.
Definition lines : rstring := str "$ abc " ++ 10%N :: str "de " ++ [10%N].
Lemma lib_says : says [lib] = Some (VInt 5, lines) /\ says [lib; more] = Some (VInt 5, lines) /\ says [lib; instead] = Some (VInt 5, str "$ !!").
Proof. vm_compute. auto. Qed.
(** A program without builtins. *)
Definition calm_text : rstring := str "let t = 0;let add = fn(x) { t = t + x };for i in 0:5 { add(i) };t".
Definition calm_ast : list nodeS := match parse_code talk_oracle 100 calm_text 0 with PMatch a _ => a | _ => [] end.
Lemma calm_ok : compile Release calm_ast = COk (script_of calm_ast) /\ weights calm_ast <= N.to_nat 65535 /\ complete_program calm_ast /\ names_fit (script_of calm_ast) [lib; more].
Proof.
  split; [vm_compute; reflexivity|]. split; [apply Nat.leb_le; vm_compute; reflexivity|]. split; [|apply Nat.leb_le; vm_compute; reflexivity].
  assert (H : exists i, parse_code talk_oracle 100 calm_text 0 = PMatch calm_ast i) by (eexists; vm_compute; reflexivity).
  destruct H as [i H]. exact (parse_code_complete _ _ _ _ _ _ H).
Qed.
Lemma calm_mentions x : ~ mentions calm_ast x.
Proof.
  intros M. assert (H : exists n sp, occurs calm_ast n sp /\ builtin_of n = Some x) by (destruct M as (sp & pl & [(a & O)|(a & v & b & O)]); eauto).
  destruct H as (n & sp & O & B). apply occurs_level in O as [k O].
  assert (E : level 8 calm_ast = []) by (vm_compute; reflexivity).
  assert (C : forallb (fun k => forallb (fun e : nodeS => match builtin_of (fst e) with None => true | Some x => false end) (level k calm_ast)) (seq 0 8) = true) by (vm_compute; reflexivity).
  destruct (Nat.lt_ge_cases k 8) as [L|L].
  - rewrite forallb_forall in C. specialize (C k ltac:(apply in_seq; lia)). rewrite forallb_forall in C. specialize (C _ O). cbn [fst] in C. rewrite B in C. discriminate.
  - replace k with (8 + (k - 8)) in O by lia. rewrite level_add, E, level_nil in O. destruct O.
Qed.
Lemma calm_runs : match run Release talk_host 500 (vm_new_with talk_world (script_of calm_ast) small [lib; more]) with RDone v t => Some (v, w_out (v_data t)) | _ => None end = Some (VInt 10, str "$ ").
Proof. vm_compute. reflexivity. Qed.
