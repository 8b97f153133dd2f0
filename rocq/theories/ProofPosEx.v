(** Examples and counterexamples for C92 and C93. *)
From Verif Require Import Base RleVec Pool Vecc Float NumText Bytecode Chunk Value Ast Arith VmOps Parse
  Compiler Vm Items CodeSize Includes SpecParse SpecReady SpecPos ProofArithEx ProofIncludes Cli ExProg.

(** ** What stands at a position *)
Fixpoint level (d : nat) (l : list nodeS) : list nodeS :=
  match d with O => l | S d => level d (flat_map (fun c => children (fst c)) l) end.
Lemma level_step d : forall l n sp c csp, In (n, sp) (level d l) -> In (c, csp) (children n) -> In (c, csp) (level (S d) l).
Proof.
  induction d as [|d IH]; intros l n sp c csp H Hc.
  - cbn [level]. apply in_flat_map. exists (n, sp). auto.
  - cbn [level] in H. exact (IH _ _ _ _ _ H Hc).
Qed.
Lemma occurs_level l n sp : occurs l n sp -> exists d, In (n, sp) (level d l).
Proof.
  induction 1 as [n sp H|p psp n sp _ [d IH] H]; [now exists 0|]. exists (S d). eapply level_step; eauto.
Qed.
Lemma level_nil d : level d [] = []. Proof. induction d; cbn; auto. Qed.
Lemma level_add a : forall b l, level (a + b) l = level b (level a l). Proof. induction a; intros; cbn; auto. Qed.
Definition nodes (d : nat) (l : list nodeS) : list nodeS := flat_map (fun k => level k l) (seq 0 d).
Lemma occurs_nodes d l n sp : level d l = [] -> occurs l n sp -> In (n, sp) (nodes d l).
Proof.
  intros H Ho. apply occurs_level in Ho as [k Hk]. apply in_flat_map. exists k. split; [|exact Hk].
  apply in_seq. split; [lia|]. destruct (Nat.lt_ge_cases k d) as [|Hd]; [lia|].
  replace k with (d + (k - d)) in Hk by lia. rewrite level_add, H, level_nil in Hk. destruct Hk.
Qed.
Definition no_call_at (sp : span) (x : nodeS) : bool :=
  match fst x with NCall _ _ => negb (span_eqb sp (snd x)) | _ => true end.
Lemma no_call d l sp : level d l = [] -> forallb (no_call_at sp) (nodes d l) = true ->
  ~ exists f a, occurs l (NCall f a) sp.
Proof.
  intros H Hf (f & a & Ho). apply (occurs_nodes d) in Ho; [|exact H]. rewrite forallb_forall in Hf. specialize (Hf _ Ho). cbn in Hf.
  unfold span_eqb in Hf. rewrite !Nat.eqb_refl in Hf. discriminate.
Qed.

(** ** A function fails three calls deep *)
Definition ast_of (t : rstring) : list nodeS := match parse_code no_oracle 100 t 0 with PMatch a _ => a | _ => [] end.
Definition vm_of (a : list nodeS) : vm unit := vm_new tt (script_of a) small.
Definition failure (a : list nodeS) : option (error * span * list trace_line) :=
  match run Release plain_host 500 (vm_of a) with RErr e sp s => Some (e, sp, trace_back s) | _ => None end.
Lemma failure_run a e sp tb : failure a = Some (e, sp, tb) ->
  exists s', run Release plain_host 500 (vm_of a) = RErr e sp s' /\ trace_back s' = tb.
Proof. unfold failure. destruct (run _ _ _ _); try discriminate. intros [= <- <- <-]. eauto. Qed.
Definition at_ (a b : nat) : span := mkSpan a b 0.

Definition fall : rstring := str
"fn half(x) { x / [2] }
fn outer(y) { 1 + half(y) }
fn top(z) { outer(z) }
[77, top(8)]".
Notation fall_ast := (ast_of fall).
Lemma fall_parses : exists i, parse_code no_oracle 100 fall 0 = PMatch fall_ast i.
Proof. eexists. vm_compute. reflexivity. Qed.
Lemma fall_weight : weights fall_ast <= N.to_nat 65535.
Proof. apply Nat.leb_le. vm_compute. reflexivity. Qed.
Lemma fall_compiles : compile Release fall_ast = COk (script_of fall_ast).
Proof. vm_compute. reflexivity. Qed.
Lemma fall_prepared : prepared (script_of fall_ast) (vm_of fall_ast).
Proof. constructor. Qed.
(** The division; the call in [outer]; the call in [top]; and the [77] that is next in the list. *)
Lemma fall_fails : failure fall_ast =
  Some (EUnsupportedBinary (str "/") (str "int") (str "list"), at_ 13 20,
        [TFrame (str "half") (at_ 13 20); TFrame (str "outer") (at_ 41 48); TFrame (str "top") (at_ 63 71);
         TFrame (str "@__main__") (at_ 75 77)]).
Proof. vm_compute. reflexivity. Qed.
Lemma fall_runs : exists s',
  run Release plain_host 500 (vm_of fall_ast) = RErr (EUnsupportedBinary (str "/") (str "int") (str "list")) (at_ 13 20) s' /\
  trace_back s' = [TFrame (str "half") (at_ 13 20); TFrame (str "outer") (at_ 41 48); TFrame (str "top") (at_ 63 71);
                   TFrame (str "@__main__") (at_ 75 77)].
Proof. exact (failure_run _ _ _ _ fall_fails). Qed.
Lemma fall_no_call : ~ exists f a, occurs fall_ast (NCall f a) (at_ 75 77).
Proof. apply (no_call 8); vm_compute; reflexivity. Qed.

(** ** A wrong number of arguments *)
Definition wrong : rstring := str "fn f(x) { x }
[77, f(1, 2)]".
Notation wrong_ast := (ast_of wrong).
Lemma wrong_parses : exists i, parse_code no_oracle 100 wrong 0 = PMatch wrong_ast i.
Proof. eexists. vm_compute. reflexivity. Qed.
Lemma wrong_weight : weights wrong_ast <= N.to_nat 65535.
Proof. apply Nat.leb_le. vm_compute. reflexivity. Qed.
Lemma wrong_compiles : compile Release wrong_ast = COk (script_of wrong_ast).
Proof. vm_compute. reflexivity. Qed.
Lemma wrong_prepared : prepared (script_of wrong_ast) (vm_of wrong_ast).
Proof. constructor. Qed.
Lemma wrong_fails : failure wrong_ast =
  Some (EMismatchedArity (str "f") 1 2, at_ 15 17, [TFrame (str "@__main__") (at_ 19 26)]).
Proof. vm_compute. reflexivity. Qed.
Lemma wrong_runs : exists s',
  run Release plain_host 500 (vm_of wrong_ast) = RErr (EMismatchedArity (str "f") 1 2) (at_ 15 17) s' /\
  trace_back s' = [TFrame (str "@__main__") (at_ 19 26)].
Proof. exact (failure_run _ _ _ _ wrong_fails). Qed.
Lemma wrong_no_call : ~ exists f a, occurs wrong_ast (NCall f a) (at_ 15 17).
Proof. apply (no_call 8); vm_compute; reflexivity. Qed.

(** ** An error in an included file *)
Definition two_files := files [(str "lib", str "fn half(x) { x / [2] }")].
Definition two_main : rstring := str "include " ++ quoted (str "lib") ++ str " 1 + half(8)".
Definition two_parsed := parse_with_includes two_files (parse_text no_oracle) 5 (str "main") two_main.
Notation two_ast := (match two_parsed with IOk a _ => a | _ => [] end).
Notation two_state := (match two_parsed with IOk _ i => i | _ => mkIState [] [] end).
Lemma two_reads : two_parsed = IOk two_ast two_state.
Proof. vm_compute. reflexivity. Qed.
Lemma two_weight : weights two_ast <= N.to_nat 65535.
Proof. apply Nat.leb_le. vm_compute. reflexivity. Qed.
Lemma two_compiles : compile Release two_ast = COk (script_of two_ast).
Proof. vm_compute. reflexivity. Qed.
Lemma two_fails : failure two_ast =
  Some (EUnsupportedBinary (str "/") (str "int") (str "list"), mkSpan 13 20 1,
        [TFrame (str "half") (mkSpan 13 20 1); TFrame (str "@__main__") (mkSpan 14 25 0)]).
Proof. vm_compute. reflexivity. Qed.

(** ** An error of the compiler *)
Definition stray : rstring := str "let a = 1
return a".
Lemma stray_parses : exists i, parse_code no_oracle 100 stray 0 = PMatch (ast_of stray) i.
Proof. eexists. vm_compute. reflexivity. Qed.
Lemma stray_fails : compile Release (ast_of stray) = CErr EReturnOutsideFunction (at_ 10 18).
Proof. vm_compute. reflexivity. Qed.
