(** From runs of the machine back to the direct evaluation. *)
From Verif Require Import Base RleVec Pool Vecc Float NumText Bytecode Chunk Value Ast Arith VmOps
                          Compiler Vm CodeSize SpecParse SpecReady SpecRel SpecVm SpecEval ProofEval ProofSim13.

Section Back.
Context {D : Type} (m : mode) (hst : host D).

Lemma loop_more k j (s : vm D) : (forall s', loop m hst k s <> ROut s') -> loop m hst (k + j) s = loop m hst k s.
Proof.
  revert s. induction k as [|k IH]; intros s H; [exfalso; eapply H; reflexivity|]. cbn in *.
  destruct (step m hst s); auto.
Qed.
Lemma run_same a b (s : vm D) : (forall s', run m hst a s <> ROut s') -> (forall s', run m hst b s <> ROut s') ->
  run m hst a s = run m hst b s.
Proof.
  unfold run. intros Ha Hb. destruct (Nat.le_ge_cases a b) as [H|H].
  - replace b with (a + (b - a)) by lia. symmetry. apply loop_more. auto.
  - replace a with (b + (a - b)) by lia. apply loop_more. auto.
Qed.

Context (ast : list nodeS) (sc : script) (b : rstring -> option (sbuiltin (D:=D))) (st : sst (D:=D)) (s : vm D).
Notation evalf := (fun fuel => eval m (h_oracle hst) (v_opts s) (h_enter hst) (h_leave hst) b fuel ast st).
Hypothesis (Hc : compile m ast = COk sc) (Hw : weights ast <= N.to_nat 65535) (Hp : placed_program ast)
  (Hn : ordinary_names ast) (Hs : starts sc b st s) (Hr : length (p_entries (v_gsyms s)) <= N.to_nat 65536).

(** What the machine has come to after [k] instructions, the evaluation with as much fuel
    has come to as well. *)
Theorem run_back k fuel : k <= fuel ->
  evalf fuel = Unspecified \/
  match run m hst k s with
  | RDone w s' => exists v st', evalf fuel = Got v st' /\ same_value v w /\ same_state st' s'
  | RErr e _ s' => (e = EStackOverflow \/ exists l, e = ERuntimeLimit l) \/
                   exists st', evalf fuel = Failed e st' /\ same_state st' s'
  | RPanic => False
  | ROut _ => True
  end.
Proof using Hc Hw Hp Hn Hs Hr.
  intros Hk. destruct (whole_program m hst ast sc b st s fuel Hc Hw Hp Hn Hs Hr) as [(k1 & e1 & sp1 & s1 & E1 & H1)|H].
  - right. destruct (run m hst k s) as [w s'|e sp s'| |s'] eqn:E; auto;
      assert (E2 : run m hst k1 s = run m hst k s) by (apply run_same; congruence); rewrite E, E1 in E2; try discriminate.
    injection E2 as <- <- <-. auto.
  - cbn beta in *.
    destruct (eval m (h_oracle hst) (v_opts s) (h_enter hst) (h_leave hst) b fuel ast st) as [v st'|v st'|e' st'| |] eqn:Ev;
      cbn [agrees] in H; auto; right.
    + destruct H as (k1 & w1 & s1 & E1 & K1 & K2). destruct (run m hst k s) as [w s'|e sp s'| |s'] eqn:E; auto;
        assert (E2 : run m hst k1 s = run m hst k s) by (apply run_same; congruence); rewrite E, E1 in E2; try discriminate.
      injection E2 as <- <-. eauto.
    + contradiction.
    + destruct H as (k1 & sp1 & s1 & E1 & K1). destruct (run m hst k s) as [w s'|e sp s'| |s'] eqn:E; auto;
        assert (E2 : run m hst k1 s = run m hst k s) by (apply run_same; congruence); rewrite E, E1 in E2; try discriminate.
      injection E2 as <- <- <-. eauto.
    + destruct (H k Hk) as [x ->]. auto.
Qed.

(** A program that never ends on one side does not on the other. *)
Theorem run_forever fuel : (forall k, exists s', run m hst k s = ROut s') -> evalf fuel = More \/ evalf fuel = Unspecified.
Proof using Hc Hw Hp Hn Hs Hr.
  intros H. destruct (whole_program m hst ast sc b st s fuel Hc Hw Hp Hn Hs Hr) as [(k1 & e1 & sp1 & s1 & E1 & H1)|K].
  - destruct (H k1) as [x Hx]. congruence.
  - cbn beta. destruct (eval m (h_oracle hst) (v_opts s) (h_enter hst) (h_leave hst) b fuel ast st) as [v st'|v st'|e' st'| |]; cbn [agrees] in K; auto.
    + destruct K as (k1 & w1 & s1 & E1 & _). destruct (H k1) as [x Hx]. congruence.
    + contradiction.
    + destruct K as (k1 & w1 & s1 & E1 & _). destruct (H k1) as [x Hx]. congruence.
Qed.
End Back.
