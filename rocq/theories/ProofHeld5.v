(** Every value of a session of lines is within its type (C68). *)
From Verif Require Import Base RleVec Pool Vecc Float NumText Bytecode Chunk Value Ast Arith VmOps
                          Compiler Vm Repl SpecHeld SpecHeldRepl ProofHeld2 ProofHeld3.

Section Repl.
Context {D : Type} (m : mode) (hst : host D) (fuel : nat).
Notation proper_repl := (proper_repl m hst fuel).
Notation run_in := (run_in (D := D) m).
Notation libs := (Forall (Forall (fun nb : rstring * builtin D => proper_builtin (snd nb)))).

Record rinv (r : repl D) : Prop := {
  ri_vm : proper_session m hst (rp_vm r);
  ri_comp : c_ok (rp_compiler r);
  ri_libs : libs (rp_builtins r) }.
Lemma all_session bs : libs bs -> forall s, proper_session m hst s ->
  proper_session m hst (fold_left (fun s l => add_builtins_list l s) bs s).
Proof using. induction 1 as [|l bs Hl Hb IH]; intros s Hs; cbn [fold_left]; [exact Hs|]. apply IH. now constructor. Qed.
Lemma loop_session k : forall s0 s, reach m hst s0 s -> (forall s', reach m hst s0 s' -> forall v, holds s' v -> in_memory v) ->
  proper_session m hst s -> match loop m hst k s with
  | RDone v s' => proper_session m hst s' /\ proper v | RErr _ _ s' | ROut s' => proper_session m hst s' | RPanic => True end.
Proof using.
  induction k as [|k IH]; intros s0 s R H Hs; cbn [loop]; [exact Hs|].
  destruct (step m hst s) as [s'|v s'|e sp s'|] eqn:E; auto.
  - apply (IH s0 s'); [econstructor; eauto|exact H|]. exact (ps_step m hst s s' Hs (H s R) E).
  - split; [exact (ps_done m hst s v s' Hs (H s R) E)|]. exact (result_proper m hst s v s' Hs (H s R) E).
  - exact (ps_error m hst s e sp s' Hs (H s R) E).
Qed.
Lemma execute_inv r line : rinv r -> line_fits line ->
  (forall s s', run_in r line s -> reach m hst s s' -> forall v, holds s' v -> in_memory v) ->
  rinv (snd (execute m hst fuel r line)) /\
  match fst (execute m hst fuel r line) with ORun (RDone v _) => proper v | _ => True end.
Proof using.
  intros [A B C] Hl Hm. unfold execute. destruct line as [ast|]; [|now split; [constructor|]].
  pose proof (stmnts_ok m ast Hl (rp_compiler r) B) as K. destruct (compile_stmnts m ast (rp_compiler r)) as [[u|e sp|] c] eqn:E; cbn [fst snd] in K.
  - set (s := fold_left _ _ _) in *.
    assert (Hs : proper_session m hst s). { apply all_session; [exact C|]. apply ps_update; [exact A|]. apply script_ok, K. }
    assert (R : run_in r (Some ast) (set_count 0 0 s)) by (exists ast, u, c; auto).
    pose proof (loop_session fuel _ _ (reach_refl m hst _) (fun s' => Hm _ s' R) (ps_start m hst s Hs)) as L.
    unfold run. destruct (loop m hst fuel (set_count 0 0 s)) as [v s'|e sp s'|s'|]; cbn [fst snd after].
    all: split; [constructor; cbn; [tauto|apply reset_ok, K|exact C]|tauto].
  - split; [|exact Logic.I]. constructor; cbn; [exact A|apply K|exact C].
  - split; [|exact Logic.I]. constructor; cbn; [exact A|apply K|exact C].
Qed.
Lemma repl_inv r : proper_repl r -> rinv r.
Proof using.
  induction 1 as [d o bs Hb|r line out r' Hr IH Hl Hm E].
  - constructor; cbn; [|apply new_ok|exact Hb]. apply ps_new, script_ok, new_ok.
  - pose proof (execute_inv r line IH Hl Hm) as [K _]. rewrite E in K. exact K.
Qed.
Theorem repl_session r : proper_repl r -> proper_session m hst (rp_vm r).
Proof using. intros H. apply repl_inv in H. apply H. Qed.
Theorem repl_result r line v s r' : proper_repl r -> line_fits line ->
  (forall s s', run_in r line s -> reach m hst s s' -> forall v, holds s' v -> in_memory v) ->
  execute m hst fuel r line = (ORun (RDone v s), r') -> proper v.
Proof using. intros H Hl Hm E. destruct (execute_inv r line (repl_inv r H) Hl Hm) as [_ K]. rewrite E in K. exact K. Qed.
End Repl.
