(** The world after the command line program (C88), and its loop (C91). *)
From Verif Require Import Base RleVec Pool Float NumText Bytecode Chunk Value Ast Arith VmOps Args Parse Builtins
  Compiler Vm Std Console Includes Report Repl Cli ProofVm ProofConsole3 SpecConsole.

Section Kept.
Context (m : mode) (hst : host world) (orc : oracle) (pr : printer)
        (feq : mfn -> mfn -> res bool) (fhash : mfn -> res (list hitem)).
Hypothesis Henter : forall w, after w (h_enter hst w).
Hypothesis Hleave : forall w, after w (h_leave hst w).

Lemma after_said w t w' : after w w' -> after w (say t w').
Proof. intros ((u & E) & H2 & H3). split; [|split; [exact H2|exact H3]]. exists (u ++ t). cbn. rewrite E, app_assoc. reflexivity. Qed.
Lemma loop_base d k : forall s, out_I d s ->
  match loop m hst k s with RDone _ t | RErr _ _ t | ROut t => out_base d t | RPanic => True end.
Proof using Henter Hleave.
  induction k as [|k IH]; intros s H; [apply H|]. cbn [loop].
  pose proof (inv_step m hst _ _ (out_IJ d) (out_stable hst Henter Hleave d) _ H) as Hs.
  destruct (step m hst s) as [s'|v s'|e sp s'|]; [exact (IH _ Hs)| | |exact Logic.I].
  - destruct Hs as (_ & s1 & Hs & ->). apply Hs.
  - apply Hs.
Qed.
Lemma loop_after d k : forall s, out_I d s ->
  match loop m hst k s with RDone _ t | RErr _ _ t | ROut t => after d (v_data t) | RPanic => True end.
Proof using Henter Hleave.
  induction k as [|k IH]; intros s H; [apply H|]. cbn [loop].
  pose proof (inv_step m hst _ _ (out_IJ d) (out_stable hst Henter Hleave d) _ H) as Hs.
  destruct (step m hst s) as [s'|v s'|e sp s'|]; [exact (IH _ Hs)| | |exact Logic.I].
  - destruct Hs as (_ & s1 & Hs & ->). apply Hs.
  - apply Hs.
Qed.
Theorem cli_after k a name w st w' err : cli m hst orc pr feq fhash k a name w = Exited st w' err ->
  after w w' /\ (st = 0 \/ st = 1)%N /\ (st = 0%N -> err = []).
Proof using Henter Hleave.
  unfold cli. destruct (w_file w name) as [text|e]; [|intros [= <- <- <-]; split; [apply after_refl|split; [auto|discriminate]]].
  destruct (parse_with_includes _ _ k name text) as [ast is|e esp eis|]; [|intros [= <- <- <-]; split; [apply after_said, after_refl|split; [auto|discriminate]]|discriminate].
  destruct (compile m ast) as [sc|e sp|]; [|intros [= <- <- <-]; split; [apply after_said, after_refl|split; [auto|discriminate]]|discriminate].
  set (s := add_builtins_list _ _).
  assert (HO : out_I w s) by exact (out_start m w (h_oracle hst) feq fhash sc (a_limits a)). clearbody s.
  assert (HO' : out_I w (set_count 0 0 s)) by (revert HO; unfold out_I, out_base; cbn; auto).
  pose proof (loop_after w k _ HO') as HL. unfold run. destruct (loop m hst k (set_count 0 0 s)) as [v t|e sp t| |t]; [| |discriminate|discriminate].
  - destruct v; intros [= <- <- <-]; (split; [|auto]); try exact HL; destruct (a_result a); try exact HL; apply after_said, HL.
  - intros [= <- <- <-]. split; [apply after_said, HL|]. split; [auto|discriminate].
Qed.

(** ** A session *)
Notation builtins := (stdio m (h_oracle hst) feq fhash).
(** Everything of a session: its machine and its builtins. *)
Definition sane (d : world) (r : repl world) : Prop := out_base d (rp_vm r) /\ rp_builtins r = [builtins].
Definition kept (d : world) (r : interactive) : Prop := sane d (n_repl r).
Lemma kept_after d r : kept d r -> after d (n_world r).
Proof. intros H. apply H. Qed.
Lemma kept_new o w : kept w (interactive_new m hst feq fhash o w).
Proof.
  split; [|reflexivity]. unfold out_base. cbn.
  split; [apply repeat_length|split; [discriminate|split; [reflexivity|apply after_refl]]].
Qed.
Lemma kept_world d w r : kept d r -> after d w -> kept d (n_set_world w r).
Proof. intros ((H1 & H2 & H3 & _) & HB) Hw. split; [repeat split; auto; apply Hw|exact HB]. Qed.
Lemma kept_say d t r : kept d r -> kept d (n_say t r).
Proof. intros H. apply kept_world; [exact H|]. apply after_said, kept_after, H. Qed.
Lemma sane_execute d k r line : sane d r -> sane d (snd (execute m hst k r line)).
Proof using Henter Hleave.
  intros (H & HB). destruct line as [ast|]; [|split; [exact H|exact HB]]. cbn [execute].
  destruct (compile_stmnts m ast (rp_compiler r)) as [[u|e sp|] c]; [|split; [exact H|exact HB]|split; [exact H|exact HB]].
  rewrite HB. cbn [fold_left snd].
  set (s := add_builtins_list builtins (update_script (as_script c) (rp_vm r))).
  assert (HI : out_I d s).
  { unfold s. apply adds_list; [apply stdio_adds|]. destruct H as (H1 & H2 & H3 & H4). unfold out_I, out_base. cbn. repeat split; auto; try apply H4; lia. }
  clearbody s. split; [|reflexivity]. cbn [rp_vm].
  assert (HI' : out_I d (set_count 0 0 s)) by (revert HI; unfold out_I, out_base; cbn; auto).
  unfold run. pose proof (loop_base d k _ HI') as HL.
  destruct (loop m hst k (set_count 0 0 s)) as [v t|e sp t| |t]; cbn [Repl.after]; try exact HL. apply HI.
Qed.
Lemma kept_enter d k line r r' : kept d r -> enter_line m hst orc pr k line r = Some r' -> kept d r'.
Proof using Henter Hleave.
  intros H. unfold enter_line.
  destruct (parse_text orc line _) as [ast|]; [|intros [= <-]; apply kept_say; exact H].
  destruct (resolve_includes _ _ k ast _) as [ast' is|e esp eis|]; [|intros [= <-]; apply kept_say; exact H|discriminate].
  cbn [n_repl]. pose proof (sane_execute d k (n_repl r) (Some ast') H) as HS.
  destruct (execute m hst k (n_repl r) (Some ast')) as [o p]. cbn [snd] in HS.
  destruct o as [|e sp| |[v s|e sp s| |s]]; try discriminate.
  - intros [= <-]. apply kept_say. exact HS.
  - destruct v; intros [= <-]; first [exact HS|apply kept_say; exact HS].
  - intros [= <-]. apply kept_say. exact HS.
Qed.
Lemma kept_round d k r r' : kept d r -> round m hst orc pr k r = Some r' -> kept d r'.
Proof using Henter Hleave.
  intros H. unfold round.
  assert (H1 : kept d (n_say (str ">>> ") r)) by (apply kept_say; exact H). revert H1. generalize (n_say (str ">>> ") r). clear r H.
  intros r H. destruct (w_in (n_world r)) as [|[l|] rest] eqn:E; [intros [= <-]; exact H| |discriminate].
  assert (H2 : kept d (n_set_world (put_in rest (n_world r)) r)).
  { apply kept_world; [exact H|]. destruct (kept_after _ _ H) as (A & (l0 & B) & C). split; [exact A|]. split; [|exact C].
    exists (l0 ++ [Some l]). cbn. rewrite B, E, <- app_assoc. reflexivity. }
  destruct (trim_both _ l) as [|ch t]; [intros [= <-]; exact H2|]. apply kept_enter. exact H2.
Qed.
Theorem rounds_kept o w k n r : rounds m hst orc pr k n (interactive_new m hst feq fhash o w) = Some r -> after w (n_world r).
Proof using Henter Hleave.
  intros H. apply kept_after. revert H. generalize (kept_new o w). generalize (interactive_new m hst feq fhash o w).
  induction n as [|n IH]; intros i Hi H; cbn [rounds] in H; [injection H as <-; exact Hi|].
  destruct (round m hst orc pr k i) as [i'|] eqn:E; [|discriminate]. exact (IH _ (kept_round _ _ _ _ Hi E) H).
Qed.
End Kept.

(** ** The loop *)
Section Loop.
Context (m : mode) (hst : host world) (orc : oracle) (pr : printer).
Notation rounds := (rounds m hst orc pr).
Lemma endless k n : forall r, w_in (n_world r) = [] -> exists r', rounds k n r = Some r' /\ w_in (n_world r') = [] /\
  w_out (n_world r') = w_out (n_world r) ++ concat (repeat (str ">>> ") n).
Proof.
  induction n as [|n IH]; intros r Hr.
  - exists r. split; [reflexivity|]. split; [exact Hr|]. cbn. rewrite app_nil_r. reflexivity.
  - cbn [Cli.rounds repeat concat]. unfold round.
    assert (E : w_in (n_world (n_say (str ">>> ") r)) = []) by exact Hr. rewrite E.
    destruct (IH _ E) as (r' & H1 & H2 & H3). exists r'. split; [exact H1|]. split; [exact H2|].
    rewrite H3. change (w_out (n_world (n_say (str ">>> ") r))) with (w_out (n_world r) ++ str ">>> "). rewrite <- app_assoc. reflexivity.
Qed.
End Loop.
