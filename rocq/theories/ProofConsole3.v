(** What the functions of Console.v do (C70-C74). *)
From Verif Require Import Base RleVec Pool Vecc Float NumText Value Ast Arith VmOps Args Builtins Compiler Vm Std Console
  SpecArith SpecBuiltins SpecText SpecReady SpecVm SpecEval SpecConsole ProofArith4 ProofBuiltins4 ProofText ProofVm
  ProofBuiltins3.
Ltac Zify.zify_post_hook ::= Z.div_mod_to_equations.

(** ** Output and input *)
Lemma after_refl w : after w w.
Proof. split; [exists []; now rewrite app_nil_r|]. split; [now exists []|reflexivity]. Qed.
Lemma after_trans a b c : after a b -> after b c -> after a c.
Proof.
  intros ((t & H1) & (l & H2) & H3) ((t' & H1') & (l' & H2') & H3').
  split; [exists (t ++ t'); rewrite H1', H1; now rewrite app_assoc|].
  split; [exists (l ++ l'); rewrite H2, H2'; now rewrite app_assoc|congruence].
Qed.
Lemma after_say t w : after w (say t w).
Proof. split; [now exists t|]. split; [now exists []|reflexivity]. Qed.
Lemma after_drawn w : after w (drawn w).
Proof. split; [exists []; cbn; now rewrite app_nil_r|]. split; [now exists []|reflexivity]. Qed.

Section After.
Context {Fn : Type} (o : oracle) (fi : fn_info Fn) (fhash : Fn -> res (list hitem)).
Fixpoint wafter (ps : list param) : @wsig Fn ps -> Prop :=
  match ps return wsig ps -> Prop with
  | [] => fun f => forall w, after w (fst (f w))
  | Req k :: t => fun f => forall x, wafter t (f x)
  | Opt k :: t => fun f => forall x, wafter t (f x)
  end.
Lemma wafter_call : forall ps (f : wsig ps) args w, wafter ps f -> after w (fst (wcall fi ps f args w)).
Proof.
  induction ps as [|[k|k] ps IH]; intros f args w Hf; cbn [wcall wafter] in *.
  - destruct (stop fi args); [apply Hf| |]; apply after_refl.
  - destruct (take fi k args) as [[x rest]| |]; [apply IH, Hf| |]; apply after_refl.
  - destruct (take_opt fi k args) as [[x rest]| |]; [apply IH, Hf| |]; apply after_refl.
Qed.
Lemma console_after name args w : after w (fst (console_call o fi fhash name args w)).
Proof.
  unfold console_call. destruct (alookup seqb name _) as [f|] eqn:E; [|apply after_refl].
  apply alookup_in in E.
  assert (K : Forall (fun p => forall args w, after w (fst (snd p args w))) (console_list o fi fhash)).
  2:{ rewrite Forall_forall in K. exact (K _ E args w). }
  clear. unfold console_list, io_list, time_list, random_list. cbn [app].
  repeat (apply Forall_cons; [intros args w; apply wafter_call; cbn [wafter]; clear args w|]); [..|apply Forall_nil]; intros.
  - apply after_say.
  - apply after_say.
  - apply after_say.
  - unfold b_input. cbv zeta. destruct (w_in _) as [|[l|] t] eqn:E; cbn [fst]; [apply after_say| |];
      (split; [exists x; reflexivity|split; [|reflexivity]]); cbn in E; rewrite E; [now exists [Some l]|now exists [None]].
  - apply after_refl.
  - unfold b_now, read_clock. cbn [fst]. split; [exists []; cbn; now rewrite app_nil_r|]. split; [now exists []|reflexivity].
  - unfold b_date, read_clock. cbn [fst]. split; [exists []; cbn; now rewrite app_nil_r|]. split; [now exists []|reflexivity].
  - apply after_drawn.
  - apply after_drawn.
  - unfold b_randint, draw_below. destruct (_ <=? _)%Z; [apply after_refl|apply after_drawn].
  - unfold b_randfloat, draw_float. destruct (fleb _ _); [apply after_refl|].
    destruct (_ && _); [apply after_drawn|apply after_refl].
  - unfold b_randchoice, draw_below. destruct x; [apply after_refl|apply after_drawn].
  - apply after_drawn.
  - apply after_drawn.
  - apply after_drawn.
  - apply after_refl.
Qed.
End After.

(** ** Runs *)
Section Runs.
Context (m : mode) (hst : host world).
Hypothesis Henter : forall w, after w (h_enter hst w).
Hypothesis Hleave : forall w, after w (h_leave hst w).
Context (d : world).

Definition adds (b : builtin world) : Prop :=
  match b with
  | BFn f => forall w args o, after w (fst (f w args o))
  | BContext _ _ => False
  end.
Definition out_base (s : vm world) : Prop :=
  length (v_stack s) = o_stack_size (v_opts s) /\
  (forall i b, alookup N.eqb i (v_builtins s) = Some b -> adds b) /\ v_exits s = [] /\ after d (v_data s).
Definition out_I s := out_base s /\ v_sp s <= o_stack_size (v_opts s).
Lemma out_IJ s : out_I s -> out_base s.
Proof using. unfold out_I; tauto. Qed.
Lemma out_stable : stable hst out_I out_base.
Proof using Henter Hleave.
  constructor; unfold out_I, out_base.
  - tauto.
  - tauto.
  - intros; cbn; intuition congruence.
  - intros; cbn; intuition congruence.
  - intros; cbn; intuition congruence.
  - intros; cbn; intuition congruence.
  - intros; cbn; intuition congruence.
  - intros; cbn; intuition congruence.
  - intros s x r ((H1 & H2 & H3 & H4) & H5) E. congruence.
  - intros s b fn args ((H1 & H2 & H3 & H4) & H5) E. cbn. pose proof (H2 _ _ E) as HH. cbn in HH.
    repeat split; auto; try (eapply after_trans; [exact H4|apply HH]).
  - intros s b e x args ((H1 & H2 & H3 & H4) & H5) E. destruct (H2 _ _ E).
  - intros s fn ups n ((H1 & H2 & H3 & H4) & H5) Hl.
    cbn [set_data set_frames v_stack v_opts v_frames v_frame v_sp v_builtins v_exits v_data].
    repeat split; auto; try (eapply after_trans; [exact H4|apply Henter]).
  - intros s sp ((H1 & H2 & H3 & H4) & H5). cbn. auto.
  - intros s fr rest st ((H1 & H2 & H3 & H4) & H5) E.
    cbn [set_data set_frames set_stack v_stack v_opts v_frames v_frame v_sp v_builtins v_exits v_data].
    repeat split; auto; try (eapply after_trans; [exact H4|apply Hleave]).
  - intros s fr rest st ((H1 & H2 & H3 & H4) & H5) E Hst.
    cbn [set_data set_frames set_stack v_stack v_opts v_frames v_frame v_sp v_builtins v_exits v_data].
    repeat split; auto; try lia; try (eapply after_trans; [exact H4|apply Hleave]).
Qed.

Lemma adds_list l : Forall (fun nb => adds (snd nb)) l -> forall s,
  out_I s -> out_I (add_builtins_list l s).
Proof using.
  induction 1 as [|[n b] l Hb Hl IH]; intros s Hs; cbn [add_builtins_list]; [exact Hs|].
  destruct (pool_add seqb (v_gsyms s) n) as [p i]. apply IH. unfold out_I, out_base in *. cbn.
  destruct Hs as ((H1 & H2 & H3 & H4) & H5). split; [split; [exact H1|split; [|split; [exact H3|exact H4]]]|exact H5].
  intros j c. cbn. destruct (_ =? _)%N; [intros [= <-]; exact Hb|apply H2].
Qed.
Context (orc : oracle) (feq : mfn -> mfn -> res bool) (fhash : mfn -> res (list hitem)).
Lemma stdio_adds : Forall (fun nb => adds (snd nb)) (stdio m orc feq fhash).
Proof using.
  apply Forall_app. split; apply Forall_forall; intros nb H; apply in_map_iff in H as ([n f] & <- & _); cbn [snd fst adds];
    intros w args o; [apply after_refl|apply console_after].
Qed.
Lemma out_start sc o : out_I (add_builtins_list (stdio m orc feq fhash) (vm_new d sc o)).
Proof using.
  clear Henter Hleave. apply adds_list; [apply stdio_adds|]. unfold out_I, out_base. cbn.
  split; [split; [apply repeat_length|split; [discriminate|split; [reflexivity|apply after_refl]]]|lia].
Qed.
Theorem output_kept sc o s : reach m hst (add_builtins_list (stdio m orc feq fhash) (vm_new d sc o)) s ->
  after d (v_data s) /\
  match step m hst s with
  | SNext s' | SDone _ s' | SErr _ _ s' => after d (v_data s')
  | SPanic => True
  end.
Proof using Henter Hleave.
  intros Hr. pose proof (inv_reach m hst _ _ out_IJ out_stable _ _ (out_start sc o) Hr) as H.
  pose proof (inv_step m hst _ _ out_IJ out_stable _ H) as Hs.
  split; [apply H|]. destruct (step m hst s); auto.
  - apply Hs.
  - destruct Hs as (_ & s1 & Hs & ->). apply Hs.
  - apply Hs.
Qed.
End Runs.
