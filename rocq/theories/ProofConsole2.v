(** The functions of Console.v give values the interpreter can hold. *)
From Verif Require Import Base Pool Vecc Float NumText Value Ast Arith VmOps Args Builtins Compiler Vm Std Console
  SpecArith SpecRel SpecReady SpecHeld SpecEval SpecBuiltins ProofBuiltins ProofRel ProofReady ProofStd ProofHeld2
  ProofStdUse ProofConsole ProofBuiltins4.
Ltac Zify.zify_post_hook ::= Z.div_mod_to_equations.

Section Sound.
Context {Fn : Type} (o : oracle) (fi : fn_info Fn) (fhash : Fn -> res (list hitem)).
Notation val := (gvalue Fn).

Fixpoint wsound (ps : list param) : @wsig Fn ps -> Prop :=
  match ps return wsig ps -> Prop with
  | [] => fun f => forall w, res_ok (snd (f w))
  | Req k :: t => fun f => forall x, arg_ok k x -> wsound t (f x)
  | Opt k :: t => fun f => wsound t (f None) /\ forall x, arg_ok k x -> wsound t (f (Some x))
  end.
Lemma wsound_call : forall ps (f : wsig ps) args w, wsound ps f -> Forall value_wf args -> Forall small args ->
  res_ok (snd (wcall fi ps f args w)).
Proof.
  induction ps as [|[k|k] ps IH]; intros f args w Hf Ha Hs; cbn [wcall wsound] in *.
  - destruct (stop fi args); [apply Hf|exact Logic.I|exact Logic.I].
  - destruct (take fi k args) as [[x rest]| |] eqn:E; [|exact Logic.I|exact Logic.I].
    apply take_iff in E. destruct (arg_is_ok (fun _ _ => Panic) _ _ _ _ Ha Hs E) as (H1 & H2 & H3). cbn [fst snd]. apply IH; auto.
  - destruct Hf as [Hn Hf]. destruct args as [|v args].
    + cbn [take_opt fst snd]. apply IH; auto.
    + rewrite take_opt_cons by discriminate. destruct (take fi k (v :: args)) as [[x rest]| |] eqn:E; [|exact Logic.I|exact Logic.I].
      apply take_iff in E. destruct (arg_is_ok (fun _ _ => Panic) _ _ _ _ Ha Hs E) as (H1 & H2 & H3). cbn [rbind fst snd]. apply IH; auto.
Qed.
Lemma byte_at_lt k d : (byte_at k d < 256)%N.
Proof. unfold byte_at. apply N.mod_lt. discriminate. Qed.
Definition wgives (p : @wfun Fn) : Prop :=
  forall args w, Forall value_wf args -> Forall small args -> res_ok (snd (snd p args w)).
Lemma wgives_reg name ps (f : wsig ps) : wsound ps f -> wgives (wreg fi name ps f).
Proof. intros H args w. apply wsound_call; auto. Qed.
Ltac col := constructor; (apply byte_at_lt || apply u8_lt || reflexivity).
Lemma console_sound : Forall wgives (console_list o fi fhash).
Proof.
  unfold console_list, io_list, time_list, random_list. cbn [app].
  repeat (apply Forall_cons; [apply wgives_reg; cbn [wsound pty arg_ok]|]); [..|apply Forall_nil]; intros.
  - constructor.
  - constructor.
  - constructor.
  - unfold b_input. cbv zeta. destruct (w_in _) as [|[l|] t]; cbn; try exact Logic.I; constructor.
  - unfold b_readfile. cbn [snd]. destruct (w_file w x); cbn; try exact Logic.I; constructor.
  - unfold b_now, read_clock. destruct (w_clock _ _) as [[s n]|]; cbn [snd res_ok err_msg]; try exact Logic.I; constructor.
  - unfold b_date, read_clock. destruct (w_clock _ _) as [[s n]|]; cbn [snd res_ok err_msg]; try exact Logic.I; constructor.
  - constructor.
  - constructor.
  - unfold b_randint, draw_below. destruct (_ <=? _)%Z eqn:E; cbn [snd res_ok err_msg]; [exact Logic.I|]. constructor.
    unfold fits64 in *. set (r := w_rand _ _). clearbody r. pose proof (N.mod_lt r (Z.to_N (x0 - x))). lia.
  - unfold b_randfloat, draw_float. destruct (fleb _ _); [exact Logic.I|]. destruct (_ && _); [constructor|exact Logic.I].
  - unfold b_randchoice, draw_below. destruct x; [exact Logic.I|]. cbn [snd].
    destruct (nth_error _ _) eqn:E; [|exact Logic.I]. cbn. apply nth_error_In in E. rewrite Forall_forall in H. now apply H.
  - unfold b_random_color, draw_below. cbn [snd res_ok]. col.
  - unfold b_random_pastel_color, draw_below. cbn [snd res_ok]. unfold pastel. col.
  - unfold b_random_rainbow_color, draw_below. cbn [snd]. destruct (nth_error _ _) eqn:E; [|exact Logic.I].
    cbn. apply nth_error_In in E. pose proof (rainbow_wf (Fn := Fn)) as W. rewrite Forall_forall in W. now apply W.
  - unfold b_hash. cbn [snd]. assert (K : forall r : res (list hitem), res_ok (let! items := r in
       Ok (VInt (Z.of_N (w_hash w items mod 2 ^ 31)) : val))).
    { intros [l| |]; cbn [rbind]; try exact Logic.I. cbn [res_ok]. constructor. unfold fits64.
      pose proof (N.mod_lt (w_hash w l) (2 ^ 31)). set (r := w_hash w l) in *. clearbody r.
      change (2 ^ 31)%N with 2147483648%N in *. lia. }
    destruct x; try exact Logic.I; apply K.
Qed.
Lemma console_results name args w w' v : Forall value_wf args -> Forall small args ->
  console_call o fi fhash name args w = (w', Ok v) -> value_wf v.
Proof.
  intros Ha Hs. unfold console_call. destruct (alookup seqb name _) as [f|] eqn:E; [|discriminate].
  apply alookup_in in E. pose proof console_sound as H. rewrite Forall_forall in H. specialize (H _ E args w Ha Hs).
  cbn in H. intros Hr. rewrite Hr in H. exact H.
Qed.
End Sound.

Section Use.
Context (m : mode) (orc : oracle) (feq : mfn -> mfn -> res bool) (fhash : mfn -> res (list hitem)).
Lemma console_proper : Forall (fun nb => proper_builtin (snd nb)) (console orc fhash).
Proof.
  apply Forall_forall. intros nb H. apply in_map_iff in H as ([n f] & <- & _). cbn [snd fst].
  intros d args o d' v Ha Hm E. apply proper_list in Ha as [H1 H2]. apply proper_iff. split.
  - exact (console_results orc mfi fhash n args d d' v H1 Hm E).
  - exact (console_vok orc fhash n args d d' v calls_ok H2 E).
Qed.
Lemma stdio_proper : Forall (fun nb => proper_builtin (snd nb)) (stdio m orc feq fhash).
Proof. apply Forall_app. split; [apply std_proper|apply console_proper]. Qed.
End Use.
