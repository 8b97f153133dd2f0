(** The functions of Console.v: they treat callables as opaque, and are honest, proper, and
    the same as in the direct evaluation. *)
From Verif Require Import Base Pool Vecc Float NumText Value Ast Arith VmOps Args Builtins Compiler Vm Std Console
  SpecArith SpecRel SpecReady SpecHeld SpecEval SpecStd SpecConsole ProofRel ProofReady ProofStd ProofStdRel ProofHeld2
  ProofStdUse.
Ltac Zify.zify_post_hook ::= Z.div_mod_to_equations.

Section Rel.
Context {A B : Type} (R : A -> B -> Prop).
Context (o : oracle) (fa : fn_info A) (fb : fn_info B)
        (ha : A -> res (list hitem)) (hb : B -> res (list hitem)).
Hypothesis HF : forall x y, R x y -> fi_type fa x = fi_type fb y.
Hypothesis HT : forall x y, R x y -> fi_text fa x = fi_text fb y.
Hypothesis HH : forall x y, R x y -> rr eq (ha x) (hb y).
Notation grel := (grel R).

Definition wrr (x : world * res (gvalue A)) (y : world * res (gvalue B)) : Prop :=
  fst x = fst y /\ rr grel (snd x) (snd y).
Fixpoint wrel (ps : list param) : @wsig A ps -> @wsig B ps -> Prop :=
  match ps with
  | [] => fun f g => forall w, wrr (f w) (g w)
  | Req k :: t => fun f g => forall x y, prel R k x y -> wrel t (f x) (g y)
  | Opt k :: t => fun f g => forall x y, orel (prel R k) x y -> wrel t (f x) (g y)
  end.

Lemma take_np {F} (fi : fn_info F) k args : take fi k args <> Panic.
Proof.
  unfold take, consume. destruct k; destruct args as [|v t]; cbn [rbind]; try discriminate;
    destruct v; cbn; try discriminate. destruct (seqb _ _); discriminate.
Qed.
Lemma take_opt_np {F} (fi : fn_info F) k args : take_opt fi k args <> Panic.
Proof.
  unfold take_opt. destruct args; [discriminate|]. pose proof (take_np fi k (g :: args)).
  destruct (take _ _ _); cbn; congruence.
Qed.
Lemma wcall_rel ps : forall f g args args' w, wrel ps f g -> Forall2 grel args args' ->
  wrr (wcall fa ps f args w) (wcall fb ps g args' w).
Proof using HF.
  induction ps as [|[k|k] ps IH]; intros f g args args' w Hf H; cbn [wcall].
  - destruct H as [|v v' l l' Hv Hl]; cbn; [apply Hf|].
    split; [reflexivity|]. cbn. now rewrite (grel_ntype R fa fb HF v v' Hv).
  - pose proof (take_rel R fa fb HF k args args' H) as T. pose proof (take_np fa k args) as P.
    destruct (take fa k args), (take fb k args'); cbn in T; try contradiction.
    + destruct T as [T1 T2]. apply IH; [apply Hf; exact T1|exact T2].
    + subst. split; reflexivity.
  - assert (T : rr (fun x y => orel (prel R k) (fst x) (fst y) /\ Forall2 grel (snd x) (snd y))
       (take_opt fa k args) (take_opt fb k args')).
    { unfold take_opt. destruct H as [|v v' l l' Hv Hl]; [cbn; auto|].
      eapply rr_bind; [apply (take_rel R fa fb HF); constructor; eauto|]. intros a b Hab. exact Hab. }
    pose proof (take_opt_np fa k args) as P.
    destruct (take_opt fa k args), (take_opt fb k args'); cbn in T; try contradiction.
    + destruct T as [T1 T2]. apply IH; [apply Hf; exact T1|exact T2].
    + subst. split; reflexivity.
Qed.

Lemma spaced_rel l l' : Forall2 grel l l' -> spaced o fa l = spaced o fb l'.
Proof using HT.
  unfold spaced. induction 1; cbn [flat_map]; [reflexivity|]. now rewrite (grel_display R o fa fb HT x y), IHForall2.
Qed.
Lemma items_rel v : forall w, grel v w -> rr eq (hash_items ha v) (hash_items hb w).
Proof using HH.
  induction v using gvalue_rect'; intros w Hw; inversion Hw; subst; cbn [hash_items]; try reflexivity.
  - rewrite (f2_length _ _ _ H4). clear Hw. eapply rr_bind.
    + instantiate (1 := eq). revert l' H4. induction H as [|x t Hx Ht IH]; intros l2 HA; inversion HA; subst; [reflexivity|].
      eapply rr_bind; [apply Hx; eassumption|]. intros a b <-. eapply rr_bind; [apply IH; assumption|]. intros a' b' <-. reflexivity.
    + intros a b <-. reflexivity.
  - eapply rr_bind; [apply IHv1; assumption|]. intros x y <-. eapply rr_bind; [apply IHv2; assumption|].
    intros x' y' <-. reflexivity.
  - now apply HH.
Qed.
Lemma nth_rel l l' i : Forall2 grel l l' ->
  rr grel (match nth_error l i with Some v => Ok v | None => Panic end)
          (match nth_error l' i with Some v => Ok v | None => Panic end).
Proof using.
  intros H. revert i. induction H; intros [|i]; cbn; auto.
Qed.

Definition wbrel (x : @wfun A) (y : @wfun B) : Prop :=
  fst x = fst y /\ forall args args' w, Forall2 grel args args' -> wrr (snd x args w) (snd y args' w).
Lemma wreg_rel name ps f g : wrel ps f g -> wbrel (wreg fa name ps f) (wreg fb name ps g).
Proof using HF. intros H. split; [reflexivity|]. intros. now apply wcall_rel. Qed.
Ltac fin := split; [reflexivity|]; cbn [snd]; unfold err_msg; first [reflexivity | exact Logic.I | apply rr_ok; constructor].
Lemma console_list_rel : Forall2 wbrel (console_list o fa ha) (console_list o fb hb).
Proof using HF HT HH.
  unfold console_list, io_list, time_list, random_list. cbn [app].
  repeat (apply Forall2_cons; [apply wreg_rel|]); [..|apply Forall2_nil]; cbn [wrel prel]; intros.
  - unfold b_println. rewrite (spaced_rel _ _ H). fin.
  - unfold b_print. rewrite (spaced_rel _ _ H). fin.
  - unfold b_debug. rewrite (spaced_rel _ _ H). fin.
  - subst. unfold b_input. cbv zeta. destruct (w_in _) as [|[l|] t]; fin.
  - subst. unfold b_readfile. destruct (w_file w y); fin.
  - unfold b_now, read_clock. destruct (w_clock _ _) as [[s n]|]; fin.
  - unfold b_date, read_clock. destruct (w_clock _ _) as [[s n]|]; fin.
  - unfold b_random, draw_float. fin.
  - unfold b_randbool, draw_below. fin.
  - subst. unfold b_randint, draw_below. destruct (_ <=? _)%Z; fin.
  - subst. unfold b_randfloat, draw_float. destruct (fleb _ _); [fin|]. destruct (_ && _); fin.
  - unfold b_randchoice, draw_below. pose proof (f2_length _ _ _ H) as L. destruct H as [|v v' l l' Hv Hl]; [fin|].
    rewrite L. split; [reflexivity|]. cbn [snd]. apply nth_rel. constructor; auto.
  - unfold b_random_color, draw_below. fin.
  - unfold b_random_pastel_color, draw_below. fin.
  - unfold b_random_rainbow_color, draw_below. split; [reflexivity|]. cbn [snd]. apply nth_rel.
    unfold rainbow. repeat constructor.
  - unfold b_hash. split; [reflexivity|]. cbn [snd]. pose proof (items_rel _ _ H) as HI.
    rewrite (grel_ntype R fa fb HF x y H).
    destruct H; try reflexivity; try (apply rr_ok; constructor).
    eapply rr_bind; [exact HI|]. intros i j <-. apply rr_ok. constructor.
Qed.
Lemma console_rel name args args' w : Forall2 grel args args' ->
  wrr (console_call o fa ha name args w) (console_call o fb hb name args' w).
Proof using HF HT HH.
  intros H. unfold console_call.
  induction console_list_rel as [|[n f] [n' g] l l' [Hn Hf] Hl IH]; [split; reflexivity|].
  cbn [fst snd] in *. subst n'. cbn [alookup]. destruct (seqb name n); auto.
Qed.
End Rel.

Section Use.
Context (m : mode) (orc : oracle) (feq : mfn -> mfn -> res bool) (fhash : mfn -> res (list hitem)).

Lemma console_vok name args w w' v (good : mfn -> Prop) : Forall (vok good) args ->
  console_call orc mfi fhash name args w = (w', Ok v) -> vok good v.
Proof.
  intros Ha E.
  assert (K : wrr (R good) (console_call orc mfi fhash name args w) (console_call orc mfi fhash name args w)).
  { apply console_rel.
    - now intros x y [<- _].
    - now intros x y [<- _].
    - intros x y [<- _]. destruct (fhash x); reflexivity || exact Logic.I.
    - now apply vok_list. }
  destruct K as [_ K]. eapply rr_vok; [exact K|]. now rewrite E.
Qed.
Lemma console_honest : Forall (fun nb => honest_builtin (snd nb)) (console orc fhash).
Proof.
  apply Forall_forall. intros nb H. apply in_map_iff in H as ([n f] & <- & _). cbn [snd fst].
  intros d args o d' v g E Hg.
  refine (console_vok _ _ _ _ _ (fun g => exists a, In a args /\ fn_in g a) _ E g Hg).
  apply Forall_forall. intros a Ha g' Hg'. eauto.
Qed.
Lemma console_same : Forall2 (fun x y => fst x = fst y /\ same_builtin (Some (snd x)) (Some (snd y)))
  (console_direct orc) (console orc fhash).
Proof.
  unfold console_direct, console.
  assert (H : map fst (console_list orc sfi (fun _ => Panic)) = map fst (console_list orc mfi fhash)) by reflexivity.
  revert H. generalize (console_list orc sfi (fun _ => Panic)) as l. generalize (console_list orc mfi fhash) as l'.
  induction l' as [|[n' g] l' IH]; intros [|[n f] l]; cbn [map fst]; try discriminate; [constructor|].
  intros H. injection H as -> H. constructor; [|now apply IH]. split; [reflexivity|].
  cbn. intros R d vs ws opts HR Hv. apply console_rel; auto.
  - intros x y Hxy. now apply HR.
  - intros x y Hxy. now apply HR.
  - intros x y _. exact Logic.I.
Qed.
Lemma stdio_honest : Forall (fun nb => honest_builtin (snd nb)) (stdio m orc feq fhash).
Proof. apply Forall_app. split; [apply std_honest|apply console_honest]. Qed.
Lemma stdio_same : Forall2 (fun x y => fst x = fst y /\ same_builtin (Some (snd x)) (Some (snd y)))
  (std_direct m orc ++ console_direct orc) (stdio m orc feq fhash).
Proof. apply Forall2_app; [apply std_same|apply console_same]. Qed.
End Use.
