(** The standard library registered with a machine: honest, proper, and the same as in the
    direct evaluation. *)
From Verif Require Import Base Pool Vecc Float NumText Value Ast Arith VmOps Args Builtins Compiler Vm Std
  SpecArith SpecRel SpecReady SpecHeld SpecEval SpecStd ProofRel ProofReady ProofStd ProofStdRel ProofHeld2.

Section Use.
Context {D : Type} (m : mode) (orc : oracle) (feq : mfn -> mfn -> res bool).

Lemma std_vok amax name args v (good : mfn -> Prop) : Forall (vok good) args ->
  std_call m orc mfi feq amax name args = Ok v -> vok good v.
Proof.
  intros Ha E. set (e := fun x y : mfn => if true then feq x y else Panic).
  assert (K : rr (grel (R good)) (std_call m orc mfi feq amax name args) (std_call m orc mfi feq amax name args)).
  { apply std_rel.
    - now intros x y [<- _].
    - now intros x y [<- _].
    - intros x y x' y' [<- _] [<- _]. destruct (feq x x'); reflexivity || exact Logic.I.
    - now apply vok_list. }
  eapply rr_vok; eauto.
Qed.
Lemma std_honest : Forall (fun nb => honest_builtin (D := D) (snd nb)) (std m orc feq).
Proof.
  apply Forall_forall. intros nb H. apply in_map_iff in H as ([n f] & <- & _). cbn [snd fst].
  intros d args o d' v g [= <- E] Hg.
  refine (std_vok _ _ _ _ (fun g => exists a, In a args /\ fn_in g a) _ E g Hg).
  apply Forall_forall. intros a Ha g' Hg'. eauto.
Qed.
Lemma std_proper : Forall (fun nb => proper_builtin (D := D) (snd nb)) (std m orc feq).
Proof.
  apply Forall_forall. intros nb H. apply in_map_iff in H as ([n f] & <- & _). cbn [snd fst].
  intros d args o d' v Ha Hm [= <- E]. apply proper_list in Ha as [H1 H2]. apply proper_iff. split.
  - exact (std_results m orc mfi feq _ n args v H1 Hm E).
  - exact (std_vok _ n args v calls_ok H2 E).
Qed.
Lemma std_same : Forall2 (fun x y => fst x = fst y /\ same_builtin (D := D) (Some (snd x)) (Some (snd y)))
  (std_direct m orc) (std m orc feq).
Proof.
  unfold std_direct, std.
  assert (H : map fst (std_list m orc sfi sfn_eq 0) = map fst (std_list m orc mfi feq 0)) by reflexivity.
  revert H. generalize (std_list m orc sfi sfn_eq 0) as l. generalize (std_list m orc mfi feq 0) as l'.
  induction l' as [|[n' g] l' IH]; intros [|[n f] l]; cbn [map fst]; try discriminate; [constructor|].
  intros H. injection H as -> H. constructor; [|now apply IH]. split; [reflexivity|].
  cbn. intros R d vs ws opts HR Hv. split; [reflexivity|]. cbn. apply std_rel; auto.
  - intros x y Hxy. now apply HR.
  - intros x y Hxy. now apply HR.
  - intros x y x' y' _ _. exact Logic.I.
Qed.
End Use.
