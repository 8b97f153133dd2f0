(** The direct evaluation itself: more fuel changes nothing once there is a result. *)
From Verif Require Import Base RleVec Pool Vecc Float NumText Value Ast Arith VmOps Compiler Vm SpecParse
                          SpecReady SpecRel SpecVm SpecEval ProofCompiler.

Section Mono.
Context {D : Type} (m : mode) (orc : oracle) (opts : options) (on_call on_return : D -> D)
        (builtins : rstring -> option (sbuiltin (D:=D))).
Notation out := (out (D:=D)).
Notation sst := (sst (D:=D)).

(** [b] says what [a] says, and may go on where [a] stopped. *)
Definition upto {A} (a b : out A) : Prop := a = More \/ a = b.
Lemma upto_refl {A} (a : out A) : upto a a.
Proof. right. auto. Qed.
Lemma upto_trans {A} (a b c : out A) : upto a b -> upto b c -> upto a c.
Proof. intros [->| ->]; [left; auto|auto]. Qed.
Lemma upto_more {A} (a : out A) : upto More a.
Proof. left. auto. Qed.
Lemma upto_seq {A B} (x x' : out A) (k k' : A -> sst -> out B) :
  upto x x' -> (forall a s, upto (k a s) (k' a s)) -> upto (seq x k) (seq x' k').
Proof. intros [->| ->] H; [left; auto|]. destruct x'; cbn; try (apply upto_refl); auto. Qed.

Lemma list_mono f f' l : Forall (fun e : nodeS => forall s, upto (f (fst e) s) (f' (fst e) s)) l ->
  forall s, upto (list_with (D:=D) f l s) (list_with f' l s).
Proof.
  induction 1; intros s; cbn [list_with]; [apply upto_refl|].
  apply upto_seq; auto. intros a s1. apply upto_seq; [apply IHForall|]. intros. apply upto_refl.
Qed.
Lemma list_back_mono f f' l : Forall (fun e : nodeS => forall s, upto (f (fst e) s) (f' (fst e) s)) l ->
  forall s, upto (list_back_with (D:=D) f l s) (list_back_with f' l s).
Proof.
  induction 1; intros s; cbn [list_back_with]; [apply upto_refl|].
  apply upto_seq; [apply IHForall|]. intros a s1. apply upto_seq; auto. intros. apply upto_refl.
Qed.
Lemma stmts_mono f f' l : Forall (fun e : nodeS => forall r s, upto (f (fst e) r s) (f' (fst e) r s)) l ->
  forall r s, upto (stmts_with (D:=D) f l r s) (stmts_with f' l r s).
Proof.
  induction 1 as [|e t H Ht IH]; intros r s; cbn [stmts_with]; [apply upto_refl|].
  apply upto_seq; auto. intros a s1. destruct t; [apply upto_refl|]. apply IH.
Qed.
Lemma block_mono f f' l : Forall (fun e : nodeS => forall r s, upto (f (fst e) r s) (f' (fst e) r s)) l ->
  forall r s, upto (block_with (D:=D) f l r s) (block_with f' l r s).
Proof. intros H r s. apply upto_seq; [apply stmts_mono; auto|]. intros. apply upto_refl. Qed.
Lemma else_mono f f' o :
  match o with Some l => Forall (fun e : nodeS => forall r s, upto (f (fst e) r s) (f' (fst e) r s)) l | None => True end ->
  forall r s, upto (else_with (D:=D) f o r s) (else_with f' o r s).
Proof. intros H r s. destruct o; [apply block_mono; auto|apply upto_refl]. Qed.
Lemma cases_mono f f' v d r cs :
  Forall (fun c => (forall r s, upto (f (fst (fst c)) r s) (f' (fst (fst c)) r s)) /\
            Forall (fun e : nodeS => forall r s, upto (f (fst e) r s) (f' (fst e) r s)) (snd c)) cs ->
  match d with Some l => Forall (fun e : nodeS => forall r s, upto (f (fst e) r s) (f' (fst e) r s)) l | None => True end ->
  forall s, upto (cases_with (D:=D) f v d r cs s) (cases_with f' v d r cs s).
Proof.
  intros H Hd. induction H as [|c t [H1 H2] Ht IH]; intros s; cbn [cases_with]; [apply else_mono; auto|].
  apply upto_seq; auto. intros a s1. apply upto_seq; [apply upto_refl|]. intros w s2. apply upto_seq; [apply upto_refl|].
  intros b s3. destruct b; [apply block_mono; auto|apply IH].
Qed.
Lemma while_mono cond cond' body body' : (forall s, upto (cond s) (cond' s)) -> (forall s, upto (body s) (body' s)) ->
  forall k k', k <= k' -> forall v s, upto (while_ (D:=D) k cond body v s) (while_ k' cond' body' v s).
Proof.
  intros Hc Hb. induction k as [|k IH]; intros k' Hk v s; [apply upto_more|]. destruct k' as [|k']; [lia|]. cbn [while_].
  apply upto_seq; auto. intros c s1. apply upto_seq; [apply upto_refl|]. intros b s2. destruct b; [|apply upto_refl].
  apply upto_seq; auto. intros. apply IH. lia.
Qed.
Lemma for_mono it body body' : (forall v s, upto (body v s) (body' v s)) ->
  forall k k', k <= k' -> forall i v s, upto (for_ (D:=D) m k it body i v s) (for_ m k' it body' i v s).
Proof.
  intros Hb. induction k as [|k IH]; intros k' Hk i v s; [apply upto_more|]. destruct k' as [|k']; [lia|]. cbn [for_].
  apply upto_seq; [apply upto_refl|]. intros x s1. destruct x; [|apply upto_refl].
  apply upto_seq; auto. intros. apply IH. lia.
Qed.

Section Nodes.
Context (call call' : sfn -> list sval -> sst -> out sval) (k k' : nat).
Hypothesis (Hcall : forall c vs s, upto (call c vs s) (call' c vs s)) (Hk : k <= k').
Notation ev := (SpecEval.ev m orc opts builtins call k).
Notation ev' := (SpecEval.ev m orc opts builtins call' k').

Ltac refls := intros; apply upto_refl.
Ltac exprs := first [apply upto_seq; [solve [auto]|intros; apply upto_refl] | idtac].

Lemma ev_mono n : forall g r s, upto (ev g n r s) (ev' g n r s).
Proof using Hcall Hk.
  assert (X : forall n : node, (forall g r s, upto (ev g n r s) (ev' g n r s)) -> forall r s,
    upto (seq (ev false n r s) (fun vr s => the_value (fst vr) s)) (seq (ev' false n r s) (fun vr s => the_value (fst vr) s))).
  { intros n0 H r s. apply upto_seq; auto. refls. }
  assert (XL : forall l : list nodeS, Forall (fun e => forall g r s, upto (ev g (fst e) r s) (ev' g (fst e) r s)) l -> forall r,
    Forall (fun e : nodeS => forall s, upto (seq (ev false (fst e) r s) (fun vr s => the_value (fst vr) s))
                                   (seq (ev' false (fst e) r s) (fun vr s => the_value (fst vr) s))) l).
  { intros l H r. eapply Forall_impl; [|exact H]. intros e He s. apply X. auto. }
  assert (XB : forall (l : list nodeS), Forall (fun e => forall g r s, upto (ev g (fst e) r s) (ev' g (fst e) r s)) l -> forall g,
    Forall (fun e : nodeS => forall r s, upto (ev g (fst e) r s) (ev' g (fst e) r s)) l).
  { intros l H g. eapply Forall_impl; [|exact H]. intros e He r s. apply He. }
  assert (XO : forall o : option (list nodeS), match o with Some l => Forall (fun e => forall g r s, upto (ev g (fst e) r s) (ev' g (fst e) r s)) l | None => True end ->
    match o with Some l => Forall (fun e : nodeS => forall r s, upto (ev false (fst e) r s) (ev' false (fst e) r s)) l | None => True end).
  { intros [l|] H; auto. }
  induction n using node_ind'; intros gg r s; cbn [SpecEval.ev];
    try (apply upto_refl);
    try (apply upto_seq; [|refls]).
  - apply upto_seq; [|refls]. apply list_back_mono. apply XL; auto.
  - apply upto_seq; [apply X; auto|]. intros. apply upto_seq; [apply X; auto|refls].
  - apply upto_seq; [apply X; auto|]. intros. apply upto_seq; [apply X; auto|refls].
  - apply X. auto.
  - destruct gg; [|apply upto_refl]. apply upto_seq; [apply X; auto|refls].
  - apply upto_seq; [apply X; auto|refls].
  - apply block_mono. auto.
  - apply upto_seq; [apply X; auto|]. intros. apply upto_seq; [refls|]. intros b s2. destruct b; [apply block_mono; auto|].
    apply else_mono. apply XO; auto.
  - apply upto_seq; [apply X; auto|]. intros. apply cases_mono; [|apply XO; auto].
    eapply Forall_impl; [|exact H0]. intros c [K1 K2]. split; [intros; apply K1|]. apply XB. exact K2.
  - apply upto_seq; [apply X; auto|]. intros. apply for_mono; auto. intros. apply upto_seq; [refls|]. intros. apply block_mono. auto.
  - apply upto_seq; [apply X; auto|]. intros. apply for_mono; auto. intros. apply upto_seq; [refls|]. intros. apply block_mono. auto.
  - apply while_mono; auto; intros; apply block_mono; auto.
  - apply upto_seq; [apply X; auto|]. intros. apply upto_seq; [apply X; auto|refls].
  - apply upto_seq; [apply X; auto|refls].
  - apply upto_seq; [apply X; auto|]. intros c s1. apply upto_seq; [apply list_mono; apply XL; auto|]. intros vs s2.
    destruct c; try apply upto_refl. destruct (_ =? _); [apply Hcall|apply upto_refl].
  - apply upto_seq; [apply list_mono; apply XL; auto|refls].
  - apply upto_seq; [apply list_mono; apply XL; auto|]. intros vs s1. destruct (builtins (fst x)) as [[f|f y]|]; try apply upto_refl.
    apply upto_seq; [refls|]. intros w s2. apply upto_seq; [refls|]. intros r' s3.
    destruct (block_mono (ev false) (ev' false) b (XB _ H0 false) r' s3) as [->| ->]; [apply upto_more|apply upto_refl].
  - apply upto_seq; [apply X; auto|]. intros. apply upto_seq; [apply X; auto|refls].
  - destruct b as [b|]; [|apply upto_refl]. destruct gg; [|apply upto_refl]. apply upto_seq; [apply stmts_mono; auto|refls].
  - destruct e as [e|]; [|apply upto_refl]. apply upto_seq; [apply X; auto|refls].
Qed.
End Nodes.

Lemma call_mono : forall k k', k <= k' -> forall c vs s,
  upto (call_at m orc opts on_call on_return builtins k c vs s) (call_at m orc opts on_call on_return builtins k' c vs s).
Proof.
  induction k as [|k IH]; intros k' Hk c vs s; [apply upto_more|]. destruct k' as [|k']; [lia|]. cbn [call_at].
  destruct (bind_all _ _ _) as [r s1].
  assert (H : upto (stmts_with (ev m orc opts builtins (call_at m orc opts on_call on_return builtins k) k false) (sf_body c) r s1)
                   (stmts_with (ev m orc opts builtins (call_at m orc opts on_call on_return builtins k') k' false) (sf_body c) r s1)).
  { apply stmts_mono. apply Forall_forall. intros e _ r0 s0. apply ev_mono; [|lia]. intros. apply IH. lia. }
  destruct H as [->| ->]; [apply upto_more|apply upto_refl].
Qed.
Lemma eval_mono k k' p s : k <= k' ->
  upto (eval m orc opts on_call on_return builtins k p s) (eval m orc opts on_call on_return builtins k' p s).
Proof.
  intros Hk. unfold eval.
  assert (H : upto (stmts_with (ev m orc opts builtins (call_at m orc opts on_call on_return builtins k) k true) p [] s)
                   (stmts_with (ev m orc opts builtins (call_at m orc opts on_call on_return builtins k') k' true) p [] s)).
  { apply stmts_mono. apply Forall_forall. intros e _ r0 s0. apply ev_mono; auto. intros. apply call_mono. auto. }
  destruct H as [->| ->]; [apply upto_more|apply upto_refl].
Qed.
Theorem eval_fuel k k' p s : k <= k' -> eval m orc opts on_call on_return builtins k p s <> More ->
  eval m orc opts on_call on_return builtins k' p s = eval m orc opts on_call on_return builtins k p s.
Proof. intros Hk H. destruct (eval_mono k k' p s Hk); congruence. Qed.
End Mono.
