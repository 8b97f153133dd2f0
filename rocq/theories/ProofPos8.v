(** Where the machine reports its errors (C92, C93). *)
From Verif Require Import Base RleVec Pool Vecc Float NumText Bytecode Chunk Value Ast Arith VmOps
                          Compiler Vm Items CodeSize SpecContainers ContainerHist ProofContainers ProofValue
                          SpecParse SpecReady SpecPos ProofCompiler ProofPos1 ProofPos3 ProofPos6 ProofPos7.
From Verif Require ProofCode ProofReady3.
Import ProofCode(pre, pre_refl, pre_trans, pre_app, pre_nth, pre_len, cpool_inv).
Ltac Zify.zify_post_hook ::= Z.div_mod_to_equations.

(** [R]: the errors reported at what runs next. *)
Class reported (R : error -> Prop) : Prop := { R_stack : R EStackOverflow; R_time : forall n, R (ERuntimeLimit n) }.
Section Errors.
Context {D : Type}.
Notation vm := (vm D).

Definition frs (s s' : vm) : Prop := v_frame s' = v_frame s /\ v_frames s' = v_frames s.
Lemma frs_refl s : frs s s. Proof using. split; reflexivity. Qed.
Lemma frs_trans a b c : frs a b -> frs b c -> frs a c. Proof using. intros [] []. split; congruence. Qed.
(** Only the stack, the blocks and the clock may differ. *)
Record calm (s s' : vm) : Prop := {
  ca_syms : v_gsyms s' = v_gsyms s; ca_builtins : v_builtins s' = v_builtins s; ca_globals : v_globals s' = v_globals s;
  ca_heap : v_heap s' = v_heap s; ca_opts : v_opts s' = v_opts s; ca_data : v_data s' = v_data s; ca_exits : v_exits s' = v_exits s }.
Lemma calm_refl s : calm s s. Proof using. constructor; reflexivity. Qed.
Lemma calm_trans a b c : calm a b -> calm b c -> calm a c. Proof using. intros [] []. constructor; congruence. Qed.

Definition span1 (s : vm) : span := chunk_get_span (cur_chunk s) (ip s - 1).
Definition spans0 (s : vm) (sp : span) : Prop :=
  sp = chunk_get_span (cur_chunk s) (ip s) \/ sp = fn_nspan (f_fn (v_frame s)).
Context {R : error -> Prop} {HR : reported R}.
Definition ew {A} (x : act D A) (s : vm) (K : A -> vm -> Prop) (Q : error -> Prop) : Prop :=
  match x s with
  | AOk a s' => K a s'
  | AErr e sp s' => frs s s' /\ ((Q e /\ sp = span1 s) \/ (R e /\ spans0 s sp))
  | APanic => True
  end.
Lemma ew_bind {A B} (x : act D A) (k : A -> act D B) s K (Q : error -> Prop) :
  ew x s (fun a s' => frs s s' /\ ew (k a) s' K Q) Q -> ew (abind x k) s K Q.
Proof using HR.
  unfold ew, abind. destruct (x s) as [a s1|e sp s1|]; auto. intros [Hf H]. destruct (k a s1) as [b s2|e sp s2|]; auto.
  destruct H as [H1 H2]. split; [eapply frs_trans; eauto|]. destruct Hf as [F1 F2].
  unfold span1, spans0, cur_chunk, ip in *. rewrite F1 in H2. exact H2.
Qed.
Lemma ew_imp {A} (x : act D A) s (K K' : A -> vm -> Prop) (Q : error -> Prop) : ew x s K Q -> (forall a s', K a s' -> K' a s') -> ew x s K' Q.
Proof using HR. unfold ew. destruct (x s); auto. Qed.
Lemma ew_ret {A} (a : A) s (K : A -> vm -> Prop) Q : K a s -> ew (aret a) s K Q. Proof using HR. auto. Qed.
Lemma ew_gets {A} (f : vm -> A) s (K : A -> vm -> Prop) Q : K (f s) s -> ew (agets f) s K Q. Proof using HR. auto. Qed.
Lemma ew_mod f s (K : unit -> vm -> Prop) Q : K tt (f s) -> ew (amod f) s K Q. Proof using HR. auto. Qed.
Lemma ew_panic {A} s (K : A -> vm -> Prop) Q : ew apanic s K Q. Proof using HR. exact I. Qed.
Lemma ew_e1 {A} e s (K : A -> vm -> Prop) (Q : error -> Prop) : Q e -> ew (error_1 e) s K Q.
Proof using HR. intros H. split; [apply frs_refl|]. left. split; [exact H|reflexivity]. Qed.
Lemma ew_e0 {A} e s (K : A -> vm -> Prop) (Q : error -> Prop) : R e -> ew (error_0 e) s K Q.
Proof using HR. intros H. split; [apply frs_refl|]. right. split; [exact H|left; reflexivity]. Qed.
Lemma ew_lift {A} (r : res A) s (K : A -> vm -> Prop) (Q : error -> Prop) :
  (forall e, r = Err e -> Q e) -> (forall a, r = Ok a -> K a s) -> ew (lift_1 r) s K Q.
Proof using HR. intros H1 H2. destruct r; cbn [lift_1]; [apply ew_ret; auto|apply ew_e1; auto|exact I]. Qed.

Definition same (s s' : vm) : Prop := frs s s' /\ calm s s'.
Definition yep {A} (s : vm) (a : A) (s' : vm) : Prop := same s s'.
Definition any {A} (a : A) (s' : vm) : Prop := True.
Lemma same_refl s : same s s. Proof using. split; [apply frs_refl|apply calm_refl]. Qed.
Lemma same_trans a b c : same a b -> same b c -> same a c.
Proof using. intros [] []. split; [eapply frs_trans|eapply calm_trans]; eauto. Qed.
Lemma same_stack s st k : same s (set_stack st k s). Proof using. repeat split. Qed.

Lemma ew_slot i s Q : ew (slot i) s (yep s) Q.
Proof using HR. unfold ew, slot. destruct (nth_error _ _); [apply same_refl|exact I]. Qed.
Lemma ew_set_slot i v s Q : ew (set_slot i v) s (yep s) Q.
Proof using HR. unfold ew, set_slot. destruct (_ <? _); [apply same_stack|exact I]. Qed.
Lemma ew_push v s Q : ew (push v) s (yep s) Q.
Proof using HR.
  unfold ew, push. destruct (_ <=? _).
  - split; [apply frs_refl|]. right. split; [exact R_stack|left; reflexivity].
  - destruct (_ <? _); [apply same_stack|exact I].
Qed.
Lemma ew_push_unchecked v s Q : ew (push_unchecked v) s (yep s) Q.
Proof using HR. unfold ew, push_unchecked. destruct (_ <? _); [apply same_stack|exact I]. Qed.
Lemma ew_pop s Q : ew pop s (yep s) Q.
Proof using HR. unfold ew, pop. destruct (v_sp s); [exact I|]. unfold slot. cbn. destruct (nth_error _ _); [apply same_stack|exact I]. Qed.
Lemma ew_pop_many n s Q : ew (pop_many n) s (yep s) Q.
Proof using HR. unfold ew, pop_many. destruct (_ <? _); [exact I|apply same_stack]. Qed.
Lemma ew_peekn n s Q : ew (peekn n) s (yep s) Q.
Proof using HR. unfold ew, peekn. destruct (_ <? _); [exact I|]. apply ew_slot. Qed.
Lemma ew_swap s Q : ew swap s (yep s) Q.
Proof using HR.
  unfold ew, swap. destruct (v_sp s) as [|[|k]]; try exact I. destruct (nth_error _ k); [|exact I]. destruct (nth_error _ (S k)); [apply same_stack|exact I].
Qed.
(** Going on behind a step that changes nothing but the stack. *)
Lemma ew_then {A B} (x : act D A) (k : A -> act D B) s0 s K Q : same s0 s -> ew x s (yep s) Q ->
  (forall a s', same s0 s' -> ew (k a) s' K Q) -> ew (abind x k) s K Q.
Proof using HR.
  intros H0 Hx Hk. apply ew_bind. eapply ew_imp; [exact Hx|]. intros a s' Hs. split; [apply Hs|]. apply Hk. eapply same_trans; eauto.
Qed.
Lemma ew_yep {A B} (x : act D A) (k : A -> act D B) s Q : ew x s (yep s) Q ->
  (forall a s', same s s' -> ew (k a) s' (yep s') Q) -> ew (abind x k) s (yep s) Q.
Proof using HR.
  intros Hx Hk. apply ew_bind. eapply ew_imp; [exact Hx|]. intros a s' Hs. split; [apply Hs|].
  eapply ew_imp; [apply Hk, Hs|]. intros b s2 H2. eapply same_trans; eauto.
Qed.
Lemma ew_pop_double s Q : ew pop_double s (yep s) Q.
Proof using HR. apply ew_yep; [apply ew_pop|intros]. apply ew_yep; [apply ew_pop|intros]. apply ew_ret, same_refl. Qed.
Lemma ew_pop_peek s Q : ew pop_peek s (yep s) Q.
Proof using HR. apply ew_yep; [apply ew_pop|intros]. apply ew_yep; [apply ew_peekn|intros]. apply ew_ret, same_refl. Qed.
Lemma ew_pop_swap_out s Q : ew pop_swap_out s (yep s) Q.
Proof using HR.
  apply ew_yep; [apply ew_pop|intros]. apply ew_yep; [apply ew_gets, same_refl|intros].
  apply ew_yep; [apply ew_set_slot|intros]. apply ew_ret, same_refl.
Qed.
Lemma ew_pop_items n : forall s Q, ew (pop_items n) s (yep s) Q.
Proof using HR.
  induction n as [|n IH]; intros s Q; cbn [pop_items]; [apply ew_ret, same_refl|].
  apply ew_yep; [apply ew_pop|intros]. apply ew_yep; [apply IH|intros]. apply ew_ret, same_refl.
Qed.
Lemma ew_push_items l : forall s Q, ew (push_items l) s (yep s) Q.
Proof using HR.
  induction l as [|v l IH]; intros s Q; cbn [push_items]; [apply ew_ret, same_refl|].
  apply ew_yep; [apply ew_push|intros]. apply IH.
Qed.
Lemma ew_take_args n s Q : n <= v_sp s -> ew (take_args n) s (yep s) Q.
Proof using HR.
  intros H. unfold ew, take_args. destruct (v_sp s <? n) eqn:E; [apply Nat.ltb_lt in E; lia|].
  destruct (length _ <? _); [exact I|apply same_stack].
Qed.
Lemma ew_any {A} (x : act D A) s (K : A -> vm -> Prop) Q : ew x s K Q -> ew x s any Q.
Proof using HR. intros H. eapply ew_imp; [exact H|]. intros; exact I. Qed.
Lemma ew_runtime hst s Q : ew (has_runtime_exceeded hst) s (yep s) Q.
Proof using HR.
  unfold ew, has_runtime_exceeded, abind, agets, amod. destruct (_ <? _)%N; cbn; [|repeat split].
  split; [split; reflexivity|]. right. split.
  - apply R_time.
  - unfold spans0. cbn. destruct (v_frames s); auto.
Qed.
Lemma ew_close l s (Q : error -> Prop) : ew (close_upvalues l) s (fun _ s' => frs s s') Q.
Proof using HR. unfold ew, close_upvalues. destruct (nth_error _ _); split; reflexivity. Qed.

(** ** What was on the stack *)
Definition went (n : nat) (s0 s : vm) : Prop := same s0 s /\ v_stack s = v_stack s0 /\ v_sp s + n = v_sp s0.
Lemma went_same n s0 s : went n s0 s -> same s0 s. Proof using. now intros (H & _). Qed.
Lemma went_pop {A} (k : value -> act D A) n s0 s K Q : went n s0 s ->
  (forall v s', went (S n) s0 s' -> top s0 n v -> ew (k v) s' K Q) -> ew (abind pop k) s K Q.
Proof using HR.
  intros (H1 & H2 & H3) Hk. apply ew_bind. unfold ew, pop. destruct (v_sp s) as [|j] eqn:E; [exact I|]. unfold slot. cbn.
  destruct (nth_error (v_stack s) j) as [v|] eqn:Ev; [|exact I]. split; [split; reflexivity|]. apply Hk.
  - split; [eapply same_trans; [exact H1|apply same_stack]|]. cbn. split; [exact H2|lia].
  - split; [lia|]. rewrite <- H2. replace (v_sp s0 - 1 - n) with j by lia. exact Ev.
Qed.
Lemma went_peek {A} (k : value -> act D A) d n s0 s K Q : went n s0 s ->
  (forall v, top s0 (n + d) v -> ew (k v) s K Q) -> ew (abind (peekn d) k) s K Q.
Proof using HR.
  intros (H1 & H2 & H3) Hk. apply ew_bind. unfold ew, peekn. destruct (v_sp s <? S d) eqn:E; [exact I|]. apply Nat.ltb_ge in E. unfold slot.
  destruct (nth_error (v_stack s) _) as [v|] eqn:Ev; [|exact I]. split; [split; reflexivity|]. apply Hk.
  split; [lia|]. rewrite <- H2. replace (v_sp s0 - 1 - (n + d)) with (v_sp s - d - 1) by lia. exact Ev.
Qed.
Lemma went_double {A} (k : value * value -> act D A) n s0 s K Q : went n s0 s ->
  (forall a b s', went (S (S n)) s0 s' -> top s0 (S n) a -> top s0 n b -> ew (k (a, b)) s' K Q) -> ew (abind pop_double k) s K Q.
Proof using HR.
  intros H Hk. unfold pop_double.
  assert (K' : ew (abind pop (fun b => abind pop (fun a => k (a, b)))) s K Q).
  { eapply went_pop; [exact H|]. intros b s1 W1 T1. eapply went_pop; [exact W1|]. intros a s2 W2 T2. eauto. }
  clear - K'. unfold ew, abind, aret in *. destruct (pop s) as [b s1|e sp s1|]; auto. destruct (pop s1) as [a s2|e sp s2|]; auto.
Qed.
Lemma went_swap_out {A} (k : value -> act D A) s0 s K Q : went 0 s0 s ->
  (forall v s', same s0 s' -> top s0 0 v -> ew (k v) s' K Q) -> ew (abind pop_swap_out k) s K Q.
Proof using HR.
  intros H Hk. unfold pop_swap_out.
  assert (K' : ew (abind pop (fun v => abind (agets v_sp) (fun j => abind (set_slot j VNone) (fun _ => k v)))) s K Q).
  { eapply went_pop; [exact H|]. intros v s1 W1 T1. apply ew_bind, ew_gets. split; [apply frs_refl|].
    eapply (ew_then _ _ s0); [apply W1|apply ew_set_slot|]. intros [] s' Hs. auto. }
  clear - K'. unfold ew, abind, aret, agets in *. destruct (pop s) as [b s1|e sp s1|]; auto. destruct (set_slot _ _ s1) as [a s2|e sp s2|]; auto.
Qed.
Lemma pop_items_top n : forall k s0 s Q, went k s0 s ->
  ew (pop_items n) s (fun l s' => went (k + n) s0 s' /\ length l = n /\ forall i v, nth_error l i = Some v -> top s0 (k + i) v) Q.
Proof using HR.
  induction n as [|n IH]; intros k s0 s Q H; cbn [pop_items].
  - apply ew_ret. rewrite Nat.add_0_r. split; [exact H|]. split; [reflexivity|]. intros [|i] v; discriminate.
  - eapply went_pop; [exact H|]. intros v s1 W1 T1. apply ew_bind. eapply ew_imp; [eapply IH, W1|]. intros l s2 (W2 & L2 & T2).
    split; [exact (frs_trans _ _ _ (match W1 with conj (conj (conj a b) _) _ => conj (eq_sym a) (eq_sym b) end) (proj1 (proj1 W2)))|]. apply ew_ret. replace (k + S n) with (S k + n) by lia.
    split; [exact W2|]. split; [cbn; lia|]. intros [|i] w; cbn [nth_error].
    + intros [= <-]. now rewrite Nat.add_0_r.
    + intros Hi. replace (k + S i) with (S k + i) by lia. auto.
Qed.
Lemma went_items {A} (f : list value -> act D A) n s0 s K Q : went 0 s0 s ->
  (forall l s', same s0 s' -> topmost s0 n l -> ew (f l) s' K Q) -> ew (abind (pop_items n) f) s K Q.
Proof using HR.
  intros H Hk. apply ew_bind. eapply ew_imp; [apply (pop_items_top n 0 s0 s Q H)|]. intros l s' (W & L & T). split.
  - destruct W as [[[a b] _] _], H as [[[c d] _] _]. split; congruence.
  - apply Hk; [apply W|]. split; [exact L|exact T].
Qed.
Lemma skipn_nth {B} (l : list B) n i : nth_error (skipn n l) i = nth_error l (n + i).
Proof using. revert l. induction n as [|n IH]; intros [|x l]; cbn; auto. now destruct i. Qed.
Lemma firstn_nth {B} (l : list B) n i : i < n -> nth_error (firstn n l) i = nth_error l i.
Proof using. revert l i. induction n as [|n IH]; intros [|x l] [|i] H; cbn; auto; try lia. apply IH. lia. Qed.
Lemma went_args {A} (f : list value -> act D A) n s0 s K Q : went 0 s0 s -> n <= v_sp s ->
  (forall l s', same s0 s' -> arguments s0 n l -> ew (f l) s' K Q) -> ew (abind (take_args n) f) s K Q.
Proof using HR.
  intros (H1 & H2 & H3) Hn Hk. apply ew_bind. unfold ew, take_args. destruct (v_sp s <? n) eqn:E; [apply Nat.ltb_lt in E; lia|].
  destruct (length (v_stack s) <? v_sp s) eqn:El; [exact I|]. apply Nat.ltb_ge in El. split; [split; reflexivity|].
  assert (Ln : length (firstn n (skipn (v_sp s - n) (v_stack s))) = n) by (rewrite firstn_length, skipn_length; lia).
  apply Hk; [eapply same_trans; [exact H1|apply same_stack]|]. split; [now rewrite rev_length|].
  intros k v Hv. assert (k < n) by (rewrite <- Ln, <- rev_length; apply nth_error_Some; congruence).
  split; [lia|]. rewrite <- (rev_involutive (firstn _ _)) in Ln.
  assert (Hr : nth_error (firstn n (skipn (v_sp s - n) (v_stack s))) (n - S k) = Some v).
  { rewrite rev_involutive in Ln. clear - Hv Ln H. set (l := firstn _ _) in *. clearbody l. rewrite <- Hv. revert n k Ln H Hv.
    induction l as [|x l IH]; intros n k Ln H Hv; [cbn in Ln; lia|]. cbn [rev length] in *. destruct n as [|n]; [lia|].
    destruct (Nat.eq_dec k n) as [->|Hk].
    - rewrite Nat.sub_diag. rewrite nth_error_app2 by (rewrite rev_length; lia). rewrite rev_length. replace (n - length l) with 0 by lia. reflexivity.
    - rewrite nth_error_app1 in * by (rewrite rev_length; lia). replace (S n - S k) with (S (n - S k)) by lia. cbn. apply IH; auto; lia. }
  rewrite firstn_nth, skipn_nth in Hr by lia. rewrite <- H2. replace (v_sp s0 - 1 - k) with (v_sp s - n + (n - S k)) by lia. exact Hr.
Qed.
End Errors.

Section Exec.
Context {D : Type}.
Notation vm := (vm D).
Context (m : mode) (hst : host D) (ast : list nodeS) (sc : script).
Notation at_ := (occurs ast).
Notation P := (position_of ast).
Notation G := (G sc).

Lemma global_named (s : vm) id x n s' : named G id x -> pre G (p_entries (v_gsyms s)) -> length G <= u16max ->
  global_name id s = AOk n s' -> n = x /\ s' = s.
Proof using.
  intros (i & Hi & ->) Hp Hl E. unfold global_name, agets in E. injection E as <- <-. split; [|reflexivity].
  assert (i < length G) by (apply nth_error_Some; congruence).
  unfold pool_get. rewrite pool_id_from_small, Nat2N.id by lia. rewrite (pre_nth _ _ _ _ Hp Hi). reflexivity.
Qed.
Lemma named_number (s : vm) id x : named G id x -> pre G (p_entries (v_gsyms s)) -> number_of s x id.
Proof using. intros (i & Hi & ->) Hp. exists i. split; [eapply pre_nth; eauto|reflexivity]. Qed.

Global Instance elsewhere_reported (s : vm) : reported (elsewhere ast s).
Proof using. constructor; [now apply el_stack|intros n; now apply (el_time _ _ _ n)]. Qed.
Lemma went_refl (s : vm) : went 0 s s. Proof using. split; [apply same_refl|]. split; [reflexivity|lia]. Qed.
Lemma top_eq (s s2 : vm) k v : v_stack s2 = v_stack s -> v_sp s2 = v_sp s -> top s2 k v -> top s k v.
Proof using. unfold top. now intros -> ->. Qed.
Lemma len8_nat {A} (l : list A) : N.to_nat (len8 l) = length l. Proof using. unfold len8. lia. Qed.

Lemma exec_err s s2 x i : calm s s2 -> v_stack s2 = v_stack s -> v_sp s2 = v_sp s -> pre G (p_entries (v_gsyms s)) -> length G <= u16max ->
  means at_ P G (ck_consts (cur_chunk s2)) x -> length (ck_consts (cur_chunk s2)) <= u16max ->
  pinstr (p_kind x) i -> (forall k, i <> ICreateClosure k) -> i <> IReturn -> operands i <= v_sp s2 ->
  (i = IBlockReturn -> v_blocks s2 <> []) ->
  ew (R := elsewhere ast s) (exec m hst i) s2 any (fun e => blamed m hst ast s e (p_last x)).
Proof using.
  intros Ca Hst Hsp Hpre HG Hm Hlc Hpi Hncl Hnr Ho Hbr.
  assert (S2 : same s2 s2) by apply same_refl. assert (W2 : went 0 s2 s2) by apply went_refl.
  assert (TE : forall k v, top s2 k v -> top s k v) by (intros k v; exact (top_eq s s2 k v Hst Hsp)).
  destruct Hm; cbn [p_kind p_last pinstr] in *; subst.
  - (* quiet *) destruct i0; try discriminate; cbn [exec].
    + congruence.
    + (* Pop *) apply (ew_then _ _ s2); [auto|apply ew_pop|intros]. apply ew_ret. exact I.
    + eapply ew_any, ew_pop_many.
    + (* SwapPop *) apply (ew_then _ _ s2); [auto|apply ew_swap|intros]. apply (ew_then _ _ s2); [auto|apply ew_pop|intros]. apply ew_ret. exact I.
    + (* LoadConst *) apply ew_bind. unfold ew, get_constant. destruct (chunk_get_constant _ _); try exact I. split; [apply frs_refl|]. eapply ew_any, ew_push.
    + (* LoadLocal *) apply ew_bind, ew_gets. split; [apply frs_refl|]. apply (ew_then _ _ s2); [auto|apply ew_slot|intros]. eapply ew_any, ew_push.
    + (* SetLocal *) apply (ew_then _ _ s2); [auto|apply ew_peekn|intros]. apply ew_bind, ew_gets. split; [apply frs_refl|]. eapply ew_any, ew_set_slot.
    + (* DefineGlobal *) apply (ew_then _ _ s2); [auto|apply ew_pop|intros]. exact I.
    + (* LoadUpvalue *) apply ew_bind, ew_gets. split; [apply frs_refl|]. destruct (nth_error _ _); [|exact I]. apply ew_bind.
      unfold ew, up_get. destruct (nth_error _ _) as [[l|v]|]; [|split; [apply frs_refl|eapply ew_any, ew_push]|exact I].
      unfold slot. destruct (nth_error _ _); [|exact I]. split; [apply frs_refl|eapply ew_any, ew_push].
    + (* SetUpvalue *) apply (ew_then _ _ s2); [auto|apply ew_peekn|intros]. apply ew_bind, ew_gets. split; [apply frs_refl|].
      destruct (nth_error _ _); [|exact I]. unfold ew, up_set. destruct (nth_error _ _) as [[l|v]|]; try exact I. unfold set_slot. destruct (_ <? _); exact I.
    + (* Defaulted *) apply (ew_then _ _ s2); [auto|apply ew_pop|intros]. exact I.
    + (* CloseUpvalue *) apply ew_bind, ew_gets. split; [apply frs_refl|]. destruct (v_sp s2); [exact I|]. apply ew_bind.
      eapply ew_imp; [apply ew_close|]. intros a s' Hf. split; [exact Hf|]. apply (ew_then _ _ s'); [apply same_refl|apply ew_pop|intros]. exact I.
    + (* CreatePair *) apply (ew_then _ _ s2); [auto|apply ew_pop_double|intros]. eapply ew_any, ew_push_unchecked.
    + (* BlockResult *) apply (ew_then _ _ s2); [auto|apply ew_pop_swap_out|intros]. exact I.
    + (* BlockReturn *) apply ew_bind, ew_gets. split; [apply frs_refl|]. destruct (v_blocks s2) as [|v rest] eqn:E; [exfalso; apply Hbr; auto|].
      apply ew_bind, ew_mod. split; [split; reflexivity|]. eapply ew_any, ew_push.
    + unfold ew. destruct (_ <? _); exact I.
    + eapply ew_any, ew_push.
    + eapply ew_any, ew_push.
  - (* the constructs *) inversion H; subst; cbn [exec].
    + (* binary *) eapply went_double; [exact W2|intros va vb s' W3 Ta Tb]. pose proof W3 as [[Hf Hs] _]. unfold ew.
      destruct (binary_fn _ _ _ _ _ _ o) as [f|] eqn:E; [|exact I].
      change (ew (R := elsewhere ast s) (abind (lift_1 (f va vb)) (fun r => push_unchecked r)) s' any (fun e => blamed m hst ast s e sp)).
      apply ew_bind, ew_lift; [|intros; split; [apply frs_refl|eapply ew_any, ew_push_unchecked]].
      intros e Ee. eapply bl_binary; [eassumption| |exact (TE _ _ Ta)|exact (TE _ _ Tb)|exact Ee]. unfold feq_at in *.
      rewrite (ca_heap _ _ Hs), (ca_heap _ _ Ca), (ca_opts _ _ Hs), (ca_opts _ _ Ca) in E. exact E.
    + (* unary *) eapply went_pop; [exact W2|intros v s' Hs Tv]. destruct (unary_fn m mfi o) as [f|] eqn:E; [|exact I].
      apply ew_bind, ew_lift; [|intros; split; [apply frs_refl|eapply ew_any, ew_push_unchecked]].
      intros e Ee. eapply bl_unary; eauto.
    + (* index *) eapply went_pop; [exact W2|intros v s' Hs Tv]. eapply went_pop; [exact Hs|intros w s3 Hs3 Tw].
      apply ew_bind, ew_lift; [|intros; split; [apply frs_refl|eapply ew_any, ew_push]]. intros e Ee. eapply bl_index; eauto.
    + (* range *) eapply went_double; [exact W2|intros va vb s' Hs Ta Tb]. cbn [fst snd].
      apply ew_bind, ew_lift; [|intros; split; [apply frs_refl|eapply ew_any, ew_push]]. intros e Ee. eapply bl_range; eauto.
    + (* array *) eapply went_items; [exact W2|intros items s' [Hf Hs] Ti]. apply ew_bind, ew_gets. split; [apply frs_refl|].
      apply ew_bind, ew_lift; [|intros; split; [apply frs_refl|eapply ew_any, ew_push]]. intros e Ee.
      rewrite (ca_opts _ _ Hs), (ca_opts _ _ Ca) in Ee. rewrite len8_nat in Ti. destruct Ti as [Li Ti]. eapply (bl_array _ _ _ _ _ _ l items); [eassumption|split; [exact Li|auto]|exact Ee].
    + (* call *) eapply went_peek; [exact W2|intros v Tv]. rewrite len8_nat in Tv. unfold ew. destruct (_ <=? _).
      * apply ew_e0. now apply el_stack.
      * assert (K : (forall c, v <> VFn c) -> ew (R := elsewhere ast s) (error_1 (ENotCallable (ntype mfi v)) : act D unit) s2 any (fun e => blamed m hst ast s e sp)).
        { intros Hv. apply ew_e1. eapply bl_call; eauto. }
        destruct v; try (apply K; discriminate). destruct (_ =? _)%N eqn:Ea; [exact I|]. apply N.eqb_neq in Ea. apply ew_e0. eapply el_arity; [eassumption|exact (TE _ _ Tv)|reflexivity|exact (not_eq_sym Ea)].
    + (* exit *) apply ew_bind, ew_gets. split; [apply frs_refl|]. destruct (v_exits s2) as [|xf rest] eqn:E; [exact I|].
      apply ew_bind, ew_mod. split; [split; reflexivity|]. unfold ew. cbn [v_data set_exits].
      destruct (xf (v_data s2)) as [d r] eqn:Ex. destruct r as [u|e|]; cbn; try exact I. split; [split; reflexivity|]. left. split; [|reflexivity].
      eapply bl_leave; [eassumption|rewrite <- (ca_exits _ _ Ca); exact E|]. rewrite <- (ca_data _ _ Ca), Ex. reflexivity.
    + (* unpack *) eapply went_swap_out; [exact W2|intros v0 s' Hs Tv].
      apply ew_bind, ew_lift; [|intros; split; [apply frs_refl|eapply ew_any, ew_push_items]]. intros e Ee. eapply bl_unpack; [eassumption|]. exists v0. auto.
    + (* unpack in with *) eapply went_swap_out; [exact W2|intros v0 s' Hs Tv].
      apply ew_bind, ew_lift; [|intros; split; [apply frs_refl|eapply ew_any, ew_push_items]]. intros e Ee. eapply bl_unpack_with; [eassumption|]. exists v0. auto.
  - (* jumps *) destruct Hpi as [v ->]. destruct H as [-> | ->]; cbn [jins exec].
    + exact I.
    + apply (ew_then _ _ s2); [auto|apply ew_pop_peek|intros vc s' Hs]. unfold ew. destruct (geqb _ _ _) as [[|]| |]; exact I.
  - (* branches *) destruct Hpi as [v ->].
    assert (KI : forall Q : error -> Prop, (forall e, fails_next m s e -> Q e) -> ew (R := elsewhere ast s) (exec m hst (IIterNext v)) s2 any Q).
    { intros Q HQ. cbn [exec]. apply ew_bind, ew_gets. split; [apply frs_refl|]. destruct (v_sp s2 <? 3) eqn:E3; [exact I|]. apply Nat.ltb_ge in E3.
      apply ew_bind. unfold ew, slot. destruct (nth_error (v_stack s2) (v_sp s2 - 3)) as [c|] eqn:Ec; [|exact I]. split; [apply frs_refl|].
      assert (Tc : top s 2 c) by (apply TE; split; [lia|]; replace (v_sp s2 - 1 - 2) with (v_sp s2 - 3) by lia; exact Ec).
      assert (KE : (forall k, c <> VLoopCtx k) -> ew (R := elsewhere ast s) (error_1 EFailedToIterate : act D unit) s2 any Q).
      { intros Hc. apply ew_e1, HQ. right. eauto. }
      destruct c; try (apply KE; discriminate). clear KE.
      apply ew_bind. unfold ew, set_slot. destruct (_ <? _); [|exact I]. split; [split; reflexivity|].
      apply ew_bind. unfold ew, slot. cbn [v_stack set_stack]. rewrite nth_error_upd_neq by lia.
      destruct (nth_error (v_stack s2) (v_sp s2 - 2)) as [it|] eqn:Ei; [|exact I]. split; [split; reflexivity|].
      assert (Ti : top s 1 it) by (apply TE; split; [lia|]; replace (v_sp s2 - 1 - 1) with (v_sp s2 - 2) by lia; exact Ei).
      apply ew_bind, ew_lift; [intros e Ee; apply HQ; left; eauto|]. intros [r|] _; (split; [apply frs_refl|]); [eapply ew_any, ew_push|exact I]. }
    assert (KF : forall Q : error -> Prop, (forall e, fails_test s e -> Q e) -> ew (R := elsewhere ast s) (exec m hst (IJumpIfFalse v)) s2 any Q).
    { intros Q HQ. cbn [exec]. eapply went_peek; [exact W2|intros c Tc].
      apply ew_bind, ew_lift; [intros e Ee; apply HQ; exists c; auto|]. intros [|] _; (split; [apply frs_refl|exact I]). }
    inversion H; subst; cbn [jins].
    + apply KF. intros er Ee. eapply bl_if; eauto.
    + apply KF. intros er Ee. eapply bl_while; eauto.
    + apply KI. intros er Ee. eapply bl_for; eauto.
    + apply KI. intros er Ee. eapply bl_for_many; eauto.
  - (* unpack of a loop *) cbn [exec]. eapply went_swap_out; [exact W2|intros v0 s' Hs Tv].
    apply ew_bind, ew_lift; [|intros; split; [apply frs_refl|eapply ew_any, ew_push_items]]. intros e Ee. destruct it as [it isp]. eapply bl_unpack_for; [eassumption|]. exists v0. auto.
  - (* names *) cbn [exec]. apply ew_bind, ew_gets. split; [apply frs_refl|].
    destruct (alookup N.eqb id (v_globals s2)) eqn:E; [eapply ew_any, ew_push|].
    apply ew_bind. unfold ew. destruct (global_name id s2) as [n s'|e sp1 s'|] eqn:En; [|discriminate|exact I].
    eapply global_named in En as [-> ->]; [|eassumption|rewrite (ca_syms _ _ Ca); exact Hpre|exact HG].
    split; [apply frs_refl|]. apply ew_e1. eapply bl_name; [eassumption| |reflexivity]. exists id. split; [now apply named_number|].
    rewrite <- (ca_globals _ _ Ca). exact E.
  - cbn [exec]. apply (ew_then _ _ s2); [auto|apply ew_peekn|intros w s' [Hf Hs]]. apply ew_bind, ew_gets. split; [apply frs_refl|].
    destruct (alookup N.eqb id (v_globals s')) eqn:E; [exact I|].
    apply ew_bind. unfold ew. destruct (global_name id s') as [n s3|e sp1 s3|] eqn:En; [|discriminate|exact I].
    eapply global_named in En as [-> ->]; [|eassumption|rewrite (ca_syms _ _ Hs), (ca_syms _ _ Ca); exact Hpre|exact HG].
    split; [apply frs_refl|]. apply ew_e1. eapply bl_assign; [eassumption| |reflexivity]. exists id. split; [now apply named_number|].
    rewrite <- (ca_globals _ _ Ca), <- (ca_globals _ _ Hs). exact E.
  - (* builtins *) cbn [exec operands] in *. apply ew_bind, ew_gets. split; [apply frs_refl|].
    destruct (alookup N.eqb id (v_builtins s2)) as [[f|en ex]|] eqn:E.
    + eapply went_args; [exact W2|exact Ho|intros args s' [Hf Hs] Ta].
      apply ew_bind. unfold ew, run_builtin. destruct (f (v_data s') args (v_opts s')) as [d r] eqn:Ef. destruct r as [r|e|]; cbn; [|split; [split; reflexivity|]|exact I].
      * split; [split; reflexivity|]. apply ew_bind. eapply ew_imp; [apply ew_push|]. intros u s4 [H4 _]. split; [exact H4|]. eapply ew_any, ew_runtime.
      * left. split; [|reflexivity]. eapply bl_builtin; [eassumption|]. exists id. split; [now apply named_number|].
        rewrite <- (ca_builtins _ _ Ca), E. rewrite len8_nat in Ta. exists args. split; [destruct Ta as [La Ta]; split; [exact La|auto]|].
        rewrite (ca_data _ _ Hs), (ca_data _ _ Ca), (ca_opts _ _ Hs), (ca_opts _ _ Ca) in Ef. now rewrite Ef.
    + apply ew_e0. eapply el_context; [eassumption|now apply named_number; eauto|rewrite <- (ca_builtins _ _ Ca); exact E|reflexivity].
    + apply ew_bind. unfold ew. destruct (global_name id s2) as [n0 s'|e sp0 s'|] eqn:En; [|discriminate|exact I].
      eapply global_named in En as [-> ->]; [|eassumption|rewrite (ca_syms _ _ Ca); exact Hpre|exact HG].
      split; [apply frs_refl|]. apply ew_e1. eapply bl_builtin; [eassumption|]. exists id. split; [now apply named_number|].
      rewrite <- (ca_builtins _ _ Ca), E. reflexivity.
  - (* contexts *) cbn [exec operands] in *. apply ew_bind, ew_gets. split; [apply frs_refl|].
    destruct (alookup N.eqb id (v_builtins s2)) as [bi|] eqn:E.
    + assert (KE : forall entry (Hen : match bi with BFn f | BContext f _ => f = entry end) exit,
        ew (R := elsewhere ast s) (abind (take_args (N.to_nat (len8 l))) (fun args => abind (match exit with Some x => amod (fun s => set_exits (x :: v_exits s) s) | None => aret tt end)
             (fun _ => abind (run_builtin entry args) (fun r => push r)))) s2 any (fun e => blamed m hst ast s e csp)).
      { intros entry Hen exit. eapply went_args; [exact W2|exact Ho|intros args s' [Hf Hs] Ta].
        apply ew_bind. set (xx := match exit with Some _ => _ | None => _ end).
        assert (Kx : ew (R := elsewhere ast s) xx s' (fun _ s3 => frs s' s3 /\ v_data s3 = v_data s' /\ v_opts s3 = v_opts s') (fun e => blamed m hst ast s e csp)).
        { unfold xx. destruct exit; [apply ew_mod|apply ew_ret]; repeat split. }
        eapply ew_imp; [exact Kx|]. intros [] s3 (F3 & D3 & O3). split; [exact F3|].
        apply ew_bind. unfold ew, run_builtin. destruct (entry (v_data s3) args (v_opts s3)) as [d r] eqn:Ef.
        destruct r as [r|e|]; cbn; [|split; [split; reflexivity|]|exact I].
        * split; [split; reflexivity|]. eapply ew_any, ew_push.
        * left. split; [|reflexivity]. eapply bl_enter; [eassumption|]. exists id. split; [now apply named_number|].
          rewrite <- (ca_builtins _ _ Ca), E. rewrite D3, O3, (ca_data _ _ Hs), (ca_data _ _ Ca), (ca_opts _ _ Hs), (ca_opts _ _ Ca) in Ef.
          rewrite len8_nat in Ta. assert (arguments s (length l) args) by (destruct Ta as [La Ta]; split; [exact La|auto]). destruct bi; subst entry; exists args; (split; [assumption|now rewrite Ef]). }
      destruct bi as [f|en ex]; [apply (KE f eq_refl None)|apply (KE en eq_refl (Some ex))].
    + apply ew_bind. unfold ew. destruct (global_name id s2) as [n0 s'|e sp0 s'|] eqn:En; [|discriminate|exact I].
      eapply global_named in En as [-> ->]; [|eassumption|rewrite (ca_syms _ _ Ca); exact Hpre|exact HG].
      split; [apply frs_refl|]. apply ew_e1. eapply bl_enter; [eassumption|]. exists id. split; [now apply named_number|].
      rewrite <- (ca_builtins _ _ Ca), E. reflexivity.
  - (* functions *) cbn [exec]. apply ew_bind. destruct H0 as (n & Hn & ->). unfold ew, get_constant, chunk_get_constant.
    assert (n < length (ck_consts (cur_chunk s2))) by (apply nth_error_Some; congruence).
    rewrite pool_id_from_small, Nat2N.id, Hn by lia. split; [apply frs_refl|]. eapply ew_any, ew_push.
  - exfalso. eapply Hncl. reflexivity.
Qed.
End Exec.
