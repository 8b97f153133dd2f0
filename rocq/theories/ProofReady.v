(** How each operation of the machine moves the stack pointer, and that every value the
    machine holds contains only callables of a given kind (proof device for C03). *)
From Verif Require Import Base RleVec Pool Vecc Float NumText Bytecode Chunk Value Ast Arith VmOps
                          Compiler Vm SpecReady SpecRel ProofRel ProofHeight.

Ltac Zify.zify_post_hook ::= Z.div_mod_to_equations.

Section Vals.
Context {D : Type} (m : mode) (hst : host D) (good : mfn -> Prop).
Notation vm := (vm D).

Definition vok (v : value) : Prop := forall g, fn_in g v -> good g.
Definition cell_ok (u : upvalue) : Prop := match u with Closed v => vok v | Open _ => True end.

Definition R (x y : mfn) : Prop := x = y /\ good x.
Lemma vok_grel (v : value) : vok v -> grel R v v.
Proof using.
  induction v using gvalue_rect'; intros Hv; try (constructor; fail).
  - constructor. match goal with H : Forall _ l |- _ => rename H into HF end.
    assert (Hl : Forall vok l) by (apply Forall_forall; intros x Hx g Hg; apply Hv; econstructor; eauto).
    clear Hv. induction l; constructor.
    + inversion HF; inversion Hl; subst; auto.
    + inversion HF; inversion Hl; subst; auto.
  - constructor; [apply IHv1|apply IHv2]; intros g Hg; apply Hv; [apply fi_left|apply fi_right]; auto.
  - constructor. split; [auto|]. apply Hv. constructor.
Qed.
Lemma grel_vok_list (l l' : list value) : Forall (fun v => forall w, grel R v w -> v = w /\ vok v) l ->
  Forall2 (grel R) l l' -> l = l' /\ Forall vok l.
Proof using.
  intros HF H2. induction H2 as [|x y l1 l2 Hx Hl IH]; [auto|]. inversion HF as [|? ? G1 G2]; subst.
  destruct (IH G2) as [-> ?]; destruct (G1 _ Hx) as [-> ?]; auto.
Qed.
Lemma grel_vok (v w : value) : grel R v w -> v = w /\ vok v.
Proof using.
  revert w. induction v using gvalue_rect'; intros w Hw; inversion Hw; subst;
    try (split; [reflexivity|intros g0 Hg; inversion Hg]; fail).
  - match goal with K : Forall2 (grel R) _ _ |- _ => rename K into H2 end.
    match goal with K : Forall _ _ |- _ => rename K into HF end.
    destruct (grel_vok_list _ _ HF H2) as [<- E].
split; [auto|]. intros g Hg. inversion Hg; subst. rewrite Forall_forall in E. eapply E; eauto.
  - match goal with H : grel R v1 _, H' : grel R v2 _ |- _ => destruct (IHv1 _ H) as [-> E1]; destruct (IHv2 _ H') as [-> E2] end.
    split; [auto|]. intros g Hg. inversion Hg; subst; auto.
  - match goal with H : R _ _ |- _ => destruct H as [-> ?] end. split; [auto|]. intros g' Hg. inversion Hg; subst; auto.
Qed.
Lemma vok_list l : Forall vok l -> Forall2 (grel R) l l.
Proof using. induction 1; constructor; auto. apply vok_grel; auto. Qed.
Lemma list_vok l l' : Forall2 (grel R) l l' -> Forall vok l.
Proof using. induction 1; constructor; auto. eapply grel_vok; eauto. Qed.

Lemma rr_vok (r : res value) v : rr (grel R) r r -> r = Ok v -> vok v.
Proof using. intros H ->. eapply grel_vok; eauto. Qed.

Record vals (s : vm) : Prop := {
  va_stack : Forall vok (v_stack s);
  va_blocks : Forall vok (v_blocks s);
  va_globals : Forall (fun kv => vok (snd kv)) (v_globals s);
  va_heap : Forall cell_ok (v_heap s);
  va_builtins : Forall (fun kb => honest_builtin (snd kb)) (v_builtins s) }.

(** Only the values and the stack pointer changed. *)
Record moved (s s' : vm) (k : nat) : Prop := {
  mv_vals : vals s';
  mv_frames : v_frames s' = v_frames s;
  mv_frame : v_frame s' = v_frame s;
  mv_blocks : v_blocks s' = v_blocks s;
  mv_sp : v_sp s' = k }.

Definition wp {A} (x : act D A) (s : vm) (Q : A -> vm -> Prop) : Prop :=
  match x s with AOk a s' => Q a s' | _ => True end.

Lemma wp_bind {A B} (x : act D A) (k : A -> act D B) s Q :
  wp x s (fun a s' => wp (k a) s' Q) -> wp (abind x k) s Q.
Proof using. unfold wp, abind. destruct (x s); auto. Qed.
Lemma wp_imp {A} (x : act D A) s (Q Q' : A -> vm -> Prop) :
  wp x s Q -> (forall a s', Q a s' -> Q' a s') -> wp x s Q'.
Proof using. unfold wp. destruct (x s); auto. Qed.
Lemma wp_ret {A} (a : A) s (Q : A -> vm -> Prop) : Q a s -> wp (aret a) s Q.
Proof using. auto. Qed.
Lemma wp_gets {A} (f : vm -> A) s (Q : A -> vm -> Prop) : Q (f s) s -> wp (agets f) s Q.
Proof using. auto. Qed.
Lemma wp_mod (f : vm -> vm) s (Q : unit -> vm -> Prop) : Q tt (f s) -> wp (amod f) s Q.
Proof using. auto. Qed.
Lemma wp_e0 {A} e s (Q : A -> vm -> Prop) : wp (error_0 e) s Q. Proof using. exact I. Qed.
Lemma wp_e1 {A} e s (Q : A -> vm -> Prop) : wp (error_1 e) s Q. Proof using. exact I. Qed.
Lemma wp_panic {A} s (Q : A -> vm -> Prop) : wp apanic s Q. Proof using. exact I. Qed.
Lemma wp_lift {A} (r : res A) s (Q : A -> vm -> Prop) : (forall a, r = Ok a -> Q a s) -> wp (lift_1 r) s Q.
Proof using. intros H. destruct r; [apply H; auto|exact I|exact I]. Qed.

Lemma moved_refl s : vals s -> moved s s (v_sp s).
Proof using. intros. constructor; auto. Qed.
Lemma moved_trans s1 s2 s3 a b : moved s1 s2 a -> moved s2 s3 b -> moved s1 s3 b.
Proof using. intros [] []. constructor; auto; congruence. Qed.

Lemma upd_forall {A} (P : A -> Prop) i v l : Forall P l -> P v -> Forall P (upd i v l).
Proof using. intros H Hv. revert i. induction H; intros [|i]; cbn; constructor; auto. Qed.
Lemma nth_forall {A} (P : A -> Prop) i l x : Forall P l -> nth_error l i = Some x -> P x.
Proof using. intros H E. rewrite Forall_forall in H. apply H. eapply nth_error_In; eauto. Qed.

Lemma vals_stack s st k : vals s -> Forall vok st -> moved s (set_stack st k s) k.
Proof using. intros [] H. constructor; auto. constructor; auto. Qed.

Lemma wp_slot i s : vals s -> wp (slot i) s (fun v s' => s' = s /\ vok v).
Proof using. intros H. unfold wp, slot. destruct (nth_error _ _) eqn:E; auto. split; auto. eapply nth_forall; [apply H|eauto]. Qed.
Lemma wp_set_slot i v s : vals s -> vok v -> wp (set_slot i v) s (fun _ s' => moved s s' (v_sp s)).
Proof using. intros H Hv. unfold wp, set_slot. destruct (_ <? _); auto. apply vals_stack; auto. apply upd_forall; [apply H|auto]. Qed.
Lemma wp_push v s : vals s -> vok v -> wp (push v) s (fun _ s' => moved s s' (S (v_sp s))).
Proof using.
  intros H Hv. unfold wp, push. destruct (_ <=? _); [exact I|]. destruct (_ <? _); auto.
  apply vals_stack; auto. apply upd_forall; [apply H|auto].
Qed.
Lemma wp_push_unchecked v s : vals s -> vok v -> wp (push_unchecked v) s (fun _ s' => moved s s' (S (v_sp s))).
Proof using.
  intros H Hv. unfold wp, push_unchecked. destruct (_ <? _); auto.
  apply vals_stack; auto. apply upd_forall; [apply H|auto].
Qed.
Lemma wp_push_many n s : vals s -> wp (push_many n) s (fun _ s' => moved s s' (v_sp s + n)).
Proof using.
  intros H. unfold wp, push_many. cbv zeta. destruct (_ <=? _); [exact I|]. apply vals_stack; auto. apply H.
Qed.
Lemma wp_pop s : vals s -> wp pop s (fun v s' => moved s s' (v_sp s - 1) /\ vok v).
Proof using.
  intros H. unfold wp, pop, slot. destruct (v_sp s) as [|k]; auto. cbn [v_stack set_stack].
  destruct (nth_error _ _) eqn:E; auto. replace (S k - 1) with k by lia.
  split; [apply vals_stack; auto; apply H|]. eapply nth_forall; [apply H|eauto].
Qed.
Lemma wp_pop_many n s : vals s -> wp (pop_many n) s (fun _ s' => moved s s' (v_sp s - n)).
Proof using. intros H. unfold wp, pop_many. destruct (_ <? _); auto. apply vals_stack; auto. apply H. Qed.
Lemma vok_none : vok VNone. Proof using. intros g H. inversion H. Qed.
Lemma vok_loop i : vok (VLoopCtx i). Proof using. intros g H. inversion H. Qed.

Lemma wp_pop_swap_out s : vals s -> wp pop_swap_out s (fun v s' => moved s s' (v_sp s - 1) /\ vok v).
Proof using.
  intros H. unfold pop_swap_out. apply wp_bind. eapply wp_imp; [apply wp_pop; auto|]. intros v s1 [M1 Hv].
  apply wp_bind, wp_gets, wp_bind. eapply wp_imp; [apply wp_set_slot; [apply M1|apply vok_none]|]. intros [] s2 M2.
  apply wp_ret. split; [|auto]. rewrite <- (mv_sp _ _ _ M1). eapply moved_trans; eauto.
Qed.
Lemma wp_pop_double s : vals s -> wp pop_double s (fun ab s' => moved s s' (v_sp s - 2) /\ vok (fst ab) /\ vok (snd ab)).
Proof using.
  intros H. unfold pop_double. apply wp_bind. eapply wp_imp; [apply wp_pop; auto|]. intros v s1 [M1 Hv].
  apply wp_bind. eapply wp_imp; [apply wp_pop; apply M1|]. intros w s2 [M2 Hw]. apply wp_ret.
  split; [|auto]. replace (v_sp s - 2) with (v_sp s1 - 1) by (rewrite (mv_sp _ _ _ M1); lia). eapply moved_trans; eauto.
Qed.
Lemma wp_peekn n s : vals s -> wp (peekn n) s (fun v s' => s' = s /\ vok v /\ n < v_sp s /\ nth_error (v_stack s) (v_sp s - n - 1) = Some v).
Proof using.
  intros H. unfold wp, peekn. destruct (_ <? _) eqn:El; auto. apply Nat.ltb_ge in El. unfold slot.
  destruct (nth_error _ _) eqn:E; auto. split; auto. split; [eapply nth_forall; [apply H|eauto]|]. split; [lia|auto].
Qed.
Lemma wp_swap s : vals s -> wp swap s (fun _ s' => moved s s' (v_sp s)).
Proof using.
  intros H. unfold wp, swap. destruct (v_sp s) as [|[|k]] eqn:E; auto.
  destruct (nth_error (v_stack s) k) eqn:E1; auto. destruct (nth_error (v_stack s) (S k)) eqn:E2; auto.
  apply vals_stack; auto. apply upd_forall; [apply upd_forall; [apply H|]|]; eapply nth_forall; [apply H| |apply H|]; eauto.
Qed.
Lemma vals_cells s o h : vals s -> Forall cell_ok h -> moved s (set_cells o h s) (v_sp s).
Proof using. intros [] Hh. constructor; auto. constructor; auto. Qed.
Lemma wp_up_get c s : vals s -> wp (up_get c) s (fun v s' => s' = s /\ vok v).
Proof using.
  intros H. unfold wp, up_get. destruct (nth_error (v_heap s) c) as [[l|v]|] eqn:E; auto.
  - apply (wp_slot l s H).
  - split; auto. apply (nth_forall _ _ _ _ (va_heap _ H) E).
Qed.
Lemma wp_up_set c v s : vals s -> vok v -> wp (up_set c v) s (fun _ s' => moved s s' (v_sp s)).
Proof using.
  intros H Hv. unfold wp, up_set. destruct (nth_error (v_heap s) c) as [[l|w]|] eqn:E; auto.
  - apply (wp_set_slot l v s H Hv).
  - apply vals_cells; auto. apply upd_forall; [apply H|exact Hv].
Qed.
Lemma wp_capture l s : vals s -> wp (capture_upvalue l) s (fun _ s' => moved s s' (v_sp s)).
Proof using.
  intros H. unfold wp, capture_upvalue. destruct (find _ _); [apply moved_refl; auto|].
  apply vals_cells; auto. apply Forall_app. split; [apply H|repeat constructor].
Qed.
Lemma close_cells_ok last v opens : vok v -> forall h, Forall cell_ok h -> Forall cell_ok (close_cells last v opens h).
Proof using.
  intros Hv. unfold close_cells. induction opens as [|c t IH]; intros h Hh; cbn; auto.
  apply IH. destruct (is_open_at _ _ _); auto. apply upd_forall; auto.
Qed.
Lemma wp_close l s : vals s -> wp (close_upvalues l) s (fun _ s' => moved s s' (v_sp s)).
Proof using.
  intros H. unfold wp, close_upvalues. destruct (nth_error _ _) eqn:E; [|apply moved_refl; auto].
  apply vals_cells; auto. apply close_cells_ok; [|apply H]. eapply nth_forall; [apply H|eauto].
Qed.
Lemma wp_close_range n : forall l s, vals s -> wp (close_range l n) s (fun _ s' => moved s s' (v_sp s)).
Proof using.
  induction n as [|n IH]; intros l s H; [apply wp_ret, moved_refl; auto|]. cbn [close_range].
  apply wp_bind. eapply wp_imp; [apply wp_close; auto|]. intros [] s1 M1.
  eapply wp_imp; [apply IH; apply M1|]. intros [] s2 M2. rewrite <- (mv_sp _ _ _ M1). eapply moved_trans; eauto.
Qed.
Lemma wp_runtime s : vals s -> wp (has_runtime_exceeded hst) s (fun _ s' => moved s s' (v_sp s)).
Proof using.
  intros H. unfold has_runtime_exceeded. apply wp_bind, wp_gets, wp_bind, wp_mod, wp_bind, wp_gets.
  destruct (_ <? _)%N; [exact I|]. apply wp_ret. destruct H. constructor; auto. constructor; auto.
Qed.
Lemma wp_pop_items n : forall s, vals s -> wp (pop_items n) s (fun l s' => moved s s' (v_sp s - n) /\ Forall vok l).
Proof using.
  induction n as [|n IH]; intros s H; cbn [pop_items].
  - apply wp_ret. split; [|constructor]. replace (v_sp s - 0) with (v_sp s) by lia. apply moved_refl; auto.
  - apply wp_bind. eapply wp_imp; [apply wp_pop; auto|]. intros v s1 [M1 Hv].
    apply wp_bind. eapply wp_imp; [apply IH; apply M1|]. intros l s2 [M2 Hl]. apply wp_ret.
    split; [|constructor; auto]. replace (v_sp s - S n) with (v_sp s1 - n) by (rewrite (mv_sp _ _ _ M1); lia).
    eapply moved_trans; eauto.
Qed.
Lemma wp_push_items l : Forall vok l -> forall s, vals s -> wp (push_items l) s (fun _ s' => moved s s' (v_sp s + length l)).
Proof using.
  induction 1 as [|v l Hv Hl IH]; intros s H; cbn [push_items length].
  - apply wp_ret. rewrite Nat.add_0_r. apply moved_refl; auto.
  - apply wp_bind. eapply wp_imp; [apply wp_push; auto|]. intros [] s1 M1.
    eapply wp_imp; [apply IH; apply M1|]. intros [] s2 M2.
    replace (v_sp s + S (length l)) with (v_sp s1 + length l) by (rewrite (mv_sp _ _ _ M1); lia). eapply moved_trans; eauto.
Qed.
Lemma wp_take_args n s : vals s -> wp (take_args n) s (fun l s' => moved s s' (v_sp s - n) /\ Forall vok l).
Proof using.
  intros H. unfold wp, take_args. destruct (_ <? _); [exact I|]. destruct (_ <? _); auto.
  split; [apply vals_stack; auto; apply H|]. apply Forall_forall. intros x Hx.
  pose proof (va_stack _ H) as Hs. rewrite Forall_forall in Hs. apply Hs.
  rewrite <- (firstn_skipn (v_sp s - n) (v_stack s)). apply in_or_app. right.
  rewrite <- (firstn_skipn n (skipn _ _)). apply in_or_app. left. exact Hx.
Qed.
Lemma wp_run_builtin f args s : vals s -> honest f -> Forall vok args ->
  wp (run_builtin f args) s (fun v s' => moved s s' (v_sp s) /\ vok v).
Proof using.
  intros H Hf Ha. unfold wp, run_builtin. destruct (f _ _ _) as [d r] eqn:E. destruct r as [v|e|]; [|exact I|exact I]. cbn.
  split; [destruct H; constructor; auto; constructor; auto|].
  intros g Hg. destruct (Hf _ _ _ _ _ _ E Hg) as (a & Hin & Hga). rewrite Forall_forall in Ha. eapply Ha; eauto.
Qed.

(** ** Operations on values *)
Lemma HF : forall x y, R x y -> fi_type mfi x = fi_type mfi y.
Proof using. intros x y [-> _]. reflexivity. Qed.
Lemma HE (feq : mfn -> mfn -> res bool) : forall x y x' y', R x y -> R x' y' -> rr eq (feq x x') (feq y y').
Proof using. intros x y x' y' [-> _] [-> _]. apply rr_refl. Qed.

Lemma index_vok i v r : vok i -> vok v -> v_index m mfi i v = Ok r -> vok r.
Proof using. intros H1 H2. apply rr_vok. apply index_rel; try apply vok_grel; auto. apply HF. Qed.
Lemma range_vok i v r : vok i -> vok v -> v_range mfi i v = Ok r -> vok r.
Proof using. intros H1 H2. apply rr_vok. apply range_rel; try apply vok_grel; auto. apply HF. Qed.
Lemma array_vok amax l r : Forall vok l -> v_array amax l = Ok r -> vok r.
Proof using. intros H1. apply rr_vok. apply array_rel, vok_list; auto. Qed.
Lemma unpack_vok n v l : vok v -> v_unpack mfi n v = Ok l -> Forall vok l.
Proof using.
  intros H E. pose proof (unpack_rel R mfi mfi HF n v v (vok_grel v H)) as K. rewrite E in K. eapply list_vok; eauto.
Qed.
Lemma unpack_len n (v : value) l : v_unpack mfi n v = Ok l -> length l = N.to_nat n.
Proof using.
  destruct v; cbn [v_unpack]; try discriminate.
  - destruct (n <? 1)%N eqn:E1; [discriminate|]. destruct (4 <? n)%N eqn:E2; [discriminate|].
    apply N.ltb_ge in E1, E2. intros [= <-]. rewrite map_length, firstn_length. unfold channels. cbn [length]. lia.
  - destruct (_ =? n)%N eqn:E; [|discriminate]. apply N.eqb_eq in E. intros [= <-]. lia.
  - destruct (n =? 2)%N eqn:E; [|discriminate]. apply N.eqb_eq in E. intros [= <-]. cbn. lia.
Qed.
Lemma iter_vok i v r : vok v -> v_iter m mfi i v = Ok (Some r) -> vok r.
Proof using.
  intros H E. pose proof (iter_rel R m mfi mfi HF i v v (vok_grel v H)) as K. rewrite E in K. eapply grel_vok; eauto.
Qed.
Lemma unary_vok op f v r : unary_fn m mfi op = Some f -> vok v -> f v = Ok r -> vok r.
Proof using.
  intros Ho H. destruct (unary_rel R m mfi mfi HF op f Ho) as (g & Hg & K).
  assert (g = f) as -> by congruence. apply rr_vok. apply K, vok_grel, H.
Qed.
Lemma binary_vok op feq o smax amax f v w r : binary_fn m o mfi feq smax amax op = Some f -> vok v -> vok w ->
  f v w = Ok r -> vok r.
Proof using.
  intros Ho H1 H2. destruct (binary_rel R m o mfi mfi feq feq smax amax HF (HE feq) op f Ho) as (g & Hg & K).
  assert (g = f) as -> by congruence. apply rr_vok. apply K; apply vok_grel; auto.
Qed.

Lemma alookup_forall {A} (P : A -> Prop) k (l : list (N * A)) x :
  Forall (fun kv => P (snd kv)) l -> alookup N.eqb k l = Some x -> P x.
Proof using.
  induction 1 as [|[j y] t Hy Ht IH]; cbn; [discriminate|]. destruct (N.eqb _ _); [intros [= <-]; auto|auto].
Qed.
Lemma ainsert_forall {A} (P : A -> Prop) k x (l : list (N * A)) :
  Forall (fun kv => P (snd kv)) l -> P x -> Forall (fun kv => P (snd kv)) (ainsert k x l).
Proof using.
  intros Hl Hx. unfold ainsert. constructor; auto.
Qed.
End Vals.
