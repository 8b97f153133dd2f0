(** Proofs of the machine properties C04, C05, C06, C20, C21. *)
From Verif Require Import Base RleVec Pool Vecc Float NumText Bytecode Chunk Value Ast Arith VmOps
                          Compiler Vm SpecVm ProofVm.

Section Limits.
Context {D : Type} (m : mode) (hst : host D).

Definition bottom (s : vm D) : frame := last (v_frames s) (v_frame s).
Definition lim_J (s : vm D) : Prop :=
  length (v_stack s) = o_stack_size (v_opts s) /\
  length (v_frames s) <= o_call_stack_size (v_opts s) /\ f_st (bottom s) = 0.
Definition lim_I (s : vm D) : Prop := lim_J s /\ v_sp s <= o_stack_size (v_opts s).

Lemma last_cons {A} (x d : A) l : last (x :: l) d = last l x.
Proof. revert x; induction l as [|y l IH]; intros x; auto. cbn [last] in *. destruct l; auto. Qed.

Lemma lim_stable : stable hst lim_I lim_J.
Proof.
  constructor; unfold lim_I, lim_J, bottom.
  - tauto.
  - tauto.
  - intros; cbn; intuition congruence.
  - intros; cbn; intuition congruence.
  - intros; cbn; intuition congruence.
  - intros; cbn; intuition congruence.
  - intros s i ((H1 & H2 & H3) & H4). unfold set_ip. cbn. repeat split; auto.
    destruct (v_frames s) as [|f l]; auto. rewrite !last_cons in *. auto.
  - intros; cbn; intuition congruence.
  - intros; cbn; intuition congruence.
  - intros; cbn; intuition congruence.
  - intros; cbn; intuition congruence.
  - intros s f ups n ((H1 & H2 & H3) & H4) Hl. cbn [set_data set_frames v_stack v_opts v_frames v_frame v_sp].
    repeat split; auto. rewrite last_cons. auto.
  - intros; cbn; intuition congruence.
  - intros s fr rest st ((H1 & H2 & H3) & H4) E. cbn [set_data set_frames set_stack v_stack v_opts v_frames v_frame v_sp].
    rewrite E in *. rewrite last_cons in H3. cbn in H2. repeat split; auto. lia.
  - intros s fr rest st ((H1 & H2 & H3) & H4) E Hst. cbn [set_data set_frames set_stack v_stack v_opts v_frames v_frame v_sp].
    rewrite E in *. rewrite last_cons in H3. cbn in H2. repeat split; auto; lia.
Qed.

Lemma lim_reset s : lim_J s -> lim_I (reset_state s).
Proof. unfold lim_I, lim_J, bottom, reset_state; cbn. intros (H1 & H2 & H3). repeat split; auto; lia. Qed.

Lemma lim_builtins l : forall s, lim_I s -> lim_I (add_builtins_list l s).
Proof.
  induction l as [|[n b] l IH]; intros s Hs; cbn [add_builtins_list]; auto.
  destruct (pool_add _ _ _) as [p id]. apply IH. exact Hs.
Qed.

Lemma session_limits s : session m hst s -> lim_I s.
Proof.
  induction 1 as [d sc o| | |s n v s' H IH E| |s s' H IH E|s v s' H IH E|s e sp s' H IH E| |].
  - unfold lim_I, lim_J, bottom; cbn. rewrite repeat_length. repeat split; auto; lia.
  - apply lim_builtins; auto.
  - unfold insert_global. destruct (pool_add _ _ _); exact IHsession.
  - unfold set_external in E. destruct (pool_id _ _ _); [|discriminate].
    destruct (existsb _ _); [|discriminate]. injection E as <-. exact IH.
  - exact IHsession.
  - pose proof (inv_step m hst lim_I lim_J ltac:(unfold lim_I; tauto) lim_stable s IH) as H1.
    rewrite E in H1; auto.
  - pose proof (inv_step m hst lim_I lim_J ltac:(unfold lim_I; tauto) lim_stable s IH) as H1.
    rewrite E in H1. destruct H1 as (Hf & s0 & ((H1 & H2 & H3) & H4) & ->).
    unfold lim_I, lim_J, bottom in *. cbn in *. rewrite Hf in H3. cbn in H3. rewrite H3.
    repeat split; auto. rewrite Hf; auto. lia.
  - pose proof (inv_step m hst lim_I lim_J ltac:(unfold lim_I; tauto) lim_stable s IH) as H1.
    rewrite E in H1. apply lim_reset; auto.
  - apply lim_reset; apply IHsession.
  - pose proof (lim_reset s (proj1 IHsession)) as H1. exact H1.
Qed.

Lemma push_spec (s : vm D) v : length (v_stack s) = o_stack_size (v_opts s) ->
  v_sp s <= o_stack_size (v_opts s) ->
  (v_sp s < o_stack_size (v_opts s) /\ exists s', push v s = AOk tt s' /\ live s' = live s ++ [v])
  \/ (v_sp s = o_stack_size (v_opts s) /\ exists sp, push v s = AErr EStackOverflow sp s).
Proof.
  intros Hl Hs. unfold push. destruct (_ <=? _) eqn:E1.
  - apply Nat.leb_le in E1. right. split; [lia|]. eexists; reflexivity.
  - apply Nat.leb_gt in E1. left. split; auto. destruct (_ <? _) eqn:E2.
    + eexists; split; [reflexivity|]. unfold live. cbn [v_sp v_stack set_stack].
      apply Nat.ltb_lt in E2. revert E2. generalize (v_sp s) (v_stack s). clear.
      intros n l; revert n; induction l as [|x l IH]; intros [|n] H; cbn in *; try lia; auto.
      f_equal. apply IH; lia.
    + apply Nat.ltb_ge in E2. lia.
Qed.
End Limits.

Section Runtime.
Context {D : Type} (m : mode) (hst : host D).

(** Everything but the counters may change; the counters only move forward. *)
Definition fwd (r n : nat) (lim : N) (s : vm D) : Prop :=
  r <= v_reads s /\ v_n s = n /\ o_max_runtime (v_opts s) = lim.

Definition fkeeps {A} (x : act D A) : Prop :=
  forall r n lim s, fwd r n lim s ->
    match x s with AOk _ s' => fwd r n lim s' | _ => True end.

Lemma fk_bind {A B} (x : act D A) (k : A -> act D B) :
  fkeeps x -> (forall a, fkeeps (k a)) -> fkeeps (abind x k).
Proof.
  intros Hx Hk r n lim s Hs; unfold abind. specialize (Hx r n lim s Hs).
  destruct (x s) as [a s'| |]; auto. apply Hk; auto.
Qed.
Lemma fk_ret {A} (a : A) : fkeeps (aret a).
Proof. intros r n lim s Hs; exact Hs. Qed.
Lemma fk_lift {A} (r : res A) : fkeeps (lift_1 r).
Proof. destruct r; intros r n lim s Hs; cbn; auto. Qed.
Lemma fk_pop : fkeeps pop.
Proof.
  intros r n lim s Hs; unfold pop. destruct (v_sp s); auto. unfold slot.
  destruct (nth_error _ _); auto.
Qed.
Lemma fk_push v : fkeeps (push v).
Proof. intros r n lim s Hs; unfold push. destruct (_ <=? _); [exact Logic.I|]. destruct (_ <? _); auto. Qed.
Lemma fk_push_unchecked v : fkeeps (push_unchecked v).
Proof. intros r n lim s Hs; unfold push_unchecked. destruct (_ <? _); auto. Qed.
Lemma fk_slot i : fkeeps (slot i).
Proof. intros r n lim s Hs; unfold slot. destruct (nth_error _ _); auto. Qed.
Lemma fk_set_slot i v : fkeeps (set_slot i v).
Proof. intros r n lim s Hs; unfold set_slot. destruct (_ <? _); auto. Qed.
Lemma fk_peekn k : fkeeps (peekn k).
Proof. intros r n lim s Hs; unfold peekn. destruct (_ <? _); auto. apply fk_slot; auto. Qed.
Lemma fk_swap : fkeeps swap.
Proof.
  intros r n lim s Hs; unfold swap. destruct (v_sp s) as [|[|k]]; auto.
  destruct (nth_error (v_stack s) k), (nth_error (v_stack s) (S k)); auto.
Qed.
Lemma fk_close l : fkeeps (close_upvalues l).
Proof. intros r n lim s Hs; unfold close_upvalues. destruct (nth_error _ _); auto. Qed.
Lemma fk_close_range k : forall l, fkeeps (close_range l k).
Proof.
  induction k as [|k IH]; intros l; cbn [close_range]; [apply fk_ret|].
  apply fk_bind; [apply fk_close | intros; apply IH].
Qed.
Lemma fk_pop_items k : fkeeps (pop_items k).
Proof.
  induction k as [|k IH]; cbn [pop_items]; [apply fk_ret|].
  apply fk_bind; [apply fk_pop|]; intros. apply fk_bind; [apply IH|]; intros; apply fk_ret.
Qed.
Lemma fk_push_items l : fkeeps (push_items l).
Proof.
  induction l as [|v l IH]; cbn [push_items]; [apply fk_ret|].
  apply fk_bind; [apply fk_push | intros; apply IH].
Qed.
Lemma fk_capture l : fkeeps (capture_upvalue l).
Proof. intros r n lim s Hs; unfold capture_upvalue. destruct (find _ _); auto. Qed.
Lemma fk_read_captures k : fkeeps (read_captures k).
Proof.
  induction k as [|k IH]; cbn [read_captures]; [apply fk_ret|].
  apply fk_bind; [intros r n lim s Hs; exact Hs|]; intros s.
  destruct (bc_read_u8 _ _); try (intros ? ? ? ? ?; exact Logic.I).
  destruct (bc_read_u16 _ _); try (intros ? ? ? ? ?; exact Logic.I).
  apply fk_bind; [intros r n lim s' Hs; exact Hs|]; intros _. apply fk_bind.
  { destruct (_ =? _)%N; [apply fk_capture|].
    destruct (nth_error _ _); [apply fk_ret | intros ? ? ? ? ?; exact Logic.I]. }
  intros c. apply fk_bind; [apply IH|]; intros; apply fk_ret.
Qed.
Lemma fk_take_args k : fkeeps (take_args k).
Proof.
  intros r n lim s Hs; unfold take_args. destruct (_ <? _); [exact Logic.I|].
  destruct (_ <? _); auto.
Qed.
Lemma fk_run_builtin f args : fkeeps (run_builtin f args).
Proof.
  intros r n lim s Hs; unfold run_builtin. destruct (f _ _ _) as [d x]. apply fk_lift. exact Hs.
Qed.
Lemma fk_runtime : fkeeps (has_runtime_exceeded hst).
Proof.
  intros r n lim s (H1 & H2 & H3). unfold has_runtime_exceeded, abind, agets, amod. cbn.
  destruct (_ <? _)%N; cbn; auto. unfold fwd; cbn. repeat split; auto.
Qed.
Lemma fk_gets {A} (f : vm D -> A) : fkeeps (agets f).
Proof. intros r n lim s Hs; exact Hs. Qed.
Lemma fk_mod f : (forall r n lim s, fwd r n lim s -> fwd r n lim (f s)) -> fkeeps (amod f).
Proof. intros H r n lim s Hs; apply H; auto. Qed.
Lemma fk_err0 {A} e : fkeeps (A := A) (error_0 e).
Proof. intros r n lim s Hs; exact Logic.I. Qed.
Lemma fk_err1 {A} e : fkeeps (A := A) (error_1 e).
Proof. intros r n lim s Hs; exact Logic.I. Qed.
Lemma fk_panic {A} : fkeeps (A := A) apanic.
Proof. intros r n lim s Hs; exact Logic.I. Qed.
Lemma fk_get_constant i : fkeeps (get_constant i).
Proof. intros r n lim s Hs; unfold get_constant. destruct (chunk_get_constant _ _); auto. Qed.
Lemma fk_up_get c : fkeeps (up_get c).
Proof. intros r n lim s Hs; unfold up_get. destruct (nth_error _ _) as [[]|]; auto. apply fk_slot; auto. Qed.
Lemma fk_up_set c v : fkeeps (up_set c v).
Proof. intros r n lim s Hs; unfold up_set. destruct (nth_error _ _) as [[]|]; auto. apply fk_set_slot; auto. Qed.
Lemma fk_pop_many k : fkeeps (pop_many k).
Proof. intros r n lim s Hs; unfold pop_many. destruct (_ <? _); auto. Qed.
Lemma fk_push_many k : fkeeps (push_many k).
Proof. intros r n lim s Hs; unfold push_many. destruct (_ <=? _); [exact Logic.I|]. auto. Qed.
Lemma fk_pop_swap_out : fkeeps pop_swap_out.
Proof.
  unfold pop_swap_out. apply fk_bind; [apply fk_pop|]; intros. apply fk_bind; [apply fk_gets|]; intros.
  apply fk_bind; [apply fk_set_slot|]; intros. apply fk_ret.
Qed.
Lemma fk_pop_double : fkeeps pop_double.
Proof. unfold pop_double. repeat (apply fk_bind; [apply fk_pop|]; intros ?). apply fk_ret. Qed.
Lemma fk_pop_peek : fkeeps pop_peek.
Proof.
  unfold pop_peek. apply fk_bind; [apply fk_pop|]; intros. apply fk_bind; [apply fk_peekn|]; intros.
  apply fk_ret.
Qed.
Lemma fk_jump off : fkeeps (jump_forward off).
Proof. apply fk_mod. intros r n lim s Hs. exact Hs. Qed.

Ltac fk := repeat first
  [ apply fk_runtime | apply fk_pop_swap_out | apply fk_pop_double | apply fk_pop_peek
  | apply fk_bind; [|intros ?]
  | apply fk_ret | apply fk_gets | apply fk_panic | apply fk_err0 | apply fk_err1
  | apply fk_lift | apply fk_push | apply fk_push_unchecked | apply fk_push_many
  | apply fk_slot | apply fk_set_slot | apply fk_pop | apply fk_pop_many | apply fk_peekn
  | apply fk_swap | apply fk_get_constant | apply fk_up_get | apply fk_up_set
  | apply fk_capture | apply fk_close | apply fk_pop_items | apply fk_run_builtin
  | apply fk_push_items | apply fk_read_captures | apply fk_jump | apply fk_take_args
  | apply fk_mod; intros ? ? ? ? Hfw; exact Hfw ].

Lemma fk_exec i : fkeeps (exec m hst i).
Proof.
  destruct i; cbn [exec]; try (fk; fail);
    try (fk; match goal with
             | |- fkeeps (match ?x with _ => _ end) => destruct x; fk
             end; fail).
  - fk. apply fk_mod. intros r n lim s Hs. destruct (alookup _ _ _); auto.
  - fk. destruct a as [| | | | | | | | | | |[]]; fk.
  - fk. destruct a as [| | | | | | | | | | |[]]; fk.
  - fk. intros r n lim s Hs. destruct (_ <=? _); [exact Logic.I|].
    destruct a; try exact Logic.I. destruct (_ =? _)%N; [|exact Logic.I]. exact Hs.
  - fk. destruct a as [[]|]; fk.
  - fk. destruct a as [[]|]; fk.
  - fk. destruct a as [|x rest]; fk. intros r n lim s Hs. destruct (x (v_data s)) as [d rr].
    apply fk_lift. exact Hs.
  - fk. intros r n lim s Hs. destruct (geqb _ _ _) as [[]| |]; auto.
  - intros r n lim s Hs. destruct (_ <? _); auto.
  - fk. destruct (_ <? _); fk. destruct a0; fk. destruct a2; fk.
  - fk. intros r n lim s Hs. destruct (binary_fn _ _ _ _ _ _ _); auto.
    unfold abind. pose proof (fk_lift (r0 (fst a) (snd a)) r n lim s Hs) as H1.
    destruct (lift_1 _ s); auto. apply fk_push_unchecked; auto.
Qed.

Lemma fwd_return r n lim s : fwd r n lim s ->
  match do_return m hst s with SNext s' => fwd r n lim s' | _ => True end.
Proof.
  intros Hs. unfold do_return. pose proof (fk_pop r n lim s Hs) as H1.
  destruct (pop s) as [v s1| |]; auto.
  pose proof (fk_close_range (v_sp s1 - f_st (v_frame s1)) (f_st (v_frame s1)) r n lim s1 H1) as H2.
  destruct (close_range _ _ s1) as [u s2| |]; auto.
  destruct (v_frames s2) as [|fr rest].
  - destruct m, (v_sp s2); auto.
  - unfold push. cbn [v_opts v_sp v_stack set_frames set_stack set_data].
    destruct (_ <=? _); [exact Logic.I|]. destruct (_ <? _); [|exact Logic.I]. exact H2.
Qed.

Lemma step_counts s s' : step m hst s = SNext s' ->
  v_reads s <= v_reads s' /\ o_max_runtime (v_opts s') = o_max_runtime (v_opts s) /\
  v_n s <= 64 /\ v_n s' = S (v_n s) \/
  64 < v_n s /\ v_n s' = 0 /\ v_reads s < v_reads s' /\
  o_max_runtime (v_opts s') = o_max_runtime (v_opts s) /\
  (h_clock hst (v_reads s) <= o_max_runtime (v_opts s))%N.
Proof.
  unfold step. unfold tick, abind at 1, agets at 1. destruct (64 <? v_n s) eqn:En.
  - apply Nat.ltb_lt in En. unfold abind at 1, has_runtime_exceeded, abind, agets, amod.
    cbn [v_opts set_count v_n v_reads].
    destruct (_ <? _)%N eqn:Ec; [discriminate|]. apply N.ltb_ge in Ec.
    cbn [aret]. set (s1 := set_count _ 0 _).
    assert (Hf : fwd (S (v_reads s)) 0 (o_max_runtime (v_opts s)) s1).
    { unfold fwd, s1; cbn. auto. }
    clearbody s1. destruct (_ <=? _); [discriminate|].
    destruct (decode _ _) as [[i ip']| |]; try discriminate.
    assert (Hf' : fwd (S (v_reads s)) 0 (o_max_runtime (v_opts s)) (set_ip ip' s1)) by exact Hf.
    intros E. right.
    assert (Hx : fwd (S (v_reads s)) 0 (o_max_runtime (v_opts s)) s').
    { pose proof (fk_exec i _ _ _ _ Hf') as H1. pose proof (fwd_return _ _ _ _ Hf') as H2.
      destruct i; try (destruct (exec _ _ _ _); congruence).
      destruct (do_return m hst (set_ip ip' s1)); congruence. }
    destruct Hx as (H1 & H2 & H3). repeat split; auto; lia.
  - apply Nat.ltb_ge in En. unfold amod.
    set (s1 := set_count (v_reads s) (S (v_n s)) s).
    assert (Hf : fwd (v_reads s) (S (v_n s)) (o_max_runtime (v_opts s)) s1).
    { unfold fwd, s1; cbn. auto. }
    clearbody s1. destruct (_ <=? _); [discriminate|].
    destruct (decode _ _) as [[i ip']| |]; try discriminate.
    assert (Hf' : fwd (v_reads s) (S (v_n s)) (o_max_runtime (v_opts s)) (set_ip ip' s1)) by exact Hf.
    intros E. left.
    assert (Hx : fwd (v_reads s) (S (v_n s)) (o_max_runtime (v_opts s)) s').
    { pose proof (fk_exec i _ _ _ _ Hf') as H1. pose proof (fwd_return _ _ _ _ Hf') as H2.
      destruct i; try (destruct (exec _ _ _ _); congruence).
      destruct (do_return m hst (set_ip ip' s1)); congruence. }
    destruct Hx as (H1 & H2 & H3). repeat split; auto; lia.
Qed.

(** At most 65 further instructions complete once every reading is too late. *)
Lemma runtime_stops k : forall s, too_late hst s -> 65 - v_n s < k ->
  match loop m hst k s with ROut _ => False | _ => True end.
Proof.
  induction k as [|k IH]; intros s Hl Hk; [lia|]. cbn [loop].
  destruct (step m hst s) as [s'| | |] eqn:E; auto.
  pose proof (step_counts s s' E) as [(H1 & H2 & H3 & H4)|(H1 & H2 & H3 & H4 & H5)].
  - apply IH.
    + intros j Hj. rewrite H2. apply Hl. lia.
    + lia.
  - specialize (Hl (v_reads s) ltac:(lia)). lia.
Qed.

End Runtime.

Section Counts.
Context {D : Type} (m : mode) (f g : D -> D) (clock : nat -> N) (k : nat) (o : oracle).
Notation hst := (counting_host f g clock k o).

Definition cnt_base (e0 l0 : nat) (s : vm (counted D)) : Prop :=
  length (v_stack s) = o_stack_size (v_opts s) /\
  (forall i b, alookup N.eqb i (v_builtins s) = Some b -> uncounted b) /\
  Forall (fun x : xfn (counted D) => forall d, snd (fst (x d)) = snd d) (v_exits s) /\
  enters (v_data s) + l0 = leaves (v_data s) + e0 + length (v_frames s).
Definition cnt_I e0 l0 s := cnt_base e0 l0 s /\ v_sp s <= o_stack_size (v_opts s).

Lemma cnt_IJ e0 l0 s : cnt_I e0 l0 s -> cnt_base e0 l0 s.
Proof. unfold cnt_I; tauto. Qed.

Lemma cnt_stable e0 l0 : stable hst (cnt_I e0 l0) (cnt_base e0 l0).
Proof.
  constructor; unfold cnt_I, cnt_base.
  - tauto.
  - tauto.
  - intros; cbn; intuition congruence.
  - intros; cbn; intuition congruence.
  - intros; cbn; intuition congruence.
  - intros; cbn; intuition congruence.
  - intros; cbn; intuition congruence.
  - intros; cbn; intuition congruence.
  - intros s x r ((H1 & H2 & H3 & H4) & H5) E. cbn. rewrite E in H3.
    inversion H3 as [|? ? Hx Hr]; subst. unfold enters, leaves in *. rewrite Hx. repeat split; auto.
  - intros s b fn args ((H1 & H2 & H3 & H4) & H5) E. cbn. pose proof (H2 _ _ E) as HH. cbn in HH.
    unfold enters, leaves in *. rewrite HH. repeat split; auto.
  - intros s b e x args ((H1 & H2 & H3 & H4) & H5) E. cbn. pose proof (H2 _ _ E) as [Ha Hb].
    unfold enters, leaves in *. rewrite Ha. repeat split; auto.
  - intros s fn ups n ((H1 & H2 & H3 & H4) & H5) Hl.
    cbn [set_data set_frames v_stack v_opts v_frames v_frame v_sp v_builtins v_exits v_data
         h_enter counting_host]. repeat split; auto.
    unfold enters, leaves in *; cbn; lia.
  - intros s sp ((H1 & H2 & H3 & H4) & H5). cbn. auto.
  - intros s fr rest st ((H1 & H2 & H3 & H4) & H5) E.
    cbn [set_data set_frames set_stack v_stack v_opts v_frames v_frame v_sp v_builtins v_exits v_data
         h_leave counting_host]. rewrite E in H4. repeat split; auto.
    unfold enters, leaves in *; cbn in *; lia.
  - intros s fr rest st ((H1 & H2 & H3 & H4) & H5) E Hst.
    cbn [set_data set_frames set_stack v_stack v_opts v_frames v_frame v_sp v_builtins v_exits v_data
         h_leave counting_host]. rewrite E in H4. repeat split; auto; try lia.
    unfold enters, leaves in *; cbn in *; lia.
Qed.

Lemma counts_balance s0 s :
  length (v_stack s0) = o_stack_size (v_opts s0) -> v_sp s0 <= o_stack_size (v_opts s0) ->
  v_frames s0 = [] -> v_exits s0 = [] ->
  (forall i b, alookup N.eqb i (v_builtins s0) = Some b -> uncounted b) ->
  reach m hst s0 s ->
  enters (v_data s) + leaves (v_data s0) = leaves (v_data s) + enters (v_data s0) + depth s /\
  forall v s', step m hst s = SDone v s' ->
    enters (v_data s') + leaves (v_data s0) = leaves (v_data s') + enters (v_data s0).
Proof.
  intros H1 H2 H3 H4 H5 Hr.
  assert (Hi : cnt_I (enters (v_data s0)) (leaves (v_data s0)) s0).
  { unfold cnt_I, cnt_base. rewrite H3, H4. cbn [length]. repeat split; auto; lia. }
  pose proof (inv_reach m hst _ _ (cnt_IJ _ _) (cnt_stable _ _) _ _ Hi Hr) as H.
  split; [destruct H as ((_ & _ & _ & H) & _); exact H|].
  intros v s' E.
  pose proof (inv_step m hst _ _ (cnt_IJ _ _) (cnt_stable _ _) _ H) as Hs.
  rewrite E in Hs. destruct Hs as (Hf & s1 & ((_ & _ & _ & Hs) & _) & ->).
  cbn in *. rewrite Hf in Hs. cbn in Hs. lia.
Qed.
End Counts.

Section Calls.
Context {D : Type} (m : mode) (hst : host D).

Lemma live_nth (s : vm D) i v : nth_error (live s) i = Some v -> nth_error (v_stack s) i = Some v.
Proof.
  unfold live. generalize (v_sp s) (v_stack s). intros n l; revert n i.
  induction l as [|x l IH]; intros [|n] [|i]; cbn; try discriminate; auto. apply IH.
Qed.
Lemma live_len (s : vm D) below v args : live s = below ++ v :: args ->
  v_sp s <= length (v_stack s) -> v_sp s = length below + 1 + length args.
Proof.
  intros H Hl. assert (length (live s) = v_sp s) by (unfold live; rewrite firstn_length; lia).
  rewrite H, app_length in H0. cbn in H0. lia.
Qed.

Lemma call_peek (s : vm D) below v args argc : v_sp s <= length (v_stack s) ->
  live s = below ++ v :: args -> N.of_nat (length args) = argc ->
  peekn (N.to_nat argc) s = AOk v s /\ v_sp s - N.to_nat argc - 1 = length below.
Proof.
  intros Hl Hv <-. rewrite Nat2N.id. pose proof (live_len _ _ _ _ Hv Hl) as Hs.
  unfold peekn. destruct (_ <? _) eqn:E; [apply Nat.ltb_lt in E; lia|].
  replace (v_sp s - length args - 1) with (length below) by lia. split; auto.
  unfold slot. rewrite (live_nth s (length below) v); auto.
  rewrite Hv, nth_error_app2, Nat.sub_diag by lia. reflexivity.
Qed.

Lemma call_ok (s : vm D) below c args argc : v_sp s <= length (v_stack s) ->
  live s = below ++ VFn c :: args -> N.of_nat (length args) = argc ->
  fn_arity (mfn_function c) = argc -> length (v_frames s) < o_call_stack_size (v_opts s) ->
  exists s', exec m hst (ICallFunction argc) s = AOk tt s' /\
    v_frames s' = v_frame s :: v_frames s /\ f_fn (v_frame s') = mfn_function c /\
    f_ip (v_frame s') = 0 /\ live s' = live s /\ f_st (v_frame s') = length below /\
    (forall i a, nth_error args i = Some a ->
       nth_error (v_stack s') (f_st (v_frame s') + 1 + i) = Some a).
Proof.
  intros Hl Hv Ha Hf Hc. cbn [exec]. destruct (call_peek s below (VFn c) args argc Hl Hv Ha) as [Hp Hb].
  unfold abind. rewrite Hp. destruct (_ <=? _) eqn:E; [apply Nat.leb_le in E; lia|].
  rewrite Hf, N.eqb_refl. eexists; split; [reflexivity|]. cbn [v_frames v_frame set_data set_frames f_fn f_ip f_st v_stack].
  repeat split; auto.
  intros i a Hi. rewrite Hb. apply live_nth. rewrite Hv.
  replace (length below + 1 + i) with (length (below ++ [VFn c]) + i) by (rewrite app_length; cbn; lia).
  replace (below ++ VFn c :: args) with ((below ++ [VFn c]) ++ args) by (rewrite <- app_assoc; reflexivity).
  rewrite nth_error_app2 by lia. replace (_ + i - _) with i by lia. auto.
Qed.

Lemma call_bad (s : vm D) below v args argc : v_sp s <= length (v_stack s) ->
  live s = below ++ v :: args -> N.of_nat (length args) = argc ->
  length (v_frames s) < o_call_stack_size (v_opts s) ->
  (forall c, v = VFn c -> fn_arity (mfn_function c) <> argc ->
     exists sp, exec m hst (ICallFunction argc) s =
       AErr (EMismatchedArity (fn_name (mfn_function c)) (fn_arity (mfn_function c)) argc) sp s) /\
  ((forall c, v <> VFn c) ->
     exists sp, exec m hst (ICallFunction argc) s = AErr (ENotCallable (ntype mfi v)) sp s).
Proof.
  intros Hl Hv Ha Hc. cbn [exec]. destruct (call_peek s below v args argc Hl Hv Ha) as [Hp Hb].
  unfold abind. rewrite Hp. destruct (_ <=? _) eqn:E; [apply Nat.leb_le in E; lia|].
  split.
  - intros c -> Hn. destruct (_ =? _)%N eqn:En; [apply N.eqb_eq in En; congruence|].
    eexists; reflexivity.
  - intros Hn. destruct v; try (eexists; reflexivity). exfalso; eapply Hn; reflexivity.
Qed.

Lemma call_deep (s : vm D) below v args argc : v_sp s <= length (v_stack s) ->
  live s = below ++ v :: args -> N.of_nat (length args) = argc ->
  length (v_frames s) = o_call_stack_size (v_opts s) ->
  exists sp, exec m hst (ICallFunction argc) s = AErr EStackOverflow sp s.
Proof.
  intros Hl Hv Ha Hc. cbn [exec]. destruct (call_peek s below v args argc Hl Hv Ha) as [Hp Hb].
  unfold abind. rewrite Hp. destruct (_ <=? _) eqn:E; [|apply Nat.leb_gt in E; lia].
  eexists; reflexivity.
Qed.
End Calls.
