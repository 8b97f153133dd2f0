(** Runs of machines whose data answer to each other (C95). *)
From Verif Require Import Base RleVec Pool Vecc Float NumText Bytecode Chunk Value Ast Arith VmOps Compiler Vm SpecData.

Section Data.
Context {D E : Type} (like : D -> E -> Prop).

Definition same_ids (l : list (N * builtin D)) (l' : list (N * builtin E)) : Prop :=
  Forall2 (fun a b => fst a = fst b /\ same_builtin like (snd a) (snd b)) l l'.
Inductive alike : vm D -> vm E -> Prop :=
| alike_intro d e b c x y bl gl gs ex op he fs f st sp r n o :
    like d e -> same_ids b c -> Forall2 (same_exit like) x y ->
    alike (mkVm d b x bl gl gs ex op he fs f st sp r n o) (mkVm e c y bl gl gs ex op he fs f st sp r n o).

Lemma alike_machine s t : alike s t -> same_machine like s t.
Proof. intros []. unfold same_machine. cbn. auto. Qed.

Definition arel {A} (p : ares D A) (q : ares E A) : Prop :=
  match p, q with
  | AOk a s, AOk b t => a = b /\ alike s t
  | AErr e sp s, AErr e' sp' t => e = e' /\ sp = sp' /\ alike s t
  | APanic, APanic => True
  | _, _ => False
  end.
Definition lk {A} (x : act D A) (y : act E A) : Prop := forall s t, alike s t -> arel (x s) (y t).

Lemma lk_bind {A B} (x : act D A) (y : act E A) (k : A -> act D B) (k' : A -> act E B) :
  lk x y -> (forall a, lk (k a) (k' a)) -> lk (abind x k) (abind y k').
Proof.
  intros H1 H2 s t H. unfold abind. specialize (H1 s t H).
  destruct (x s), (y t); cbn [arel] in H1; try contradiction; auto.
  destruct H1 as [-> H1]. apply H2, H1.
Qed.
Lemma lk_bind2 {A A' B} (P : A -> A' -> Prop) (x : act D A) (y : act E A') (k : A -> act D B) (k' : A' -> act E B) :
  (forall s t, alike s t -> match x s, y t with
                            | AOk a s', AOk b t' => P a b /\ alike s' t'
                            | _, _ => False end) ->
  (forall a b, P a b -> lk (k a) (k' b)) -> lk (abind x k) (abind y k').
Proof.
  intros H1 H2 s t H. unfold abind. specialize (H1 s t H).
  destruct (x s), (y t); try contradiction. destruct H1 as [H1 H3]. apply (H2 _ _ H1), H3.
Qed.
Lemma lk_ret {A} (a : A) : lk (aret a) (aret a).
Proof. intros s t H. split; [reflexivity|exact H]. Qed.
Lemma lk_panic {A} : @lk A apanic apanic.
Proof. intros s t H. exact I. Qed.
Ltac start := intros s t H; destruct H.
Ltac fin := repeat match goal with
  | |- arel (AOk _ _) (AOk _ _) => split; [reflexivity|constructor; assumption]
  | |- arel (AErr _ _ _) (AErr _ _ _) => split; [reflexivity|split; [reflexivity|constructor; assumption]]
  | |- arel APanic APanic => exact I
  | |- arel (if ?b then _ else _) _ => destruct b
  | |- arel (match ?b with _ => _ end) _ => destruct b
  end.
Lemma lk_error0 {A} e : @lk A (error_0 e) (error_0 e). Proof. start. cbv [error_0]. fin. Qed.
Lemma lk_error1 {A} e : @lk A (error_1 e) (error_1 e). Proof. start. cbv [error_1]. fin. Qed.
Lemma lk_errorf {A} e : @lk A (errorf e) (errorf e). Proof. start. cbv [errorf]. fin. Qed.
Lemma lk_lift {A} (r : res A) : lk (lift_1 r) (lift_1 r).
Proof. destruct r; [apply lk_ret|apply lk_error1|apply lk_panic]. Qed.
Lemma lk_push v : lk (push v) (push v).
Proof. start. cbv [push error_0 v_opts v_sp v_stack]. fin. Qed.
Lemma lk_push_unchecked v : lk (push_unchecked v) (push_unchecked v).
Proof. start. cbv [push_unchecked v_sp v_stack]. fin. Qed.
Lemma lk_push_many k : lk (push_many k) (push_many k).
Proof. start. cbv [push_many error_1 v_opts v_sp v_stack set_stack]. fin. Qed.
Lemma lk_slot i : lk (slot i) (slot i).
Proof. start. cbv [slot v_stack]. fin. Qed.
Lemma lk_set_slot i v : lk (set_slot i v) (set_slot i v).
Proof. start. cbv [set_slot v_stack]. fin. Qed.
Lemma lk_pop : lk pop pop.
Proof. start. cbv [pop v_sp set_stack slot v_stack]. fin. Qed.
Lemma lk_pop_many k : lk (pop_many k) (pop_many k).
Proof. start. cbv [pop_many v_sp]. fin. Qed.
Lemma lk_get {A} (p : vm D -> A) (q : vm E -> A) : (forall s t, alike s t -> p s = q t) -> lk (agets p) (agets q).
Proof. intros H s t A'. split; [apply H, A'|exact A']. Qed.
Lemma lk_mod p q : (forall s t, alike s t -> alike (p s) (q t)) -> lk (amod p) (amod q).
Proof. intros H s t A'. split; [reflexivity|apply H, A']. Qed.
Lemma lk_pop_swap_out : lk pop_swap_out pop_swap_out.
Proof.
  apply lk_bind; [apply lk_pop|intros v]. apply lk_bind; [apply lk_get; now intros s t []|intros k].
  apply lk_bind; [apply lk_set_slot|intros _; apply lk_ret].
Qed.
Lemma lk_pop_double : lk pop_double pop_double.
Proof. apply lk_bind; [apply lk_pop|intros v]. apply lk_bind; [apply lk_pop|intros w; apply lk_ret]. Qed.
Lemma lk_peekn k : lk (peekn k) (peekn k).
Proof. start. cbv [peekn v_sp slot v_stack]. fin. Qed.
Lemma lk_pop_peek : lk pop_peek pop_peek.
Proof. apply lk_bind; [apply lk_pop|intros v]. apply lk_bind; [apply lk_peekn|intros w; apply lk_ret]. Qed.
Lemma lk_swap : lk swap swap.
Proof. start. cbv [swap v_sp v_stack]. fin. Qed.
Lemma lk_constant i : lk (get_constant i) (get_constant i).
Proof. start. cbv [get_constant cur_chunk fr_chunk v_frame]. fin. Qed.
Lemma lk_global_name i : lk (global_name i) (global_name i).
Proof. apply lk_get. now intros s t []. Qed.
Lemma lk_up_get c : lk (up_get c) (up_get c).
Proof. start. cbv [up_get v_heap slot v_stack]. fin. Qed.
Lemma lk_up_set c v : lk (up_set c v) (up_set c v).
Proof. start. cbv [up_set v_heap set_slot v_stack v_sp]. fin. Qed.
Lemma lk_capture l : lk (capture_upvalue l) (capture_upvalue l).
Proof. start. cbv [capture_upvalue v_heap v_opens]. fin. Qed.
Lemma lk_close l : lk (close_upvalues l) (close_upvalues l).
Proof. start. cbv [close_upvalues v_stack v_heap v_opens]. fin. Qed.
Lemma lk_close_range k : forall l, lk (close_range l k) (close_range l k).
Proof. induction k; intros l; [apply lk_ret|]. apply lk_bind; [apply lk_close|intros _; apply IHk]. Qed.
Lemma lk_runtime h h' : same_host like h h' -> lk (has_runtime_exceeded h) (has_runtime_exceeded h').
Proof.
  intros HH. unfold has_runtime_exceeded. rewrite (sh_clock _ _ _ HH).
  apply lk_bind; [apply lk_get; now intros s t []|intros r].
  apply lk_bind; [apply lk_mod; intros s t []; constructor; assumption|intros _].
  apply lk_bind; [apply lk_get; now intros s t []|intros l].
  destruct (l <? h_clock h' r)%N; [apply lk_errorf|apply lk_ret].
Qed.
Lemma lk_pop_items k : lk (pop_items k) (pop_items k).
Proof.
  induction k; [apply lk_ret|]. apply lk_bind; [apply lk_pop|intros v].
  apply lk_bind; [apply IHk|intros r; apply lk_ret].
Qed.
Lemma lk_push_items l : lk (push_items l) (push_items l).
Proof. induction l; [apply lk_ret|]. apply lk_bind; [apply lk_push|intros _; apply IHl]. Qed.
Lemma lk_captures k : lk (read_captures k) (read_captures k).
Proof.
  induction k; [apply lk_ret|]. cbn [read_captures].
  apply (lk_bind2 (fun s t => v_frame s = v_frame t)); [intros s t H; split; [now destruct H|exact H]|].
  intros s t F. unfold cur_chunk, ip. rewrite F.
  destruct (bc_read_u8 (ck_ops (fr_chunk (v_frame t))) (f_ip (v_frame t))); try apply lk_panic.
  destruct (bc_read_u16 (ck_ops (fr_chunk (v_frame t))) (f_ip (v_frame t) + 1)); try apply lk_panic.
  apply lk_bind; [apply lk_mod; intros s' t' []; constructor; assumption|intros _].
  apply lk_bind; [|intros c; apply lk_bind; [apply IHk|intros r; apply lk_ret]].
  destruct (a =? 1)%N; [apply lk_capture|].
  destruct (nth_error (f_ups (v_frame t)) (N.to_nat a0)); [apply lk_ret|apply lk_panic].
Qed.
Lemma lk_jump off : lk (jump_forward off) (jump_forward off).
Proof. apply lk_mod. intros s t []. constructor; assumption. Qed.
Lemma lk_args k : lk (take_args k) (take_args k).
Proof. start. cbv [take_args v_sp v_stack error_0]. fin. Qed.
Lemma lk_answer {A} (p : D * res A) (q : E * res A) s t : same_answer like p q -> alike s t ->
  arel (lift_1 (snd p) (set_data (fst p) s)) (lift_1 (snd q) (set_data (fst q) t)).
Proof. intros [HD HV] H. rewrite HV. apply lk_lift. destruct H. constructor; assumption. Qed.
Lemma lk_builtin f g args : same_function like f g -> lk (run_builtin f args) (run_builtin g args).
Proof.
  intros HF s t H. unfold run_builtin.
  assert (A : same_answer like (f (v_data s) args (v_opts s)) (g (v_data t) args (v_opts t))).
  { destruct H. cbn. apply HF. assumption. }
  generalize (lk_answer _ _ s t A H). destruct (f _ _ _), (g _ _ _). exact (fun x => x).
Qed.
Lemma same_lookup l l' i : same_ids l l' ->
  match alookup N.eqb i l, alookup N.eqb i l' with
  | Some b, Some c => same_builtin like b c
  | None, None => True
  | _, _ => False
  end.
Proof.
  intros H. induction H as [|[a b] [a' b'] l l' [H1 H2] H IH]; [exact I|]. cbn in H1, H2 |- *. subst a'.
  destruct (i =? a)%N; [exact H2|exact IH].
Qed.

Context (m : mode) (h : host D) (h' : host E) (HH : same_host like h h').
Lemma lk_feq s t : alike s t -> feq_at h s = feq_at h' t.
Proof. intros []. unfold feq_at. cbn. now rewrite (sh_depth _ _ _ HH). Qed.
Ltac gets := apply lk_get; now intros s t [].
Ltac mods := apply lk_mod; intros s t []; constructor; assumption.

Lemma lk_enter b argc : lk (exec m h (IEnterContext b argc)) (exec m h' (IEnterContext b argc)).
Proof.
  cbn [exec].
  apply (lk_bind2 (fun p q => match p, q with Some b, Some c => same_builtin like b c | None, None => True | _, _ => False end)).
  - intros s t H. split; [|exact H]. destruct H. cbn. now apply same_lookup.
  - intros [p|] [q|] HS; try contradiction.
    + destruct HS as [f g HF|f x g y HF HX].
      * apply lk_bind; [apply lk_args|intros args]. apply lk_bind; [apply lk_ret|intros _].
        apply lk_bind; [apply lk_builtin, HF|intros r; apply lk_push].
      * apply lk_bind; [apply lk_args|intros args].
        apply lk_bind; [apply lk_mod; intros s t []; constructor; [assumption|assumption|constructor; assumption]|intros _].
        apply lk_bind; [apply lk_builtin, HF|intros r; apply lk_push].
    + apply lk_bind; [apply lk_global_name|intros n; apply lk_error1].
Qed.
Lemma lk_call_builtin b argc : lk (exec m h (ICallBuiltin b argc)) (exec m h' (ICallBuiltin b argc)).
Proof.
  cbn [exec].
  apply (lk_bind2 (fun p q => match p, q with Some b, Some c => same_builtin like b c | None, None => True | _, _ => False end)).
  - intros s t H. split; [|exact H]. destruct H. cbn. now apply same_lookup.
  - intros [p|] [q|] HS; try contradiction.
    + destruct HS as [f g HF|f x g y HF HX]; [|apply lk_error0].
      apply lk_bind; [apply lk_args|intros args].
      apply lk_bind; [apply lk_builtin, HF|intros r]. apply lk_bind; [apply lk_push|intros _; apply lk_runtime, HH].
    + apply lk_bind; [apply lk_global_name|intros n; apply lk_error1].
Qed.
Lemma lk_exit : lk (exec m h IExitContext) (exec m h' IExitContext).
Proof.
  cbn [exec]. apply (lk_bind2 (Forall2 (same_exit like))).
  - intros s t H. split; [|exact H]. destruct H. assumption.
  - intros x y [|f g x' y' HF HX]; [apply lk_ret|].
    apply lk_bind; [apply lk_mod; intros s t []; constructor; assumption|intros _].
    intros s t H. assert (A : same_answer like (f (v_data s)) (g (v_data t))) by (destruct H; apply HF; assumption).
    generalize (lk_answer _ _ s t A H). destruct (f _), (g _). exact (fun x => x).
Qed.
Lemma lk_call argc : lk (exec m h (ICallFunction argc)) (exec m h' (ICallFunction argc)).
Proof.
  cbn [exec]. apply lk_bind; [apply lk_peekn|intros v]. intros s t H.
  assert (EO : v_opts s = v_opts t) by now destruct H. assert (EF : v_frames s = v_frames t) by now destruct H.
  rewrite EO, EF. destruct (o_call_stack_size (v_opts t) <=? length (v_frames t)); [apply lk_error0, H|].
  destruct v; try (apply lk_error1, H).
  match goal with |- context [(argc =? ?x)%N] => destruct (argc =? x)%N end; [|apply lk_error0, H].
  split; [reflexivity|]. destruct H. constructor; try assumption. apply (sh_enter _ _ _ HH). assumption.
Qed.

Lemma lk_exec i : lk (exec m h i) (exec m h' i).
Proof.
  destruct i; try apply lk_enter; try apply lk_call_builtin; try apply lk_exit; try apply lk_call; cbn [exec].
  - apply lk_error1.
  - apply lk_panic.
  - apply lk_bind; [apply lk_pop|intros _; apply lk_ret].
  - apply lk_pop_many.
  - apply lk_swap.
  - apply lk_bind; [apply lk_swap|intros _]. apply lk_bind; [apply lk_pop|intros _; apply lk_ret].
  - apply lk_bind; [apply lk_constant|intros v; apply lk_push].
  - apply lk_bind; [gets|intros st]. apply lk_bind; [apply lk_slot|intros v; apply lk_push].
  - apply lk_bind; [apply lk_peekn|intros v]. apply lk_bind; [gets|intros st]. apply lk_set_slot.
  - apply lk_bind; [apply lk_pop|intros v]. mods.
  - apply lk_bind; [gets|intros [c|]]; [|apply lk_panic]. apply lk_bind; [apply lk_up_get|intros v; apply lk_push].
  - apply lk_bind; [apply lk_peekn|intros v]. apply lk_bind; [gets|intros [c|]]; [apply lk_up_set|apply lk_panic].
  - apply lk_bind; [gets|intros [v|]]; [apply lk_push|]. apply lk_bind; [apply lk_global_name|intros n; apply lk_error1].
  - apply lk_bind; [apply lk_peekn|intros v]. apply lk_bind; [gets|intros [g|]]; [mods|].
    apply lk_bind; [apply lk_global_name|intros n; apply lk_error1].
  - apply lk_bind; [apply lk_pop|intros v]. apply lk_mod. intros s t []. cbn [v_globals].
    destruct (alookup N.eqb i gl); constructor; assumption.
  - apply lk_bind; [gets|intros [|k]]; [apply lk_panic|].
    apply lk_bind; [apply lk_close|intros _]. apply lk_bind; [apply lk_pop|intros _; apply lk_ret].
  - apply lk_bind; [apply lk_constant|intros v]. destruct v; try apply lk_error0.
    match goal with f : mfn |- _ => destruct f end; [apply lk_push|apply lk_error0].
  - apply lk_bind; [apply lk_constant|intros v]. destruct v; try apply lk_error0.
    match goal with f : mfn |- _ => destruct f end; [|apply lk_error0].
    apply lk_bind; [apply lk_captures|intros u; apply lk_push].
  - apply lk_bind; [apply lk_pop_double|intros ab; apply lk_push_unchecked].
  - apply lk_bind; [apply lk_pop_items|intros l]. apply lk_bind; [gets|intros a].
    apply lk_bind; [apply lk_lift|intros v; apply lk_push].
  - apply lk_bind; [apply lk_pop_double|intros ab]. apply lk_bind; [apply lk_lift|intros v; apply lk_push].
  - apply lk_bind; [apply lk_pop_swap_out|intros v]. mods.
  - apply lk_bind; [gets|intros [|v r]]; [apply lk_error0|].
    apply lk_bind; [mods|intros _; apply lk_push].
  - apply lk_bind; [apply lk_peekn|intros v]. apply lk_bind; [apply lk_lift|intros [|]]; [apply lk_ret|apply lk_jump].
  - apply lk_bind; [apply lk_pop_peek|intros vc]. intros s t H. rewrite (lk_feq s t H).
    destruct (geqb (feq_at h' t) (fst vc) (snd vc)) as [[|]|e|]; [apply lk_ret, H|apply lk_jump, H|exact I|exact I].
  - apply lk_jump.
  - intros s t H. assert (EI : ip s = ip t) by now destruct H. rewrite EI.
    destruct (ip t <? N.to_nat off); [exact I|]. split; [reflexivity|]. destruct H. constructor; assumption.
  - apply lk_bind; [apply lk_pop_swap_out|intros v]. apply lk_bind; [apply lk_lift|intros l; apply lk_push_items].
  - apply lk_push.
  - apply lk_push_many.
  - apply lk_push.
  - apply lk_bind; [gets|intros sp]. destruct (sp <? 3); [apply lk_panic|].
    apply lk_bind; [apply lk_slot|intros v]. destruct v; try apply lk_error1.
    apply lk_bind; [apply lk_set_slot|intros _]. apply lk_bind; [apply lk_slot|intros it].
    apply lk_bind; [apply lk_lift|intros [v|]]; [apply lk_push|apply lk_jump].
  - apply lk_bind; [apply lk_pop|intros v]. apply lk_bind; [apply lk_pop|intros w].
    apply lk_bind; [apply lk_lift|intros r; apply lk_push].
  - apply lk_bind; [apply lk_pop|intros v]. destruct (unary_fn m mfi o); [|apply lk_panic].
    apply lk_bind; [apply lk_lift|intros ?; apply lk_push_unchecked].
  - apply lk_bind; [apply lk_pop_double|intros ab]. intros s t H.
    assert (EO : v_opts s = v_opts t) by now destruct H. rewrite (lk_feq s t H), EO, (sh_oracle _ _ _ HH).
    destruct (binary_fn m (h_oracle h') mfi (feq_at h' t) (o_string_max (v_opts t)) (o_array_max (v_opts t)) o); [|exact I].
    revert s t H EO. intros s t H _. apply (lk_bind (lift_1 (r (fst ab) (snd ab))) (lift_1 (r (fst ab) (snd ab)))); [apply lk_lift|intros w; apply lk_push_unchecked|exact H].
Qed.

Definition srel (p : sres D) (q : sres E) : Prop :=
  match p, q with
  | SNext s, SNext t => alike s t
  | SDone v s, SDone w t => v = w /\ alike s t
  | SErr e sp s, SErr e' sp' t => e = e' /\ sp = sp' /\ alike s t
  | SPanic, SPanic => True
  | _, _ => False
  end.
Lemma lk_return s t : alike s t -> srel (do_return m h s) (do_return m h' t).
Proof.
  intros H. unfold do_return. generalize (lk_pop s t H).
  destruct (pop s) as [v s1| |], (pop t) as [w t1| |]; cbn [arel]; try contradiction; try (intros HX; exact HX).
  intros [-> H1]. assert (EF : v_frame s1 = v_frame t1) by now destruct H1. assert (ES : v_sp s1 = v_sp t1) by now destruct H1.
  rewrite EF, ES. generalize (lk_close_range (v_sp t1 - f_st (v_frame t1)) (f_st (v_frame t1)) s1 t1 H1).
  destruct (close_range _ _ s1) as [u s2| |], (close_range _ _ t1) as [u' t2| |]; cbn [arel]; try contradiction; try (intros HX; exact HX).
  intros [_ H2]. assert (EF2 : v_frames s2 = v_frames t2) by now destruct H2. assert (ES2 : v_sp s2 = v_sp t2) by now destruct H2.
  rewrite EF2, ES2. destruct (v_frames t2) as [|fr rest].
  - assert (A : srel (SDone w (set_stack (v_stack s2) (f_st (v_frame s2)) s2)) (SDone w (set_stack (v_stack t2) (f_st (v_frame t2)) t2)))
      by (split; [reflexivity|destruct H2; constructor; assumption]).
    destruct m; [destruct (v_sp t2); [exact A|exact I]|exact A].
  - assert (A : alike (set_frames rest fr (set_stack (v_stack (set_data (h_leave h (v_data s2)) s2)) (f_st (v_frame (set_data (h_leave h (v_data s2)) s2))) (set_data (h_leave h (v_data s2)) s2)))
                      (set_frames rest fr (set_stack (v_stack (set_data (h_leave h' (v_data t2)) t2)) (f_st (v_frame (set_data (h_leave h' (v_data t2)) t2))) (set_data (h_leave h' (v_data t2)) t2)))).
    { destruct H2. constructor; try assumption. apply (sh_leave _ _ _ HH). assumption. }
    generalize (lk_push w _ _ A). cbv zeta.
    destruct (push w (set_frames rest fr _)) as [u1 s3| |] eqn:E1; destruct (push w (set_frames rest fr (set_stack (v_stack (set_data (h_leave h' (v_data t2)) t2)) _ _))) as [u2 t3| |] eqn:E2;
      cbn [arel]; try contradiction; try (intros HX; exact HX). intros [_ HX]; exact HX.
Qed.
Lemma lk_tick : lk (tick h) (tick h').
Proof.
  unfold tick. apply lk_bind; [gets|intros n]. destruct (64 <? n); [|mods].
  apply lk_bind; [apply lk_runtime, HH|intros _]. mods.
Qed.
Lemma lk_step s t : alike s t -> srel (step m h s) (step m h' t).
Proof.
  intros H0. unfold step. generalize (lk_tick s t H0).
  destruct (tick h s) as [u s1| |], (tick h' t) as [u' t1| |]; cbn [arel]; try contradiction; try (intros HX; exact HX).
  intros [_ H]. assert (EF : v_frame s1 = v_frame t1) by now destruct H.
  unfold cur_chunk, ip. rewrite EF.
  destruct (chunk_len (fr_chunk (v_frame t1)) <=? f_ip (v_frame t1)); [split; [reflexivity|split; [reflexivity|exact H]]|].
  destruct (decode (ck_ops (fr_chunk (v_frame t1))) (f_ip (v_frame t1))) as [[i ip']| |]; try exact I.
  assert (A : alike (set_ip ip' s1) (set_ip ip' t1)) by (destruct H; constructor; assumption).
  generalize (lk_exec i _ _ A). generalize (lk_return _ _ A).
  destruct i; try (intros HX _; exact HX); intros _;
    destruct (exec m h _ _), (exec m h' _ _); cbn [arel]; try contradiction; try (intros HX; exact HX); intros [_ HX]; exact HX.
Qed.
Definition rrel (p : rres D) (q : rres E) : Prop :=
  match p, q with
  | RDone v s, RDone w t => v = w /\ alike s t
  | RErr e sp s, RErr e' sp' t => e = e' /\ sp = sp' /\ alike s t
  | RPanic, RPanic => True
  | ROut s, ROut t => alike s t
  | _, _ => False
  end.
Lemma lk_loop k : forall s t, alike s t -> rrel (loop m h k s) (loop m h' k t).
Proof.
  induction k as [|k IH]; intros s t H; [exact H|]. cbn [loop]. generalize (lk_step s t H).
  destruct (step m h s), (step m h' t); cbn [srel]; try contradiction; try (intros HX; exact HX). apply IH.
Qed.
Lemma lk_run k s t : alike s t -> rrel (run m h k s) (run m h' k t).
Proof. intros H. apply lk_loop. destruct H. constructor; assumption. Qed.

(** ** What hosts do *)
Lemma same_insert l l' i b c : same_ids l l' -> same_builtin like b c -> same_ids (ainsert i b l) (ainsert i c l').
Proof.
  intros H HB. constructor; [split; [reflexivity|exact HB]|exact H].
Qed.
Lemma alike_builtins l l' : same_builtins like l l' -> forall s t, alike s t -> alike (add_builtins_list l s) (add_builtins_list l' t).
Proof.
  intros H. induction H as [|[n b] [n' b'] l l' [H1 H2] H IH]; intros s t A; [exact A|]. cbn in H1, H2. subst n'.
  cbn [add_builtins_list]. assert (EG : v_gsyms s = v_gsyms t) by now destruct A. rewrite EG.
  destruct (pool_add seqb (v_gsyms t) n) as [p i]. apply IH. destruct A. constructor; try assumption.
  apply same_insert; assumption.
Qed.
Lemma alike_new d e sc o : like d e -> alike (vm_new d sc o) (vm_new e sc o).
Proof. intros H. constructor; [exact H|constructor|constructor]. Qed.
Lemma alike_new_with d e sc o bs bs' : like d e -> Forall2 (same_builtins like) bs bs' -> alike (vm_new_with d sc o bs) (vm_new_with e sc o bs').
Proof.
  intros H HB. unfold vm_new_with. revert HB. generalize (alike_new d e sc o H). generalize (vm_new d sc o) (vm_new e sc o). intros s t A HB.
  revert s t A. induction HB as [|l l' bs bs' HL HB IH]; intros s t A; [exact A|]. cbn [fold_left]. apply IH, alike_builtins; assumption.
Qed.
Lemma alike_use u s t : alike s t -> fst (use_one m h u s) = fst (use_one m h' u t) /\
  match snd (use_one m h u s), snd (use_one m h' u t) with
  | Some s', Some t' => alike s' t'
  | None, None => True
  | _, _ => False
  end.
Proof.
  intros A. destruct u as [k|n v|n v|sc]; cbn [use_one].
  - generalize (lk_run k s t A). destruct (run m h k s), (run m h' k t); cbn [rrel]; try contradiction; cbn [fst snd].
    + intros [-> HA]. split; [reflexivity|exact HA].
    + intros (-> & -> & HA). split; [|exact HA]. destruct (alike_machine _ _ HA) as (_ & -> & _). reflexivity.
    + intros _. split; [reflexivity|exact I].
    + intros _. split; [reflexivity|exact I].
  - split; [reflexivity|]. cbn [snd]. unfold insert_global. assert (EG : v_gsyms s = v_gsyms t) by now destruct A. rewrite EG.
    destruct (pool_add seqb (v_gsyms t) n) as [p i]. destruct A. constructor; assumption.
  - unfold set_external. assert (EG : v_gsyms s = v_gsyms t) by now destruct A. assert (EX : v_externals s = v_externals t) by now destruct A.
    rewrite EG, EX. destruct (pool_id seqb (v_gsyms t) n) as [id|]; [|split; [reflexivity|exact A]].
    destruct (existsb (N.eqb id) (v_externals t)); [|split; [reflexivity|exact A]]. split; [reflexivity|]. destruct A. constructor; assumption.
  - split; [reflexivity|]. destruct A. constructor; [assumption|assumption|constructor].
Qed.
Lemma alike_uses us : forall s t, alike s t -> fst (use_all m h us s) = fst (use_all m h' us t) /\
  match snd (use_all m h us s), snd (use_all m h' us t) with
  | Some s', Some t' => alike s' t'
  | None, None => True
  | _, _ => False
  end.
Proof.
  induction us as [|u us IH]; intros s t A; [split; [reflexivity|exact A]|]. cbn [use_all].
  generalize (alike_use u s t A). destruct (use_one m h u s) as [x [s1|]], (use_one m h' u t) as [y [t1|]]; cbn [fst snd]; intros [-> HA]; try contradiction.
  - generalize (IH s1 t1 HA). destruct (use_all m h us s1), (use_all m h' us t1). cbn [fst snd]. intros [-> HB]. split; [reflexivity|exact HB].
  - split; [reflexivity|exact I].
Qed.
Theorem uses_same us d e sc o bs bs' : like d e -> Forall2 (same_builtins like) bs bs' ->
  fst (use_all m h us (vm_new_with d sc o bs)) = fst (use_all m h' us (vm_new_with e sc o bs')) /\
  match snd (use_all m h us (vm_new_with d sc o bs)), snd (use_all m h' us (vm_new_with e sc o bs')) with
  | Some s, Some t => same_machine like s t
  | None, None => True
  | _, _ => False
  end.
Proof using HH.
  intros H HB. destruct (alike_uses us _ _ (alike_new_with d e sc o bs bs' H HB)) as [H1 H2]. split; [exact H1|].
  destruct (snd (use_all m h us _)), (snd (use_all m h' us _)); try exact H2. apply alike_machine, H2.
Qed.
End Data.
