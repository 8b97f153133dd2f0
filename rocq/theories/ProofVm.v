(** Invariants of the virtual machine, for arbitrary (also ill-formed) code. *)
From Verif Require Import Base RleVec Pool Vecc Float NumText Bytecode Chunk Value Ast Arith VmOps
                          Compiler Vm.

Section Inv.
Context {D : Type} (m : mode) (hst : host D) (I J : vm D -> Prop).
Notation vm := (vm D).

Definition keeps {A} (x : act D A) : Prop :=
  forall s, I s -> match x s with AOk _ s' => I s' | AErr _ _ s' => J s' | APanic => True end.

Context (HIJ : forall s, I s -> J s).

Lemma keeps_bind {A B} (x : act D A) (k : A -> act D B) :
  keeps x -> (forall a, keeps (k a)) -> keeps (abind x k).
Proof.
  intros Hx Hk s Hs; unfold abind. specialize (Hx s Hs).
  destruct (x s) as [a s'| |]; auto. apply Hk; auto.
Qed.
Lemma keeps_ret {A} (a : A) : keeps (aret a).
Proof. intros s Hs; exact Hs. Qed.
Lemma keeps_gets {A} (f : vm -> A) : keeps (agets f).
Proof. intros s Hs; exact Hs. Qed.
Lemma keeps_panic {A} : keeps (A := A) apanic.
Proof. intros s Hs; exact Logic.I. Qed.
Lemma keeps_err0 {A} e : keeps (A := A) (error_0 e).
Proof. intros s Hs; apply HIJ; exact Hs. Qed.
Lemma keeps_err1 {A} e : keeps (A := A) (error_1 e).
Proof. intros s Hs; apply HIJ; exact Hs. Qed.
Lemma keeps_errf {A} e : keeps (A := A) (errorf e).
Proof. intros s Hs; apply HIJ; exact Hs. Qed.
Lemma keeps_lift {A} (r : res A) : keeps (lift_1 r).
Proof. destruct r; [apply keeps_ret | apply keeps_err1 | apply keeps_panic]. Qed.
Lemma keeps_mod f : (forall s, I s -> I (f s)) -> keeps (amod f).
Proof. intros H s Hs; apply H; exact Hs. Qed.

Ltac triv := first [exact Logic.I | apply HIJ; assumption | (cbn; apply HIJ; assumption)].

(** How the captured variables can change. *)
Inductive cell_change (s : vm) : list nat -> list upvalue -> Prop :=
| cc_set c v w : nth_error (v_heap s) c = Some (Closed v) ->
    cell_change s (v_opens s) (upd c (Closed w) (v_heap s))
| cc_new l : cell_change s (v_opens s ++ [length (v_heap s)]) (v_heap s ++ [Open l])
| cc_close l v : cell_change s (filter (is_open (close_cells l v (v_opens s) (v_heap s))) (v_opens s))
    (close_cells l v (v_opens s) (v_heap s)).

(** What an invariant must tolerate. *)
Record stable : Prop := {
  st_len : forall s, I s -> length (v_stack s) = o_stack_size (v_opts s);
  st_sp : forall s, I s -> v_sp s <= o_stack_size (v_opts s);
  st_stack : forall s st sp, I s -> length st = length (v_stack s) ->
             sp <= o_stack_size (v_opts s) -> I (set_stack st sp s);
  st_blocks : forall s b, I s -> I (set_blocks b s);
  st_globals : forall s b, I s -> I (set_globals b s);
  st_cells : forall s o h, I s -> cell_change s o h -> I (set_cells o h s);
  st_ip : forall s i, I s -> I (set_ip i s);
  st_count : forall s r n, I s -> I (set_count r n s);
  st_exits_pop : forall s x r, I s -> v_exits s = x :: r ->
             I (set_data (fst (x (v_data s))) (set_exits r s));
  st_builtin : forall s b f args, I s -> alookup N.eqb b (v_builtins s) = Some (BFn f) ->
             I (set_data (fst (f (v_data s) args (v_opts s))) s);
  st_context : forall s b e x args, I s -> alookup N.eqb b (v_builtins s) = Some (BContext e x) ->
             I (set_data (fst (e (v_data s) args (v_opts s))) (set_exits (x :: v_exits s) s));
  st_call : forall s f ups n, I s -> length (v_frames s) < o_call_stack_size (v_opts s) ->
             I (set_data (h_enter hst (v_data s))
                  (set_frames (v_frame s :: v_frames s) (mkFrame f ups 0 n) s));
  st_err_sp : forall s sp, I s -> J (set_stack (v_stack s) sp s);
  st_return_err : forall s fr rest st, I s -> v_frames s = fr :: rest ->
             J (set_frames rest fr
                  (set_stack (v_stack s) st (set_data (h_leave hst (v_data s)) s)));
  st_return : forall s fr rest st, I s -> v_frames s = fr :: rest -> st < o_stack_size (v_opts s) ->
             I (set_frames rest fr
                  (set_stack (v_stack s) st (set_data (h_leave hst (v_data s)) s)))
}.
Context (H : stable).

Lemma keeps_push v : keeps (push v).
Proof.
  intros s Hs; unfold push. destruct (_ <=? _) eqn:E1; [triv|].
  destruct (_ <? _) eqn:E2; [|triv].
  apply Nat.leb_gt in E1. apply (st_stack H); auto. apply upd_length.
Qed.
Lemma keeps_push_unchecked v : keeps (push_unchecked v).
Proof.
  intros s Hs; unfold push_unchecked. destruct (_ <? _) eqn:E2; [|triv].
  apply Nat.ltb_lt in E2. rewrite (st_len H s Hs) in E2.
  apply (st_stack H); auto. apply upd_length.
Qed.
Lemma keeps_push_many n : keeps (push_many n).
Proof.
  intros s Hs; unfold push_many. destruct (_ <=? _) eqn:E1.
  - cbn. apply (st_err_sp H); auto.
  - apply Nat.leb_gt in E1. cbn [v_sp set_stack] in E1. apply (st_stack H); auto. lia.
Qed.
Lemma keeps_slot i : keeps (slot i).
Proof. intros s Hs; unfold slot. destruct (nth_error _ _); auto. Qed.
Lemma keeps_set_slot i v : keeps (set_slot i v).
Proof.
  intros s Hs; unfold set_slot. destruct (_ <? _); auto. apply (st_stack H); auto.
  apply upd_length. apply (st_sp H); auto.
Qed.
Lemma keeps_pop : keeps pop.
Proof.
  intros s Hs; unfold pop. destruct (v_sp s) as [|k] eqn:E; auto.
  pose proof (st_sp H s Hs) as Hsp; rewrite E in Hsp.
  apply keeps_slot. apply (st_stack H); auto; lia.
Qed.
Lemma keeps_pop_many n : keeps (pop_many n).
Proof.
  intros s Hs; unfold pop_many. destruct (_ <? _); auto.
  pose proof (st_sp H s Hs). apply (st_stack H); auto; lia.
Qed.
Lemma keeps_pop_swap_out : keeps pop_swap_out.
Proof.
  unfold pop_swap_out. apply keeps_bind; [apply keeps_pop|]; intros v.
  apply keeps_bind; [apply keeps_gets|]; intros k.
  apply keeps_bind; [apply keeps_set_slot|]; intros _. apply keeps_ret.
Qed.
Lemma keeps_pop_double : keeps pop_double.
Proof.
  unfold pop_double. repeat (apply keeps_bind; [apply keeps_pop|]; intros ?). apply keeps_ret.
Qed.
Lemma keeps_peekn n : keeps (peekn n).
Proof. intros s Hs; unfold peekn. destruct (_ <? _); auto. apply keeps_slot; auto. Qed.
Lemma keeps_pop_peek : keeps pop_peek.
Proof.
  unfold pop_peek. apply keeps_bind; [apply keeps_pop|]; intros ?.
  apply keeps_bind; [apply keeps_peekn|]; intros ?. apply keeps_ret.
Qed.
Lemma keeps_swap : keeps swap.
Proof.
  intros s Hs; unfold swap. destruct (v_sp s) as [|[|k]] eqn:E; auto.
  destruct (nth_error (v_stack s) k), (nth_error (v_stack s) (S k)); auto.
  pose proof (st_sp H s Hs). apply (st_stack H); auto; [rewrite !upd_length; auto | lia].
Qed.
Lemma keeps_get_constant i : keeps (get_constant i).
Proof. intros s Hs; unfold get_constant. destruct (chunk_get_constant _ _); auto. Qed.
Lemma keeps_up_get c : keeps (up_get c).
Proof.
  intros s Hs; unfold up_get. destruct (nth_error _ _) as [[]|]; auto. apply keeps_slot; auto.
Qed.
Lemma keeps_up_set c v : keeps (up_set c v).
Proof.
  intros s Hs; unfold up_set. destruct (nth_error _ _) as [[]|] eqn:E; auto.
  apply keeps_set_slot; auto. apply (st_cells H); auto. eapply cc_set; eauto.
Qed.
Lemma keeps_capture l : keeps (capture_upvalue l).
Proof.
  intros s Hs; unfold capture_upvalue. destruct (find _ _); auto. apply (st_cells H); auto. constructor.
Qed.
Lemma keeps_close l : keeps (close_upvalues l).
Proof.
  intros s Hs; unfold close_upvalues. destruct (nth_error _ _); auto. apply (st_cells H); auto. constructor.
Qed.
Lemma keeps_close_range n : forall l, keeps (close_range l n).
Proof.
  induction n as [|n IH]; intros l; cbn [close_range]; [apply keeps_ret|].
  apply keeps_bind; [apply keeps_close | intros; apply IH].
Qed.
Lemma keeps_runtime : keeps (has_runtime_exceeded hst).
Proof.
  unfold has_runtime_exceeded. apply keeps_bind; [apply keeps_gets|]; intros r.
  apply keeps_bind; [apply keeps_mod; intros; apply (st_count H); auto|]; intros _.
  apply keeps_bind; [apply keeps_gets|]; intros lim.
  destruct (_ <? _)%N; [apply keeps_errf | apply keeps_ret].
Qed.
Lemma keeps_pop_items n : keeps (pop_items n).
Proof.
  induction n as [|n IH]; cbn [pop_items]; [apply keeps_ret|].
  apply keeps_bind; [apply keeps_pop|]; intros v.
  apply keeps_bind; [apply IH|]; intros r. apply keeps_ret.
Qed.
Lemma keeps_push_items l : keeps (push_items l).
Proof.
  induction l as [|v l IH]; cbn [push_items]; [apply keeps_ret|].
  apply keeps_bind; [apply keeps_push | intros; apply IH].
Qed.
Lemma keeps_read_captures n : keeps (read_captures n).
Proof.
  induction n as [|n IH]; cbn [read_captures]; [apply keeps_ret|].
  apply keeps_bind; [apply keeps_gets|]; intros s.
  destruct (bc_read_u8 _ _); try apply keeps_panic.
  destruct (bc_read_u16 _ _); try apply keeps_panic.
  apply keeps_bind; [apply keeps_mod; intros; apply (st_ip H); auto|]; intros _.
  apply keeps_bind.
  { destruct (_ =? _)%N; [apply keeps_capture|].
    destruct (nth_error _ _); [apply keeps_ret | apply keeps_panic]. }
  intros c. apply keeps_bind; [apply IH|]; intros r. apply keeps_ret.
Qed.
Lemma keeps_jump off : keeps (jump_forward off).
Proof. apply keeps_mod; intros; apply (st_ip H); auto. Qed.
Lemma keeps_take_args n : keeps (take_args n).
Proof.
  intros s Hs; unfold take_args. destruct (_ <? _); [triv|].
  destruct (_ <? _); [triv|]. pose proof (st_sp H s Hs). apply (st_stack H); auto; lia.
Qed.

Lemma take_args_builtins n (s : vm) args s' :
  take_args n s = AOk args s' -> v_builtins s' = v_builtins s /\ v_opts s' = v_opts s.
Proof.
  unfold take_args. destruct (_ <? _); [discriminate|]. destruct (_ <? _); [discriminate|].
  intros [= <- <-]; auto.
Qed.

Lemma lift_some {A} (r : res A) (s : vm) a s' : lift_1 r s = AOk a s' -> s' = s.
Proof. destruct r; cbn; try discriminate. intros [= _ ->]; auto. Qed.

Lemma lift_err {A} (r : res A) (s : vm) e sp s' : lift_1 r s = AErr e sp s' -> s' = s.
Proof. destruct r; cbn; try discriminate. intros [= _ _ ->]; auto. Qed.

Ltac kp := repeat first
  [ apply keeps_runtime | apply keeps_pop_swap_out | apply keeps_pop_double | apply keeps_pop_peek
  | apply keeps_bind; [|intros ?]
  | apply keeps_ret | apply keeps_gets | apply keeps_panic | apply keeps_err0 | apply keeps_err1
  | apply keeps_lift | apply keeps_push | apply keeps_push_unchecked | apply keeps_push_many
  | apply keeps_slot | apply keeps_set_slot | apply keeps_pop | apply keeps_pop_many
  | apply keeps_pop_swap_out | apply keeps_pop_double | apply keeps_peekn | apply keeps_pop_peek
  | apply keeps_swap | apply keeps_get_constant | apply keeps_up_get | apply keeps_up_set
  | apply keeps_capture | apply keeps_close | apply keeps_runtime | apply keeps_pop_items
  | apply keeps_push_items | apply keeps_read_captures | apply keeps_jump | apply keeps_take_args ].

Lemma keeps_exec i : keeps (exec m hst i).
Proof.
  destruct i; cbn [exec]; try (kp; fail).
  - (* DefineGlobal *) kp. apply keeps_mod; intros; apply (st_globals H); auto.
  - (* LoadUpvalue *) kp. destruct a; kp.
  - (* SetUpvalue *) kp. destruct a0; kp.
  - (* LoadGlobal *) kp. destruct a; kp.
  - (* SetGlobal *) kp. destruct a0; kp. apply keeps_mod; intros; apply (st_globals H); auto.
  - kp. apply keeps_mod; intros s Hs. destruct (alookup _ _ _); auto. apply (st_globals H); auto.
  - (* CloseUpvalue *) kp. destruct a; kp.
  - (* CreateFunction *) kp. destruct a as [| | | | | | | | | | |[]]; kp.
  - kp. destruct a as [| | | | | | | | | | |[]]; kp.
  - (* CallFunction *)
    kp. intros s Hs. destruct (_ <=? _) eqn:E; [triv|]. apply Nat.leb_gt in E.
    destruct a; try triv. destruct (_ =? _)%N; [|triv].
    apply (st_call H); auto.
  - (* CallBuiltin *)
    intros s Hs. unfold abind at 1, agets. destruct (alookup _ _ _) as [[f|e x]|] eqn:E.
    + unfold abind at 1. pose proof (keeps_take_args (N.to_nat argc) s Hs) as Hk.
      destruct (take_args _ _) as [args s1| |] eqn:Et; auto.
      apply take_args_builtins in Et. destruct Et as [Eb Eo].
      unfold abind at 1, run_builtin.
      pose proof (st_builtin H s1 b f args Hk ltac:(congruence)) as Hb.
      destruct (f _ _ _) as [d r]. cbn [fst] in Hb.
      destruct (lift_1 r (set_data d s1)) as [v s2|ee esp s2|] eqn:El; [|apply lift_err in El; subst s2; auto|exact Logic.I].
      apply lift_some in El; subst s2.
      revert Hb. generalize (set_data d s1). intros s2 Hs2. revert s2 Hs2.
      change (keeps (abind (push v) (fun _ => has_runtime_exceeded hst))). kp.
    + triv.
    + triv.
  - (* EnterContext *)
    intros s Hs. unfold abind at 1, agets. destruct (alookup _ _ _) as [[f|e x]|] eqn:E.
    + unfold abind at 1. pose proof (keeps_take_args (N.to_nat argc) s Hs) as Hk.
      destruct (take_args _ _) as [args s1| |] eqn:Et; auto.
      apply take_args_builtins in Et. destruct Et as [Eb Eo].
      unfold abind at 1, aret. unfold abind, run_builtin.
      pose proof (st_builtin H s1 b f args Hk ltac:(congruence)) as Hb.
      destruct (f _ _ _) as [d r]. cbn [fst] in Hb.
      destruct (lift_1 r (set_data d s1)) as [v s2|ee esp s2|] eqn:El; [|apply lift_err in El; subst s2; auto|exact Logic.I].
      apply lift_some in El; subst s2. apply keeps_push; auto.
    + unfold abind at 1. pose proof (keeps_take_args (N.to_nat argc) s Hs) as Hk.
      destruct (take_args _ _) as [args s1| |] eqn:Et; auto.
      apply take_args_builtins in Et. destruct Et as [Eb Eo].
      unfold abind at 1, amod. unfold abind, run_builtin.
      pose proof (st_context H s1 b e x args Hk ltac:(congruence)) as Hb.
      cbn [v_data v_opts set_exits]. destruct (e _ _ _) as [d r]. cbn [fst] in Hb.
      destruct (lift_1 r _) as [v s2|ee esp s2|] eqn:El; [|apply lift_err in El; subst s2; auto|exact Logic.I].
      apply lift_some in El; subst s2. apply keeps_push; auto.
    + triv.
  - (* ExitContext *)
    intros s Hs. unfold abind at 1, agets. destruct (v_exits s) as [|x rest] eqn:E; [exact Hs|].
    unfold abind, amod. cbn [v_data set_exits].
    pose proof (st_exits_pop H s x rest Hs E) as Hx. destruct (x (v_data s)) as [d r].
    cbn [fst] in Hx. destruct (lift_1 r _) as [v s2|ee esp s2|] eqn:El; [|apply lift_err in El; subst s2; auto|exact Logic.I].
    apply lift_some in El; subst s2. auto.
  - (* BlockResult *) kp. apply keeps_mod; intros; apply (st_blocks H); auto.
  - kp. destruct a; kp. apply keeps_mod; intros; apply (st_blocks H); auto.
  - (* JumpIfFalse *) kp. destruct a0; kp.
  - kp. intros s Hs. destruct (geqb _ _ _) as [[]| |]; auto. apply keeps_jump; auto.
  - (* JumpBackward *) intros s Hs. destruct (_ <? _); auto. apply (st_ip H); auto.
  - (* IterNext *)
    kp. destruct (_ <? _); kp. destruct a0; kp. destruct a2; kp.
  - (* Unary *) kp. destruct (unary_fn _ _ _); kp.
  - kp. intros s Hs. destruct (binary_fn _ _ _ _ _ _ _); auto.
    revert s Hs. match goal with |- context [abind ?x ?k] => change (keeps (abind x k)) end. kp.
Qed.

Lemma inv_return s : I s ->
  match do_return m hst s with
  | SNext s' => I s'
  | SDone _ s' => v_frames s' = [] /\
                  exists s0, I s0 /\ s' = set_stack (v_stack s0) (f_st (v_frame s0)) s0
  | SErr _ _ s' => J s'
  | SPanic => True
  end.
Proof.
  intros Hs. unfold do_return. pose proof (keeps_pop s Hs) as H1.
  destruct (pop s) as [v s1| |]; auto.
  pose proof (keeps_close_range (v_sp s1 - f_st (v_frame s1)) (f_st (v_frame s1)) s1 H1) as H2.
  destruct (close_range _ _ s1) as [u s2| |]; auto.
  destruct (v_frames s2) as [|fr rest] eqn:Ef.
  - assert (Hd : v_frames s2 = [] /\ exists s0, I s0 /\
              set_stack (v_stack s2) (f_st (v_frame s2)) s2
              = set_stack (v_stack s0) (f_st (v_frame s0)) s0) by eauto.
    destruct m, (v_sp s2); auto.
  - cbn [v_frame v_stack v_data set_data].
    unfold push. cbn [v_opts v_sp v_stack set_frames set_stack set_data].
    destruct (_ <=? _) eqn:E1.
    { cbn. apply (st_return_err H); auto. }
    destruct (_ <? _) eqn:E2; [|exact Logic.I].
    apply Nat.leb_gt in E1.
    pose proof (st_return H s2 fr rest (f_st (v_frame s2)) H2 Ef E1) as H3.
    apply (st_stack H) with (s := set_frames rest fr (set_stack (v_stack s2) (f_st (v_frame s2))
      (set_data (h_leave hst (v_data s2)) s2))); auto.
    cbn; apply upd_length.
Qed.

Lemma keeps_tick : keeps (tick hst).
Proof.
  unfold tick. apply keeps_bind; [apply keeps_gets|]; intros n. destruct (_ <? _).
  - apply keeps_bind; [apply keeps_runtime|]; intros _.
    apply keeps_mod; intros; apply (st_count H); auto.
  - apply keeps_mod; intros; apply (st_count H); auto.
Qed.

Lemma inv_step s : I s ->
  match step m hst s with
  | SNext s' => I s'
  | SDone _ s' => v_frames s' = [] /\
                  exists s0, I s0 /\ s' = set_stack (v_stack s0) (f_st (v_frame s0)) s0
  | SErr _ _ s' => J s'
  | SPanic => True
  end.
Proof.
  intros Hs. unfold step.
  pose proof (keeps_tick s Hs) as Hk. destruct (tick hst s) as [u s1| |]; auto.
  destruct (_ <=? _); auto. destruct (decode _ _) as [[i ip']| |]; auto.
  pose proof (st_ip H s1 ip' Hk) as H1.
  assert (He : match (match exec m hst i (set_ip ip' s1) with
                   | AOk _ s' => SNext s'
                   | AErr e sp s' => SErr e sp s'
                   | APanic => SPanic
                   end) with
               | SNext s' => I s'
               | SDone _ s' => v_frames s' = [] /\
                  exists s0, I s0 /\ s' = set_stack (v_stack s0) (f_st (v_frame s0)) s0
               | SErr _ _ s' => J s'
               | SPanic => True
               end).
  { pose proof (keeps_exec i _ H1) as H2. destruct (exec _ _ _ _); auto. }
  destruct i; try exact He. apply inv_return; auto.
Qed.

Lemma inv_reach s s' : I s -> reach m hst s s' -> I s'.
Proof.
  intros Hs Hr. induction Hr as [|s1 s2 Hr IH E]; auto.
  pose proof (inv_step s1 IH) as H1. rewrite E in H1. auto.
Qed.

End Inv.
