(** Proofs about globals (C17) and about runs inside the runtime limit (C06). *)
From Verif Require Import Base RleVec Pool Vecc Float NumText Bytecode Chunk Value Ast Arith VmOps
                          Compiler Vm SpecVm ProofVm ProofVm2.

Definition calm {A} (r : res A) : Prop := match r with Err e => ~ is_limit e | _ => True end.

Lemma nl e : (match e with ERuntimeLimit _ => False | _ => True end) -> ~ is_limit e.
Proof. intros He [l ->]; exact He. Qed.

Lemma calm_bind {A B} (r : res A) (k : A -> res B) :
  calm r -> (forall a, calm (k a)) -> calm (rbind r k).
Proof. destruct r; cbn; auto. Qed.

Ltac calm_tac :=
  repeat match goal with
         | |- True => exact Logic.I
         | |- ~ is_limit _ => apply nl; exact Logic.I
         | |- calm (Err _) => apply nl; exact Logic.I
         | |- calm (Ok _) => exact Logic.I
         | |- calm Panic => exact Logic.I
         | |- calm (ov64 _ _) => unfold ov64
         | |- calm (u8_sat_div _ _) => unfold u8_sat_div
         | |- calm (u8_avg _ _ _) => unfold u8_avg
         | |- calm (shift_amount _ _) => unfold shift_amount
         | |- calm (i64_div _ _) => unfold i64_div
         | |- calm (i64_rem _ _) => unfold i64_rem
         | |- calm (unsup2 _ _ _ _) => unfold unsup2
         | |- calm (str_concat _ _ _) => unfold str_concat
         | |- calm (rbind _ _) => apply calm_bind; [|intros ?]
         | |- calm (match ?x with _ => _ end) => destruct x
         | |- calm (if ?x then _ else _) => destruct x
         end.

Lemma calm_truthy (v : value) : calm (is_truthy mfi v).
Proof. destruct v; cbn; calm_tac. Qed.
Lemma calm_index m (a b : value) : calm (v_index m mfi a b).
Proof.
  assert (Hf : forall i n, calm (fix_index m i n)) by (intros; unfold fix_index; calm_tac).
  assert (Hr : forall A (l : list A) i, calm (rnth l i)) by (intros; unfold rnth; calm_tac).
  destruct a; try (cbn; calm_tac; fail).
  destruct b; unfold v_index; calm_tac; auto.
Qed.
Lemma calm_array k l : calm (v_array (Fn := mfn) k l).
Proof.
  unfold v_array. apply calm_bind; [|intros; exact Logic.I]. generalize (vecc_new (T := value) k).
  induction l as [|x l IH]; intros v; cbn [push_all]; [exact Logic.I|].
  assert (Hp : calm (snd (vecc_push get_size v x))).
  { unfold vecc_push. destruct (_ <? _)%N; cbn; calm_tac. }
  destruct (vecc_push get_size v x) as [v' [u|e|]]; auto.
Qed.
Lemma calm_range a b : calm (v_range (Fn := mfn) mfi a b).
Proof. destruct a; cbn; calm_tac. Qed.
Lemma calm_unpack n v : calm (v_unpack (Fn := mfn) mfi n v).
Proof. destruct v; cbn; calm_tac. Qed.
Lemma calm_iter m i v : calm (v_iter (Fn := mfn) m mfi i v).
Proof.
  destruct v; unfold v_iter; calm_tac.
Qed.

Lemma calm_ov64 m z : calm (ov64 m z).
Proof. unfold ov64. calm_tac. Qed.
Lemma calm_unary m o (v : value) :
  match unary_fn m mfi o with Some f => calm (f v) | None => True end.
Proof.
  destruct o; cbn [unary_fn]; try exact Logic.I;
    destruct v; unfold v_not, v_negate, v_bitnot; calm_tac.
Qed.
Lemma calm_geqb (feq : mfn -> mfn -> res bool) : (forall f g, calm (feq f g)) ->
  forall a b, calm (geqb feq a b).
Proof.
  intros Hf a. induction a using gvalue_rect'; intros w; destruct w; cbn [geqb]; try exact Logic.I.
  - destruct (length l =? length data); [|exact Logic.I].
    revert data. induction H as [|x l Hx Hl IH]; intros [|y data]; try exact Logic.I.
    apply calm_bind; auto. intros [|]; [apply IH|exact Logic.I].
  - apply calm_bind; auto. intros [|]; auto. exact Logic.I.
  - auto.
Qed.
Lemma calm_fn_eq k : forall h f g, calm (fn_eq k h f g).
Proof.
  induction k as [|k IH]; intros h f g; cbn [fn_eq]; [exact Logic.I|].
  destruct f, g; try exact Logic.I. destruct (negb _); [exact Logic.I|].
  destruct (negb _); [exact Logic.I|]. revert ups0.
  induction ups as [|u us IHu]; intros [|w ws]; try exact Logic.I. cbn [up_list_eq].
  destruct (nth_error h u) as [[|]|], (nth_error h w) as [[|]|]; try exact Logic.I.
  - destruct (_ =? _); [apply IHu|exact Logic.I].
  - apply calm_bind; [apply calm_geqb; intros; apply IH|].
    intros [|]; [apply IHu|exact Logic.I].
Qed.
Lemma calm_binary m o op feq smax amax (a b : value) : (forall f g, calm (feq f g)) ->
  match binary_fn m o mfi feq smax amax op with Some f => calm (f a b) | None => True end.
Proof.
  intros Hf. destruct op; cbn [binary_fn]; try exact Logic.I.
  - unfold v_add. destruct a, b; calm_tac.
  - unfold v_subtract. destruct a, b; calm_tac.
  - unfold v_multiply. destruct a, b; calm_tac.
  - unfold v_divide. destruct (is_zero b); [calm_tac|]. destruct a, b; calm_tac.
  - unfold v_modulo. destruct (is_zero b); [calm_tac|]. destruct a, b; calm_tac.
  - unfold v_power. destruct a, b; calm_tac.
  - unfold v_equal. apply calm_bind; [apply calm_geqb; auto | intros; exact Logic.I].
  - unfold v_not_equal. apply calm_bind; [apply calm_geqb; auto | intros; exact Logic.I].
  - unfold v_lt, v_cmp. destruct a, b; calm_tac.
  - unfold v_gt, v_cmp. destruct a, b; calm_tac.
  - unfold v_le, v_cmp. destruct a, b; calm_tac.
  - unfold v_ge, v_cmp. destruct a, b; calm_tac.
  - unfold v_and. destruct a, b; calm_tac.
  - unfold v_or. destruct a, b; calm_tac.
  - assert (He : forall l v, calm (snd (vecc_extend (T := value) get_size v l))).
    { induction l as [|x l IH]; intros v; cbn [vecc_extend]; [exact Logic.I|].
      destruct (_ <? _)%N; [cbn; calm_tac|apply IH]. }
    unfold v_join. destruct a, b; try (calm_tac; fail).
    destruct (_ <? _)%N; [calm_tac|].
    specialize (He data0 (arr_vecc data size max)).
    destruct (vecc_extend _ _ _) as [v [u|e|]]; auto.
  - unfold v_bitand, v_int2. destruct a, b; calm_tac.
  - unfold v_bitor, v_int2. destruct a, b; calm_tac.
  - unfold v_bitxor, v_int2. destruct a, b; calm_tac.
  - unfold v_shl, v_int2. destruct a, b; calm_tac.
  - unfold v_shr, v_int2. destruct a, b; calm_tac.
Qed.

Section Generic.
Context {D : Type} (m : mode) (hst : host D) (P : vm D -> Prop) (E : error -> Prop).
Notation vm := (vm D).

Record tame : Prop := {
  ta_err : forall e, ~ is_limit e -> E e;
  ta_stack : forall s st sp, P s -> P (set_stack st sp s);
  ta_blocks : forall s b, P s -> P (set_blocks b s);
  ta_cells : forall s o h, P s -> P (set_cells o h s);
  ta_frames : forall s fs f, P s -> P (set_frames fs f s);
  ta_enter : forall s d, P s -> P (set_data d s);
  ta_count : forall s n, P s -> P (set_count (v_reads s) n s);
  ta_read : forall s, P s ->
      if (o_max_runtime (v_opts s) <? h_clock hst (v_reads s))%N
      then E (ERuntimeLimit (o_max_runtime (v_opts s)))
      else P (set_count (S (v_reads s)) (v_n s) s);
  ta_builtin : forall s b f args e, P s -> alookup N.eqb b (v_builtins s) = Some (BFn f) ->
      snd (f (v_data s) args (v_opts s)) = Err e -> E e;
  ta_context : forall s b f x args, P s -> alookup N.eqb b (v_builtins s) = Some (BContext f x) ->
      P (set_exits (x :: v_exits s) s) /\
      forall e, snd (f (v_data s) args (v_opts s)) = Err e -> E e;
  ta_exit : forall s x r, P s -> v_exits s = x :: r ->
      P (set_exits r s) /\ forall e, snd (x (v_data s)) = Err e -> E e
}.
Context (H : tame).

Definition gk {A} (x : act D A) : Prop :=
  forall s, P s -> match x s with AOk _ s' => P s' | AErr e _ _ => E e | APanic => True end.

Lemma gk_bind {A B} (x : act D A) (k : A -> act D B) : gk x -> (forall a, gk (k a)) -> gk (abind x k).
Proof.
  intros Hx Hk s Hs; unfold abind. specialize (Hx s Hs).
  destruct (x s) as [a s'| |]; auto. apply Hk; auto.
Qed.
Lemma gk_ret {A} (a : A) : gk (aret a).
Proof. intros s Hs; exact Hs. Qed.
Lemma gk_gets {A} (f : vm -> A) : gk (agets f).
Proof. intros s Hs; exact Hs. Qed.
Lemma gk_panic {A} : gk (A := A) apanic.
Proof. intros s Hs; exact Logic.I. Qed.
Lemma gk_err0 {A} e : ~ is_limit e -> gk (A := A) (error_0 e).
Proof. intros He s Hs; apply (ta_err H); exact He. Qed.
Lemma gk_err1 {A} e : ~ is_limit e -> gk (A := A) (error_1 e).
Proof. intros He s Hs; apply (ta_err H); exact He. Qed.
Lemma gk_lift {A} (r : res A) : calm r -> gk (lift_1 r).
Proof. destruct r; intros Hc; [apply gk_ret | apply gk_err1; exact Hc | apply gk_panic]. Qed.
Lemma gk_mod f : (forall s, P s -> P (f s)) -> gk (amod f).
Proof. intros Hf s Hs; apply Hf; exact Hs. Qed.
Lemma gk_push v : gk (push v).
Proof.
  intros s Hs; unfold push. destruct (_ <=? _).
  { apply (ta_err H), nl; exact Logic.I. }
  destruct (_ <? _); [|exact Logic.I]. apply (ta_stack H); auto.
Qed.
Lemma gk_push_unchecked v : gk (push_unchecked v).
Proof. intros s Hs; unfold push_unchecked. destruct (_ <? _); [|exact Logic.I]. apply (ta_stack H); auto. Qed.
Lemma gk_push_many n : gk (push_many n).
Proof.
  intros s Hs; unfold push_many. destruct (_ <=? _).
  { apply (ta_err H), nl; exact Logic.I. }
  apply (ta_stack H); auto.
Qed.
Lemma gk_slot i : gk (slot i).
Proof. intros s Hs; unfold slot. destruct (nth_error _ _); auto. Qed.
Lemma gk_set_slot i v : gk (set_slot i v).
Proof. intros s Hs; unfold set_slot. destruct (_ <? _); auto. apply (ta_stack H); auto. Qed.
Lemma gk_pop : gk pop.
Proof. intros s Hs; unfold pop. destruct (v_sp s); auto. apply gk_slot, (ta_stack H); auto. Qed.
Lemma gk_pop_many n : gk (pop_many n).
Proof. intros s Hs; unfold pop_many. destruct (_ <? _); auto. apply (ta_stack H); auto. Qed.
Lemma gk_pop_swap_out : gk pop_swap_out.
Proof.
  unfold pop_swap_out. apply gk_bind; [apply gk_pop|]; intros. apply gk_bind; [apply gk_gets|]; intros.
  apply gk_bind; [apply gk_set_slot|]; intros. apply gk_ret.
Qed.
Lemma gk_pop_double : gk pop_double.
Proof. unfold pop_double. repeat (apply gk_bind; [apply gk_pop|]; intros ?). apply gk_ret. Qed.
Lemma gk_peekn n : gk (peekn n).
Proof. intros s Hs; unfold peekn. destruct (_ <? _); auto. apply gk_slot; auto. Qed.
Lemma gk_pop_peek : gk pop_peek.
Proof.
  unfold pop_peek. apply gk_bind; [apply gk_pop|]; intros. apply gk_bind; [apply gk_peekn|]; intros.
  apply gk_ret.
Qed.
Lemma gk_swap : gk swap.
Proof.
  intros s Hs; unfold swap. destruct (v_sp s) as [|[|k]]; auto.
  destruct (nth_error (v_stack s) k), (nth_error (v_stack s) (S k)); auto. apply (ta_stack H); auto.
Qed.
Lemma gk_get_constant i : gk (get_constant i).
Proof. intros s Hs; unfold get_constant. destruct (chunk_get_constant _ _); auto. Qed.
Lemma gk_up_get c : gk (up_get c).
Proof. intros s Hs; unfold up_get. destruct (nth_error _ _) as [[]|]; auto. apply gk_slot; auto. Qed.
Lemma gk_up_set c v : gk (up_set c v).
Proof.
  intros s Hs; unfold up_set. destruct (nth_error _ _) as [[]|]; auto. apply gk_set_slot; auto.
  apply (ta_cells H); auto.
Qed.
Lemma gk_capture l : gk (capture_upvalue l).
Proof. intros s Hs; unfold capture_upvalue. destruct (find _ _); auto. apply (ta_cells H); auto. Qed.
Lemma gk_close l : gk (close_upvalues l).
Proof. intros s Hs; unfold close_upvalues. destruct (nth_error _ _); auto. apply (ta_cells H); auto. Qed.
Lemma gk_close_range n : forall l, gk (close_range l n).
Proof.
  induction n as [|n IH]; intros l; cbn [close_range]; [apply gk_ret|].
  apply gk_bind; [apply gk_close | intros; apply IH].
Qed.
Lemma gk_runtime : gk (has_runtime_exceeded hst).
Proof.
  intros s Hs. unfold has_runtime_exceeded, abind, agets, amod. cbn [v_opts set_count].
  pose proof (ta_read H s Hs) as Hr. destruct (_ <? _)%N; exact Hr.
Qed.
Lemma gk_pop_items n : gk (pop_items n).
Proof.
  induction n as [|n IH]; cbn [pop_items]; [apply gk_ret|].
  apply gk_bind; [apply gk_pop|]; intros v. apply gk_bind; [apply IH|]; intros r. apply gk_ret.
Qed.
Lemma gk_push_items l : gk (push_items l).
Proof.
  induction l as [|v l IH]; cbn [push_items]; [apply gk_ret|].
  apply gk_bind; [apply gk_push | intros; apply IH].
Qed.
Lemma gk_ip i : gk (amod (set_ip i)).
Proof. apply gk_mod; intros; apply (ta_frames H); auto. Qed.
Lemma gk_read_captures n : gk (read_captures n).
Proof.
  induction n as [|n IH]; cbn [read_captures]; [apply gk_ret|].
  apply gk_bind; [apply gk_gets|]; intros s.
  destruct (bc_read_u8 _ _); try apply gk_panic.
  destruct (bc_read_u16 _ _); try apply gk_panic.
  apply gk_bind; [apply gk_ip|]; intros _. apply gk_bind.
  { destruct (_ =? _)%N; [apply gk_capture|].
    destruct (nth_error _ _); [apply gk_ret | apply gk_panic]. }
  intros c. apply gk_bind; [apply IH|]; intros r. apply gk_ret.
Qed.
Lemma gk_jump off : gk (jump_forward off).
Proof. apply gk_mod; intros; apply (ta_frames H); auto. Qed.
Lemma gk_take_args n : gk (take_args n).
Proof.
  intros s Hs; unfold take_args. destruct (_ <? _).
  { apply (ta_err H), nl; exact Logic.I. }
  destruct (_ <? _); [exact Logic.I|]. apply (ta_stack H); auto.
Qed.
Lemma gk_lift_some {A} (r : res A) s : P s -> (forall e, r = Err e -> E e) ->
  match lift_1 r s with AOk _ s' => P s' | AErr e _ _ => E e | APanic => True end.
Proof. destruct r; cbn; auto. Qed.


Ltac gkt := repeat first
  [ apply gk_runtime | apply gk_pop_swap_out | apply gk_pop_double | apply gk_pop_peek
  | apply gk_bind; [|intros ?]
  | apply gk_ret | apply gk_gets | apply gk_panic
  | apply gk_err0, nl; exact Logic.I | apply gk_err1, nl; exact Logic.I
  | apply gk_push | apply gk_push_unchecked | apply gk_push_many
  | apply gk_slot | apply gk_set_slot | apply gk_pop | apply gk_pop_many
  | apply gk_peekn
  | apply gk_swap | apply gk_get_constant | apply gk_up_get | apply gk_up_set
  | apply gk_capture | apply gk_close | apply gk_pop_items
  | apply gk_push_items | apply gk_read_captures | apply gk_jump | apply gk_take_args
  | apply gk_lift; first [apply calm_truthy | apply calm_index | apply calm_array
                         | apply calm_range | apply calm_unpack | apply calm_iter ]
  | apply gk_mod; intros; apply (ta_blocks H); assumption ].

Lemma gk_run_builtin f args s : P s ->
  (forall e, snd (f (v_data s) args (v_opts s)) = Err e -> E e) ->
  match run_builtin f args s with AOk _ s' => P s' | AErr e _ _ => E e | APanic => True end.
Proof.
  intros Hs He. unfold run_builtin. destruct (f _ _ _) as [d r]. apply gk_lift_some; auto.
  apply (ta_enter H); auto.
Qed.

Definition writes_global (i : instr) : bool :=
  match i with IDefineGlobal _ | ISetGlobal _ | IDefineGlobalDefaulted _ => true | _ => false end.

Lemma gk_exec i : (forall s g, P s -> P (set_globals g s)) \/ writes_global i = false ->
  gk (exec m hst i).
Proof.
  intros Hg.
  destruct i; cbn [exec]; try (gkt; fail);
    try (destruct Hg as [Hg|Hg]; [|discriminate Hg]).
  - gkt. apply gk_mod; auto.
  - gkt. destruct a; gkt.
  - gkt. destruct a0; gkt.
  - gkt. destruct a; gkt.
  - gkt. destruct a0; gkt. apply gk_mod; auto.
  - gkt. apply gk_mod; intros s Hs. destruct (alookup _ _ _); auto.
  - gkt. destruct a; gkt.
  - gkt. destruct a as [| | | | | | | | | | |[]]; gkt.
  - gkt. destruct a as [| | | | | | | | | | |[]]; gkt.
  - gkt. intros s Hs. destruct (_ <=? _). { apply (ta_err H), nl; exact Logic.I. }
    destruct a; try (apply (ta_err H), nl; exact Logic.I).
    destruct (_ =? _)%N; [|apply (ta_err H), nl; exact Logic.I].
    apply (ta_enter H), (ta_frames H); auto.
  - (* CallBuiltin *)
    intros s Hs. unfold abind at 1, agets. destruct (alookup _ _ _) as [[f|e x]|] eqn:Ea.
    + unfold abind at 1. pose proof (gk_take_args (N.to_nat argc) s Hs) as Hk.
      destruct (take_args _ _) as [args s1| |] eqn:Et; auto.
      apply take_args_builtins in Et. destruct Et as [Eb Eo].
      unfold abind at 1.
      pose proof (gk_run_builtin f args s1 Hk) as Hb.
      specialize (Hb (fun e => ta_builtin H s1 b f args e Hk ltac:(congruence))).
      destruct (run_builtin f args s1) as [v s2| |]; auto.
      revert s2 Hb. change (gk (abind (push v) (fun _ => has_runtime_exceeded hst))). gkt.
    + apply (ta_err H), nl; exact Logic.I.
    + apply (ta_err H), nl; exact Logic.I.
  - (* EnterContext *)
    intros s Hs. unfold abind at 1, agets. destruct (alookup _ _ _) as [[f|f x]|] eqn:Ea.
    + unfold abind at 1. pose proof (gk_take_args (N.to_nat argc) s Hs) as Hk.
      destruct (take_args _ _) as [args s1| |] eqn:Et; auto.
      apply take_args_builtins in Et. destruct Et as [Eb Eo].
      unfold abind at 1, aret. unfold abind.
      pose proof (gk_run_builtin f args s1 Hk
                    (fun e => ta_builtin H s1 b f args e Hk ltac:(congruence))) as Hb.
      destruct (run_builtin f args s1) as [v s2| |]; auto. apply gk_push; auto.
    + unfold abind at 1. pose proof (gk_take_args (N.to_nat argc) s Hs) as Hk.
      destruct (take_args _ _) as [args s1| |] eqn:Et; auto.
      apply take_args_builtins in Et. destruct Et as [Eb Eo].
      unfold abind at 1, amod. unfold abind.
      destruct (ta_context H s1 b f x args Hk ltac:(congruence)) as [Hp He].
      pose proof (gk_run_builtin f args (set_exits (x :: v_exits s1) s1) Hp He) as Hb.
      destruct (run_builtin f args _) as [v s2| |]; auto. apply gk_push; auto.
    + apply (ta_err H), nl; exact Logic.I.
  - (* ExitContext *)
    intros s Hs. unfold abind at 1, agets. destruct (v_exits s) as [|x rest] eqn:Ex; [exact Hs|].
    unfold abind, amod. cbn [v_data set_exits].
    destruct (ta_exit H s x rest Hs Ex) as [Hp He]. destruct (x (v_data s)) as [d r].
    apply gk_lift_some; auto. apply (ta_enter H); auto.
  - gkt. destruct a; gkt.
  - gkt. destruct a0; gkt.
  - gkt. intros s Hs. destruct (geqb _ _ _) as [[]| |]; auto. apply gk_jump; auto.
  - intros s Hs. destruct (_ <? _); auto. apply (ta_frames H); auto.
  - gkt. destruct (_ <? _); gkt. destruct a0; gkt. destruct a2; gkt.
  - gkt. pose proof (calm_unary m o a) as Hu. destruct (unary_fn _ _ _); gkt. apply gk_lift; auto.
  - gkt. intros s Hs. pose proof (calm_binary m (h_oracle hst) o (feq_at hst s) (o_string_max (v_opts s))
      (o_array_max (v_opts s)) (fst a) (snd a) (calm_fn_eq _ _)) as Hu.
    destruct (binary_fn _ _ _ _ _ _ _); [|exact Logic.I].
    revert s Hs Hu. intros s Hs Hu. revert s Hs.
    match goal with |- context [abind ?x ?k] => change (gk (abind x k)) end.
    gkt. apply gk_lift; auto.
Qed.

Lemma gk_tick : gk (tick hst).
Proof.
  unfold tick. apply gk_bind; [apply gk_gets|]; intros n. destruct (_ <? _).
  - apply gk_bind; [apply gk_runtime|]; intros _. apply gk_mod; intros; apply (ta_count H); auto.
  - apply gk_mod; intros; apply (ta_count H); auto.
Qed.

Lemma gk_return s : P s ->
  match do_return m hst s with
  | SNext s' => P s' | SDone _ s' => P s' | SErr e _ _ => E e | SPanic => True
  end.
Proof.
  intros Hs. unfold do_return. pose proof (gk_pop s Hs) as H1.
  destruct (pop s) as [v s1| |]; auto.
  pose proof (gk_close_range (v_sp s1 - f_st (v_frame s1)) (f_st (v_frame s1)) s1 H1) as H2.
  destruct (close_range _ _ s1) as [u s2| |]; auto.
  destruct (v_frames s2) as [|fr rest].
  - destruct m, (v_sp s2); auto; apply (ta_stack H); auto.
  - match goal with |- context [push v ?x] => pose proof (gk_push v x) as H3; destruct (push v x) end;
      apply H3; apply (ta_frames H), (ta_stack H), (ta_enter H); auto.
Qed.

Lemma gk_step s : P s ->
  (forall s g, P s -> P (set_globals g s)) \/
    match next_instr s with Some i => writes_global i = false | None => True end ->
  match step m hst s with
  | SNext s' => P s' | SDone _ s' => P s' | SErr e _ _ => E e | SPanic => True
  end.
Proof.
  intros Hs Hw. unfold step. pose proof (gk_tick s Hs) as Hk.
  assert (Hn : match tick hst s with AOk _ s1 => v_frame s1 = v_frame s | _ => True end).
  { unfold tick, abind, agets. destruct (64 <? _); [|reflexivity].
    unfold has_runtime_exceeded, abind, agets, amod. cbn [v_opts set_count].
    destruct (_ <? _)%N; [exact Logic.I|reflexivity]. }
  destruct (tick hst s) as [u s1| |]; auto.
  destruct (_ <=? _). { apply (ta_err H), nl; exact Logic.I. }
  unfold next_instr in Hw. unfold cur_chunk, ip in *. rewrite Hn in *.
  destruct (decode _ _) as [[i ip']| |]; auto.
  assert (H1 : P (set_ip ip' s1)) by (apply (ta_frames H); auto).
  assert (He : match (match exec m hst i (set_ip ip' s1) with
                   | AOk _ s' => SNext s'
                   | AErr e sp s' => SErr e sp s'
                   | APanic => SPanic
                   end) with
               | SNext s' => P s' | SDone _ s' => P s' | SErr e _ _ => E e | SPanic => True
               end).
  { pose proof (gk_exec i Hw _ H1) as H2. destruct (exec _ _ _ _); auto. }
  destruct i; try exact He. apply gk_return; auto.
Qed.
End Generic.
