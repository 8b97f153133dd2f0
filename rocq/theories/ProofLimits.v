(** A machine with more room does the same (C102). *)
From Verif Require Import Base RleVec Pool Vecc Float NumText Bytecode Chunk Value Ast Arith VmOps Compiler Vm SpecLimits.

Section Room.
Context {D : Type} (m : mode) (hst : host D) (o' : options) (pad : list value).
Notation vm := (vm D).

(** [s] with the limits [o'] and more stack. *)
Definition room (s : vm) : vm :=
  mkVm (v_data s) (v_builtins s) (v_exits s) (v_blocks s) (v_globals s) (v_gsyms s) (v_externals s) (v_opens s) (v_heap s)
       (v_frames s) (v_frame s) (v_stack s ++ pad) (v_sp s) (v_reads s) (v_n s) o'.

Record okay (s : vm) : Prop := {
  ok_len : length (v_stack s) = o_stack_size (v_opts s);
  ok_sp : v_sp s <= length (v_stack s);
  ok_pad : length (v_stack s) + length pad = o_stack_size o';
  ok_roomier : roomier (v_opts s) o';
  ok_frame : f_st (v_frame s) <= length (v_stack s);
  ok_frames : Forall (fun f => f_st f <= length (v_stack s)) (v_frames s);
  ok_fair : forall b x, alookup N.eqb b (v_builtins s) = Some x -> fair x }.

Definition sim {A} (a : act D A) : Prop := forall s, okay s ->
  match a s with
  | AOk x t => okay t /\ a (room s) = AOk x (room t)
  | AErr e sp t => limit_error e \/ okay t /\ a (room s) = AErr e sp (room t)
  | APanic => True
  end.

Lemma sim_ret {A} (a : A) : sim (aret a). Proof. intros s H. split; [exact H|reflexivity]. Qed.
Lemma sim_bind {A B} (x : act D A) (k : A -> act D B) : sim x -> (forall a, sim (k a)) -> sim (abind x k).
Proof.
  intros Hx Hk s Hs. unfold abind. specialize (Hx s Hs). destruct (x s) as [a t|e sp t|]; [|exact (match Hx with or_introl h => or_introl h | or_intror (conj h1 h2) => or_intror (conj h1 (eq_trans (f_equal (fun r => match r with AOk a s' => k a s' | AErr e sp s' => AErr e sp s' | APanic => APanic end) h2) eq_refl)) end)|exact I].
  destruct Hx as [Ht E]. rewrite E. apply Hk, Ht.
Qed.
Lemma sim_gets {A} (f : vm -> A) : (forall s, f (room s) = f s) -> sim (agets f).
Proof. intros H s Hs. split; [exact Hs|]. unfold agets. now rewrite H. Qed.
Lemma sim_mod f : (forall s, okay s -> okay (f s) /\ f (room s) = room (f s)) -> sim (amod f).
Proof. intros H s Hs. destruct (H s Hs) as [H1 H2]. split; [exact H1|]. unfold amod. now rewrite H2. Qed.
Lemma sim_panic {A} : sim (A := A) apanic. Proof. intros s _. exact I. Qed.
Lemma sim_err0 {A} e : sim (A := A) (error_0 e). Proof. intros s H. right. split; [exact H|reflexivity]. Qed.
Lemma sim_err1 {A} e : sim (A := A) (error_1 e). Proof. intros s H. right. split; [exact H|reflexivity]. Qed.
Lemma sim_errf {A} e : sim (A := A) (errorf e). Proof. intros s H. right. split; [exact H|reflexivity]. Qed.
Lemma sim_lift {A} (r : res A) : sim (lift_1 r).
Proof. destruct r; [apply sim_ret|apply sim_err1|apply sim_panic]. Qed.

(** Changes that leave the stack and the frames. *)
Lemma okay_same s t : v_stack t = v_stack s -> v_sp t = v_sp s -> v_opts t = v_opts s -> f_st (v_frame t) = f_st (v_frame s) ->
  v_frames t = v_frames s -> v_builtins t = v_builtins s -> okay s -> okay t.
Proof. intros E1 E2 E3 E4 E5 E6 [H1 H2 H3 H4 H5 H6 H7]. split; rewrite ?E1, ?E2, ?E3, ?E4, ?E5, ?E6; assumption. Qed.
Lemma okay_stack s st sp : okay s -> length st = length (v_stack s) -> sp <= length (v_stack s) -> okay (set_stack st sp s).
Proof. intros [H1 H2 H3 H4 H5 H6 H7] E L. split; cbn [set_stack v_stack v_sp v_opts v_frame v_frames v_builtins]; rewrite ?E; assumption. Qed.
Lemma nth_room (st : list value) i v : nth_error st i = Some v -> nth_error (st ++ pad) i = Some v.
Proof. intros H. rewrite nth_error_app1; [exact H|]. apply nth_error_Some. congruence. Qed.

Lemma sim_push v : sim (push v).
Proof.
  intros s H. pose proof H as [H1 H2 H3 (H4 & _) H5 H6 H7]. unfold push. destruct (Nat.leb_spec (o_stack_size (v_opts s)) (v_sp s)); [left; exact I|].
  destruct (Nat.ltb_spec (v_sp s) (length (v_stack s))); [|lia]. split; [apply okay_stack; [exact H|apply upd_length|lia]|].
  cbn [room v_opts v_sp v_stack]. destruct (Nat.leb_spec (o_stack_size o') (v_sp s)); [lia|]. rewrite app_length.
  destruct (Nat.ltb_spec (v_sp s) (length (v_stack s) + length pad)); [|lia]. now rewrite upd_app_l.
Qed.
Lemma sim_push_unchecked v : sim (push_unchecked v).
Proof.
  intros s H. unfold push_unchecked. destruct (Nat.ltb_spec (v_sp s) (length (v_stack s))); [|exact I].
  split; [apply okay_stack; [exact H|apply upd_length|lia]|]. cbn [room v_sp v_stack]. rewrite app_length.
  destruct (Nat.ltb_spec (v_sp s) (length (v_stack s) + length pad)); [|lia]. now rewrite upd_app_l.
Qed.
Lemma sim_push_many n : sim (push_many n).
Proof.
  intros s H. pose proof H as [H1 H2 H3 (H4 & _) H5 H6 H7]. unfold push_many. cbn [set_stack v_sp].
  destruct (Nat.leb_spec (o_stack_size (v_opts s)) (v_sp s + n)); [left; exact I|].
  split; [apply okay_stack; [exact H|reflexivity|lia]|]. cbn [room v_opts v_sp v_stack].
  destruct (Nat.leb_spec (o_stack_size o') (v_sp s + n)); [lia|]. reflexivity.
Qed.
Lemma sim_slot i : sim (slot i).
Proof. intros s H. unfold slot. destruct (nth_error (v_stack s) i) eqn:E; [|exact I]. split; [exact H|]. cbn [room v_stack]. now rewrite (nth_room _ _ _ E). Qed.
Lemma sim_set_slot i v : sim (set_slot i v).
Proof.
  intros s H. unfold set_slot. destruct (Nat.ltb_spec i (length (v_stack s))); [|exact I].
  split; [apply okay_stack; [exact H|apply upd_length|apply H]|]. cbn [room v_stack v_sp]. rewrite app_length.
  destruct (Nat.ltb_spec i (length (v_stack s) + length pad)); [|lia]. now rewrite upd_app_l.
Qed.
Lemma sim_pop : sim pop.
Proof.
  intros s H. unfold pop. change (v_sp (room s)) with (v_sp s). destruct (v_sp s) as [|k] eqn:E; [exact I|].
  assert (K : okay (set_stack (v_stack s) k s)) by (apply okay_stack; [exact H|reflexivity|pose proof (ok_sp _ H); lia]).
  exact (sim_slot k _ K).
Qed.
Lemma sim_pop_many n : sim (pop_many n).
Proof.
  intros s H. unfold pop_many. change (v_sp (room s)) with (v_sp s). destruct (v_sp s <? n); [exact I|].
  split; [apply okay_stack; [exact H|reflexivity|pose proof (ok_sp _ H); lia]|reflexivity].
Qed.
Lemma sim_peekn n : sim (peekn n).
Proof. intros s H. unfold peekn. change (v_sp (room s)) with (v_sp s). destruct (v_sp s <? S n); [exact I|]. exact (sim_slot _ s H). Qed.
Lemma sim_swap : sim swap.
Proof.
  intros s H. unfold swap. change (v_sp (room s)) with (v_sp s). destruct (v_sp s) as [|[|k]] eqn:Es; try exact I.
  destruct (nth_error (v_stack s) k) eqn:E1; [|exact I]. destruct (nth_error (v_stack s) (S k)) eqn:E2; [|exact I].
  assert (S k < length (v_stack s)) by (apply nth_error_Some; congruence).
  split; [apply okay_stack; [exact H|now rewrite !upd_length|lia]|]. cbn [room v_stack].
  rewrite (nth_room _ _ _ E1), (nth_room _ _ _ E2), !upd_app_l by (rewrite ?upd_length; lia). reflexivity.
Qed.
Lemma sim_const i : sim (get_constant i).
Proof.
  intros s H. unfold get_constant. change (cur_chunk (room s)) with (cur_chunk s).
  destruct (chunk_get_constant _ _); try exact I. split; [exact H|reflexivity].
Qed.
Lemma sim_name id : sim (global_name id). Proof. apply sim_gets. reflexivity. Qed.
Lemma okay_cells s o h : okay s -> okay (set_cells o h s). Proof. apply okay_same; reflexivity. Qed.
Lemma sim_up_get c : sim (up_get c).
Proof.
  intros s H. unfold up_get. change (v_heap (room s)) with (v_heap s). destruct (nth_error _ _) as [[l|v]|]; [exact (sim_slot l s H)| |exact I].
  split; [exact H|reflexivity].
Qed.
Lemma sim_up_set c v : sim (up_set c v).
Proof.
  intros s H. unfold up_set. change (v_heap (room s)) with (v_heap s). destruct (nth_error _ _) as [[l|w]|]; [exact (sim_set_slot l v s H)| |exact I].
  split; [now apply okay_cells|reflexivity].
Qed.
Lemma sim_capture l : sim (capture_upvalue l).
Proof.
  intros s H. unfold capture_upvalue. change (v_heap (room s)) with (v_heap s). change (v_opens (room s)) with (v_opens s).
  destruct (find _ _); (split; [|reflexivity]); [exact H|now apply okay_cells].
Qed.
Lemma close_room last s : last < length (v_stack s) ->
  close_upvalues last (room s) = match close_upvalues last s with AOk x t => AOk x (room t) | AErr e sp t => AErr e sp (room t) | APanic => APanic end.
Proof.
  intros H. unfold close_upvalues. destruct (nth_error (v_stack s) last) eqn:E; [|apply nth_error_None in E; lia].
  cbn [room v_stack]. now rewrite (nth_room _ _ _ E).
Qed.
Lemma close_okay last s : okay s -> exists t, close_upvalues last s = AOk tt t /\ okay t /\ v_stack t = v_stack s /\ v_sp t = v_sp s /\ v_frame t = v_frame s /\ v_frames t = v_frames s.
Proof.
  intros H. unfold close_upvalues. destruct (nth_error (v_stack s) last); eexists; (split; [reflexivity|]); (split; [|now repeat split]); [now apply okay_cells|exact H].
Qed.
Lemma range_room n : forall from s, okay s -> from + n <= length (v_stack s) ->
  exists t, close_range from n s = AOk tt t /\ close_range from n (room s) = AOk tt (room t) /\ okay t /\
    v_stack t = v_stack s /\ v_sp t = v_sp s /\ v_frame t = v_frame s /\ v_frames t = v_frames s.
Proof.
  induction n as [|n IH]; intros from s H L; cbn [close_range].
  - exists s. repeat split; try reflexivity; exact H || apply H.
  - destruct (close_okay from s H) as (t & E & Ht & E1 & E2 & E3 & E4). unfold abind.
    rewrite (close_room from s) by lia. rewrite E. destruct (IH (S from) t Ht) as (u & U1 & U2 & U3 & U4 & U5 & U6 & U7); [rewrite E1; lia|].
    exists u. rewrite U1, U2. repeat split; try congruence; apply U3.
Qed.
Lemma sim_time : sim (has_runtime_exceeded hst).
Proof.
  intros s H. unfold has_runtime_exceeded, abind, agets, amod. cbn [room v_reads v_n v_opts set_count].
  pose proof (ok_roomier _ H) as (_ & _ & T & _). destruct (N.ltb_spec (o_max_runtime (v_opts s)) (h_clock hst (v_reads s))); [left; exact I|].
  destruct (N.ltb_spec (o_max_runtime o') (h_clock hst (v_reads s))); [lia|]. split; [|reflexivity]. revert H. apply okay_same; reflexivity.
Qed.
Lemma sim_pop_items n : sim (pop_items n).
Proof. induction n; cbn [pop_items]; [apply sim_ret|]. apply sim_bind; [apply sim_pop|intros]. apply sim_bind; [assumption|intros; apply sim_ret]. Qed.
Lemma sim_push_items l : sim (push_items l).
Proof. induction l; cbn [push_items]; [apply sim_ret|]. apply sim_bind; [apply sim_push|intros; assumption]. Qed.
Lemma okay_ip s i : okay s -> okay (set_ip i s). Proof. apply okay_same; reflexivity. Qed.
Lemma sim_ip f : (forall s, f (room s) = f s) -> sim (amod (fun s => set_ip (f s) s)).
Proof. intros H. apply sim_mod. intros s Hs. split; [now apply okay_ip|]. rewrite H. reflexivity. Qed.
Lemma sim_state {B} (k : vm -> act D B) : (forall s, sim (k s)) -> (forall s, k (room s) = k s) -> sim (abind (agets (fun s => s)) k).
Proof. intros H E s Hs. unfold abind, agets. rewrite E. apply H, Hs. Qed.
Lemma sim_here {B} (k : vm -> act D B) : (forall s, sim (k s)) -> (forall s, k (room s) = k s) -> sim (fun s => k s s).
Proof. exact (sim_state k). Qed.
Lemma sim_captures n : sim (read_captures n).
Proof.
  induction n as [|n IH]; cbn [read_captures]; [apply sim_ret|]. apply sim_state; [|reflexivity]. intros s.
  destruct (bc_read_u8 _ _); try apply sim_panic. destruct (bc_read_u16 _ _); try apply sim_panic.
  apply sim_bind; [apply sim_mod; intros s1 Hs1; split; [now apply okay_ip|reflexivity]|intros _].
  apply sim_bind; [|intros; apply sim_bind; [exact IH|intros; apply sim_ret]].
  destruct (_ =? 1)%N; [apply sim_capture|]. destruct (nth_error _ _); [apply sim_ret|apply sim_panic].
Qed.
Lemma sim_args n : sim (take_args n).
Proof.
  intros s H. unfold take_args. cbn [room v_sp v_stack]. destruct (Nat.ltb_spec (v_sp s) n) as [L|L]; [right; split; [exact H|reflexivity]|].
  pose proof (ok_sp _ H) as Hs. destruct (Nat.ltb_spec (length (v_stack s)) (v_sp s)); [lia|]. rewrite app_length.
  destruct (Nat.ltb_spec (length (v_stack s) + length pad) (v_sp s)); [lia|].
  split; [apply okay_stack; [exact H|reflexivity|lia]|]. rewrite skipn_app, firstn_app, skipn_length.
  replace (n - (length (v_stack s) - (v_sp s - n))) with 0 by lia. cbn [firstn]. now rewrite app_nil_r.
Qed.
Lemma sim_data {A} d (a : act D A) : sim a -> sim (fun s => a (set_data d s)).
Proof. intros H s Hs. refine (H (set_data d s) _). revert Hs. apply okay_same; reflexivity. Qed.
Lemma sim_builtin f args : fair_fn f -> sim (run_builtin f args).
Proof.
  intros Hf s H. unfold run_builtin. cbn [room v_data v_opts]. pose proof (ok_roomier _ H) as (_ & _ & _ & E1 & E2).
  rewrite (Hf (v_data s) args o' (v_opts s)) by congruence. destruct (f (v_data s) args (v_opts s)) as [d r].
  exact (sim_data d _ (sim_lift r) s H).
Qed.

Lemma sim_jump off : sim (jump_forward off).
Proof. apply (sim_ip (fun s => ip s + N.to_nat off)). reflexivity. Qed.
Lemma sim_globals f : sim (amod (fun s => set_globals (f (v_globals s)) s)).
Proof. apply sim_mod. intros s Hs. split; [|reflexivity]. revert Hs. apply okay_same; reflexivity. Qed.
Lemma sim_blocks f : sim (amod (fun s => set_blocks (f (v_blocks s)) s)).
Proof. apply sim_mod. intros s Hs. split; [|reflexivity]. revert Hs. apply okay_same; reflexivity. Qed.
Lemma sim_exits f : sim (amod (fun s => set_exits (f (v_exits s)) s)).
Proof. apply sim_mod. intros s Hs. split; [|reflexivity]. revert Hs. apply okay_same; reflexivity. Qed.
Lemma sim_swap_out : sim pop_swap_out.
Proof.
  apply sim_bind; [apply sim_pop|intros]. apply sim_bind; [now apply sim_gets|intros]. apply sim_bind; [apply sim_set_slot|intros; apply sim_ret].
Qed.
Lemma sim_double : sim pop_double.
Proof. apply sim_bind; [apply sim_pop|intros]. apply sim_bind; [apply sim_pop|intros; apply sim_ret]. Qed.
Lemma sim_pop_peek : sim pop_peek.
Proof. apply sim_bind; [apply sim_pop|intros]. apply sim_bind; [apply sim_peekn|intros; apply sim_ret]. Qed.
Ltac ps := first [apply sim_ret|apply sim_panic|apply sim_err0|apply sim_err1|apply sim_errf|apply sim_lift|apply sim_push|apply sim_push_unchecked
  |apply sim_push_many|apply sim_slot|apply sim_set_slot|apply sim_pop|apply sim_pop_many|apply sim_peekn|apply sim_swap|apply sim_const|apply sim_name
  |apply sim_up_get|apply sim_up_set|apply sim_capture|apply sim_time|apply sim_pop_items|apply sim_push_items|apply sim_captures|apply sim_args
  |apply sim_jump|apply sim_swap_out|apply sim_double|apply sim_pop_peek|(apply sim_gets; reflexivity)
  |match goal with
   | |- sim (abind _ _) => apply sim_bind; [|intros]
   | |- sim (match ?x with _ => _ end) => destruct x
   | |- sim (if ?x then _ else _) => destruct x
   end].

Lemma sim_with {A B} (f : vm -> A) (k : A -> act D B) : (forall s, okay s -> f (room s) = f s) -> (forall s, okay s -> sim (k (f s))) -> sim (abind (agets f) k).
Proof. intros E H s Hs. unfold abind, agets. rewrite E by exact Hs. now apply H. Qed.
Lemma sim_close_top : sim (exec m hst ICloseUpvalue).
Proof.
  intros s H. cbn [exec]. unfold abind, agets. change (v_sp (room s)) with (v_sp s). destruct (v_sp s) as [|k] eqn:E; [exact I|].
  destruct (close_okay k s H) as (t & Et & Ht & _). rewrite close_room by (pose proof (ok_sp _ H); lia). rewrite Et.
  refine (sim_bind _ _ sim_pop _ t Ht). intros. apply sim_ret.
Qed.
Lemma sim_call argc : sim (exec m hst (ICallFunction argc)).
Proof.
  cbn [exec]. apply sim_bind; [apply sim_peekn|intros v]. intros s H. cbn [room v_opts v_frames].
  pose proof (ok_roomier _ H) as (_ & C & _). destruct (Nat.leb_spec (o_call_stack_size (v_opts s)) (length (v_frames s))); [left; exact I|].
  destruct (Nat.leb_spec (o_call_stack_size o') (length (v_frames s))); [lia|].
  destruct v as [| | | | | | | | | | |c]; try (exact (sim_err1 _ s H)). cbv zeta.
  destruct (argc =? fn_arity (mfn_function c))%N; [|exact (sim_err0 _ s H)].
  split; [|reflexivity]. pose proof H as [K1 K2 K3 K4 K5 K6 K7].
  split; cbn [set_data set_frames v_stack v_sp v_opts v_frame v_frames v_builtins f_st]; auto. lia.
Qed.
Lemma sim_exit_context : sim (exec m hst IExitContext).
Proof.
  cbn [exec]. apply sim_bind; [now apply sim_gets|intros [|x rest]]; [apply sim_ret|].
  apply sim_bind; [exact (sim_exits (fun _ => rest))|intros _]. intros s H. change (v_data (room s)) with (v_data s).
  destruct (x (v_data s)) as [d r]. exact (sim_data d _ (sim_lift r) s H).
Qed.
Lemma sim_enter_context b argc : sim (exec m hst (IEnterContext b argc)).
Proof.
  cbn [exec]. apply sim_with; [reflexivity|intros s Hs]. destruct (alookup _ _ _) as [bi|] eqn:E; [|repeat ps].
  pose proof (ok_fair _ Hs _ _ E) as F. destruct bi as [f|f x]; cbn [fair] in F; repeat ps; try (now apply sim_builtin). exact (sim_exits (fun l => x :: l)).
Qed.
Lemma sim_call_builtin b argc : sim (exec m hst (ICallBuiltin b argc)).
Proof.
  cbn [exec]. apply sim_with; [reflexivity|intros s Hs]. destruct (alookup _ _ _) as [[f|f x]|] eqn:E; [|repeat ps..].
  pose proof (ok_fair _ Hs _ _ E) as F. cbn [fair] in F. repeat ps. now apply sim_builtin.
Qed.
Lemma sim_compare off : sim (exec m hst (IJumpIfNotEq off)).
Proof.
  cbn [exec]. apply sim_bind; [apply sim_pop_peek|intros vc].
  apply (sim_here (fun s0 s => match geqb (feq_at hst s0) (fst vc) (snd vc) with Ok true => AOk tt s | Ok false => jump_forward off s | _ => APanic end)); [|reflexivity].
  intros s0. destruct (geqb _ _ _) as [[]| |]; [apply sim_ret|apply sim_jump|apply sim_panic|apply sim_panic].
Qed.
Lemma sim_back off : sim (exec m hst (IJumpBackward off)).
Proof.
  cbn [exec]. intros s H. change (ip (room s)) with (ip s). destruct (ip s <? N.to_nat off); [exact I|]. split; [now apply okay_ip|reflexivity].
Qed.
Lemma sim_binary o : sim (exec m hst (IBinary o)).
Proof.
  cbn [exec]. apply sim_bind; [apply sim_double|intros ab]. intros s H. change (feq_at hst (room s)) with (feq_at hst s). cbn [room v_opts].
  pose proof (ok_roomier _ H) as (_ & _ & _ & E1 & E2). rewrite <- E1, <- E2. destruct (binary_fn _ _ _ _ _ _ _) as [f|]; [|exact I].
  refine (sim_bind _ _ (sim_lift _) _ s H). intros. apply sim_push_unchecked.
Qed.
Lemma exec_sim i : sim (exec m hst i).
Proof.
  destruct i; try (first [apply sim_call|apply sim_exit_context|apply sim_enter_context|apply sim_call_builtin|apply sim_compare|apply sim_back|apply sim_binary|exact sim_close_top]);
    cbn [exec]; try (repeat ps; fail).
  all: try (repeat ps; first [exact (sim_blocks (fun b => _ :: b))|exact (sim_globals (ainsert _ _))]; fail).
  - apply sim_bind; [apply sim_pop|intros v]. apply sim_mod. intros s Hs. change (v_globals (room s)) with (v_globals s).
    destruct (alookup _ _ _); (split; [|reflexivity]); [exact Hs|]. revert Hs. apply okay_same; reflexivity.
  - apply sim_bind; [apply sim_pop_items|intros items]. apply sim_with; [|intros; repeat ps].
    intros s Hs. cbn [room v_opts]. now pose proof (ok_roomier _ Hs) as (_ & _ & _ & _ & ->).
  - repeat ps. match goal with |- sim (amod (set_blocks ?r)) => exact (sim_blocks (fun _ => r)) end.
Qed.

Definition sims (a b : sres D) : Prop :=
  match a with
  | SNext t => okay t /\ b = SNext (room t)
  | SDone v t => okay t /\ b = SDone v (room t)
  | SErr e sp t => limit_error e \/ okay t /\ b = SErr e sp (room t)
  | SPanic => True
  end.
Lemma return_sim s : okay s -> sims (do_return m hst s) (do_return m hst (room s)).
Proof.
  intros H. unfold do_return. pose proof (sim_pop s H) as P. destruct (pop s) as [v s1|e sp s1|]; [|destruct P as [P|[P1 P2]]; [now left|rewrite P2; right; auto]|exact I].
  destruct P as [H1 E1]. rewrite E1. change (v_frame (room s1)) with (v_frame s1). change (v_sp (room s1)) with (v_sp s1).
  destruct (range_room (v_sp s1 - f_st (v_frame s1)) (f_st (v_frame s1)) s1 H1) as (t & T1 & T2 & T3 & T4 & T5 & T6 & T7);
    [pose proof (ok_sp _ H1); pose proof (ok_frame _ H1); lia|]. rewrite T1, T2. change (v_frames (room t)) with (v_frames t).
  destruct (v_frames t) as [|fr rest] eqn:Ef.
  - change (v_sp (room t)) with (v_sp t). pose proof (ok_frame _ T3).
    assert (K : okay (set_stack (v_stack t) (f_st (v_frame t)) t)) by (apply okay_stack; [exact T3|reflexivity|assumption]).
    destruct m; [|exact (conj K eq_refl)]. destruct (v_sp t); [exact (conj K eq_refl)|exact I].
  - cbn zeta. set (u := set_frames rest fr (set_stack (v_stack (set_data (h_leave hst (v_data t)) t)) (f_st (v_frame (set_data (h_leave hst (v_data t)) t))) (set_data (h_leave hst (v_data t)) t))).
    assert (K : okay u).
    { pose proof T3 as [K1 K2 K3 K4 K5 K6 K7]. rewrite Ef in K6. inversion K6; subst. split; unfold u; cbn; auto. }
    match goal with |- context [push v ?x] => match x with u => fail 1 | _ => change x with (room u) end end.
    pose proof (sim_push v u K) as P. destruct (push v u) as [x u1|e sp u1|]; [|destruct P as [P|[P1 P2]]; [now left|rewrite P2; right; auto]|exact I].
    destruct P as [P1 P2]. rewrite P2. split; [exact P1|reflexivity].
Qed.
Lemma tick_sim : sim (tick hst).
Proof.
  unfold tick. apply sim_bind; [now apply sim_gets|intros n]. destruct (64 <? n).
  - apply sim_bind; [apply sim_time|intros _]. apply sim_mod. intros s Hs. split; [|reflexivity]. revert Hs. apply okay_same; reflexivity.
  - apply sim_mod. intros s Hs. split; [|reflexivity]. revert Hs. apply okay_same; reflexivity.
Qed.
Lemma step_sim s : okay s -> sims (step m hst s) (step m hst (room s)).
Proof.
  intros H. unfold step. pose proof (tick_sim s H) as T. destruct (tick hst s) as [x t|e sp t|]; [|destruct T as [T|[T1 T2]]; [now left|rewrite T2; right; auto]|exact I].
  destruct T as [Ht E]. rewrite E. change (cur_chunk (room t)) with (cur_chunk t). change (ip (room t)) with (ip t).
  destruct (chunk_len (cur_chunk t) <=? ip t); [right; split; [exact Ht|reflexivity]|].
  destruct (decode _ _) as [[i next]| |]; try exact I.
  assert (K : okay (set_ip next t)) by now apply okay_ip.
  change (set_ip next (room t)) with (room (set_ip next t)). pose proof (exec_sim i _ K) as X.
  assert (Y : sims match exec m hst i (set_ip next t) with AOk _ s' => SNext s' | AErr e sp s' => SErr e sp s' | APanic => SPanic end
                   match exec m hst i (room (set_ip next t)) with AOk _ s' => SNext s' | AErr e sp s' => SErr e sp s' | APanic => SPanic end).
  { destruct (exec m hst i (set_ip next t)) as [y u|e sp u|]; [|destruct X as [X|[X1 X2]]; [now left|rewrite X2; right; auto]|exact I].
    destruct X as [X1 X2]. rewrite X2. split; [exact X1|reflexivity]. }
  destruct i; try exact Y. now apply return_sim.
Qed.
Lemma loop_sim k : forall s, okay s ->
  match loop m hst k s with
  | RDone v t => okay t /\ loop m hst k (room s) = RDone v (room t)
  | RErr e sp t => limit_error e \/ okay t /\ loop m hst k (room s) = RErr e sp (room t)
  | ROut t => okay t /\ loop m hst k (room s) = ROut (room t)
  | RPanic => True
  end.
Proof.
  induction k as [|k IH]; intros s H; cbn [loop]; [auto|]. pose proof (step_sim s H) as X.
  destruct (step m hst s) as [t|v t|e sp t|]; cbn [sims] in X.
  - destruct X as [Ht ->]. now apply IH.
  - destruct X as [Ht ->]. auto.
  - destruct X as [X|[Ht ->]]; auto.
  - exact I.
Qed.
Lemma room_alike s : okay s -> alike s (room s).
Proof.
  intros H. unfold alike. cbn [room v_data v_builtins v_exits v_blocks v_globals v_gsyms v_externals v_opens v_heap v_frames v_frame v_stack v_sp v_reads v_n].
  repeat (split; [reflexivity|]). split; [|split; reflexivity]. pose proof (ok_sp _ H).
  rewrite firstn_app. replace (v_sp s - length (v_stack s)) with 0 by lia. now rewrite app_nil_r.
Qed.
End Room.
