(** A machine with other builtins does the same as long as those it needs are the same (C104). *)
From Verif Require Import Base RleVec Pool Vecc Float NumText Bytecode Chunk Value Ast Arith VmOps Compiler Vm.

Section Dress.
Context {D : Type} (m : mode) (hst : host D) (g1 g2 : pool rstring) (b1 b2 : list (N * builtin D)).
Notation vm := (vm D).

(** [s] with other builtins. *)
Definition room (s : vm) : vm :=
  mkVm (v_data s) b2 (v_exits s) (v_blocks s) (v_globals s) g2 (v_externals s) (v_opens s) (v_heap s)
       (v_frames s) (v_frame s) (v_stack s) (v_sp s) (v_reads s) (v_n s) (v_opts s).
Definition okay (s : vm) : Prop := v_gsyms s = g1 /\ v_builtins s = b1.

Definition sim {A} (a : act D A) : Prop := forall s, okay s ->
  match a s with
  | AOk x t => okay t /\ a (room s) = AOk x (room t)
  | AErr e sp t => okay t /\ a (room s) = AErr e sp (room t)
  | APanic => a (room s) = APanic
  end.

Lemma sim_ret {A} (a : A) : sim (aret a). Proof. intros s H. split; [exact H|reflexivity]. Qed.
Lemma sim_bind {A B} (x : act D A) (k : A -> act D B) : sim x -> (forall a, sim (k a)) -> sim (abind x k).
Proof.
  intros Hx Hk s Hs. unfold abind. specialize (Hx s Hs). destruct (x s) as [a t|e sp t|]; [|destruct Hx as [Hx ->]; auto|now rewrite Hx].
  destruct Hx as [Ht E]. rewrite E. apply Hk, Ht.
Qed.
Lemma sim_gets {A} (f : vm -> A) : (forall s, f (room s) = f s) -> sim (agets f).
Proof. intros H s Hs. split; [exact Hs|]. unfold agets. now rewrite H. Qed.
Lemma sim_mod f : (forall s, okay s -> okay (f s) /\ f (room s) = room (f s)) -> sim (amod f).
Proof. intros H s Hs. destruct (H s Hs) as [H1 H2]. split; [exact H1|]. unfold amod. now rewrite H2. Qed.
Lemma sim_panic {A} : sim (A := A) apanic. Proof. intros s _. reflexivity. Qed.
Lemma sim_err0 {A} e : sim (A := A) (error_0 e). Proof. intros s H. split; [exact H|reflexivity]. Qed.
Lemma sim_err1 {A} e : sim (A := A) (error_1 e). Proof. intros s H. split; [exact H|reflexivity]. Qed.
Lemma sim_errf {A} e : sim (A := A) (errorf e). Proof. intros s H. split; [exact H|reflexivity]. Qed.
Lemma sim_lift {A} (r : res A) : sim (lift_1 r).
Proof. destruct r; [apply sim_ret|apply sim_err1|apply sim_panic]. Qed.
Ltac triv := intros s H; cbn [room v_data v_exits v_blocks v_globals v_externals v_opens v_heap v_frames v_frame v_stack v_sp v_reads v_n v_opts];
  repeat match goal with |- context [match ?x with _ => _ end] => lazymatch x with context [match _ with _ => _ end] => fail | error_0 _ _ => fail | _ => destruct x end end; try reflexivity; (split; [exact H|reflexivity]).
Lemma sim_push v : sim (push v). Proof. unfold push. triv. Qed.
Lemma sim_push_unchecked v : sim (push_unchecked v). Proof. unfold push_unchecked. triv. Qed.
Lemma sim_push_many n : sim (push_many n). Proof. intros s H. unfold push_many. cbn [set_stack room v_sp v_opts v_stack]. destruct (_ <=? _); (split; [exact H|reflexivity]). Qed.
Lemma sim_slot i : sim (slot i). Proof. unfold slot. triv. Qed.
Lemma sim_set_slot i v : sim (set_slot i v). Proof. unfold set_slot. triv. Qed.
Lemma sim_pop : sim pop.
Proof. intros s H. unfold pop. change (v_sp (room s)) with (v_sp s). destruct (v_sp s) as [|k]; [reflexivity|]. exact (sim_slot k (set_stack (v_stack s) k s) H). Qed.
Lemma sim_pop_many n : sim (pop_many n). Proof. unfold pop_many. triv. Qed.
Lemma sim_peekn n : sim (peekn n).
Proof. intros s H. unfold peekn. change (v_sp (room s)) with (v_sp s). destruct (v_sp s <? S n); [reflexivity|]. exact (sim_slot _ s H). Qed.
Lemma sim_swap : sim swap. Proof. unfold swap. triv. Qed.
Lemma sim_const i : sim (get_constant i).
Proof. intros s H. unfold get_constant. change (cur_chunk (room s)) with (cur_chunk s). destruct (chunk_get_constant _ _); try reflexivity. split; [exact H|reflexivity]. Qed.
Lemma sim_name id : pool_get g2 id = pool_get g1 id -> sim (global_name id).
Proof. intros E s H. split; [exact H|]. unfold global_name, agets. cbn [room v_gsyms]. destruct H as [-> _]. now rewrite E. Qed.
Lemma sim_up_get c : sim (up_get c).
Proof.
  intros s H. unfold up_get. change (v_heap (room s)) with (v_heap s). destruct (nth_error _ _) as [[l|v]|]; [exact (sim_slot l s H)| |reflexivity].
  split; [exact H|reflexivity].
Qed.
Lemma sim_up_set c v : sim (up_set c v).
Proof.
  intros s H. unfold up_set. change (v_heap (room s)) with (v_heap s). destruct (nth_error _ _) as [[l|w]|]; [exact (sim_set_slot l v s H)| |reflexivity].
  split; [exact H|reflexivity].
Qed.
Lemma sim_capture l : sim (capture_upvalue l).
Proof. unfold capture_upvalue. intros s H. change (v_heap (room s)) with (v_heap s). change (v_opens (room s)) with (v_opens s). destruct (find _ _); (split; [exact H|reflexivity]). Qed.
Lemma sim_close l : sim (close_upvalues l). Proof. unfold close_upvalues. triv. Qed.
Lemma sim_range n : forall from, sim (close_range from n).
Proof. induction n as [|n IH]; intros from; cbn [close_range]; [apply sim_ret|]. apply sim_bind; [apply sim_close|intros; apply IH]. Qed.
Lemma sim_time : sim (has_runtime_exceeded hst).
Proof.
  intros s H. unfold has_runtime_exceeded, abind, agets, amod. cbn [room v_reads v_n v_opts set_count].
  destruct (N.ltb _ _); (split; [exact H|reflexivity]).
Qed.
Lemma sim_pop_items n : sim (pop_items n).
Proof. induction n; cbn [pop_items]; [apply sim_ret|]. apply sim_bind; [apply sim_pop|intros]. apply sim_bind; [assumption|intros; apply sim_ret]. Qed.
Lemma sim_push_items l : sim (push_items l).
Proof. induction l; cbn [push_items]; [apply sim_ret|]. apply sim_bind; [apply sim_push|intros; assumption]. Qed.
Lemma sim_state {B} (k : vm -> act D B) : (forall s, sim (k s)) -> (forall s, k (room s) = k s) -> sim (abind (agets (fun s => s)) k).
Proof. intros H E s Hs. unfold abind, agets. rewrite E. apply H, Hs. Qed.
Lemma sim_here {B} (k : vm -> act D B) : (forall s, sim (k s)) -> (forall s, k (room s) = k s) -> sim (fun s => k s s).
Proof. exact (sim_state k). Qed.
Lemma sim_captures n : sim (read_captures n).
Proof.
  induction n as [|n IH]; cbn [read_captures]; [apply sim_ret|]. apply sim_state; [|reflexivity]. intros s.
  destruct (bc_read_u8 _ _); try apply sim_panic. destruct (bc_read_u16 _ _); try apply sim_panic.
  apply sim_bind; [apply sim_mod; intros s1 Hs1; split; [exact Hs1|reflexivity]|intros _].
  apply sim_bind; [|intros; apply sim_bind; [exact IH|intros; apply sim_ret]].
  destruct (_ =? 1)%N; [apply sim_capture|]. destruct (nth_error _ _); [apply sim_ret|apply sim_panic].
Qed.
Lemma sim_args n : sim (take_args n). Proof. unfold take_args. triv. Qed.
Lemma sim_data {A} d (a : act D A) : sim a -> sim (fun s => a (set_data d s)).
Proof. intros H s Hs. exact (H (set_data d s) Hs). Qed.
Lemma sim_builtin f args : sim (run_builtin f args).
Proof.
  intros s H. unfold run_builtin. cbn [room v_data v_opts]. destruct (f (v_data s) args (v_opts s)) as [d r].
  exact (sim_data d _ (sim_lift r) s H).
Qed.
Lemma sim_jump off : sim (jump_forward off).
Proof. apply sim_mod. intros s Hs. split; [exact Hs|reflexivity]. Qed.
Lemma sim_globals f : sim (amod (fun s => set_globals (f (v_globals s)) s)).
Proof. apply sim_mod. intros s Hs. split; [exact Hs|reflexivity]. Qed.
Lemma sim_blocks f : sim (amod (fun s => set_blocks (f (v_blocks s)) s)).
Proof. apply sim_mod. intros s Hs. split; [exact Hs|reflexivity]. Qed.
Lemma sim_exits f : sim (amod (fun s => set_exits (f (v_exits s)) s)).
Proof. apply sim_mod. intros s Hs. split; [exact Hs|reflexivity]. Qed.
Lemma sim_swap_out : sim pop_swap_out.
Proof.
  apply sim_bind; [apply sim_pop|intros]. apply sim_bind; [now apply sim_gets|intros]. apply sim_bind; [apply sim_set_slot|intros; apply sim_ret].
Qed.
Lemma sim_double : sim pop_double.
Proof. apply sim_bind; [apply sim_pop|intros]. apply sim_bind; [apply sim_pop|intros; apply sim_ret]. Qed.
Lemma sim_pop_peek : sim pop_peek.
Proof. apply sim_bind; [apply sim_pop|intros]. apply sim_bind; [apply sim_peekn|intros; apply sim_ret]. Qed.
Ltac ps := first [apply sim_ret|apply sim_panic|apply sim_err0|apply sim_err1|apply sim_errf|apply sim_lift|apply sim_push|apply sim_push_unchecked
  |apply sim_push_many|apply sim_slot|apply sim_set_slot|apply sim_pop|apply sim_pop_many|apply sim_peekn|apply sim_swap|apply sim_const|(apply sim_name; assumption)
  |apply sim_up_get|apply sim_up_set|apply sim_capture|apply sim_close|apply sim_time|apply sim_pop_items|apply sim_push_items|apply sim_captures|apply sim_args
  |apply sim_jump|apply sim_swap_out|apply sim_double|apply sim_pop_peek|apply sim_builtin|(apply sim_gets; reflexivity)
  |match goal with
   | |- sim (abind _ _) => apply sim_bind; [|intros]
   | |- sim (match ?x with _ => _ end) => destruct x
   | |- sim (if ?x then _ else _) => destruct x
   end].
Lemma sim_with {A B} (f : vm -> A) (k : A -> act D B) : (forall s, okay s -> f (room s) = f s) -> (forall s, okay s -> sim (k (f s))) -> sim (abind (agets f) k).
Proof. intros E H s Hs. unfold abind, agets. rewrite E by exact Hs. now apply H. Qed.
Lemma sim_call argc : sim (exec m hst (ICallFunction argc)).
Proof.
  cbn [exec]. apply sim_bind; [apply sim_peekn|intros v]. intros s H. cbn [room v_opts v_frames].
  destruct (_ <=? _); [split; [exact H|reflexivity]|]. destruct v as [| | | | | | | | | | |c]; try (exact (sim_err1 _ s H)). cbv zeta.
  destruct (argc =? fn_arity (mfn_function c))%N; [|exact (sim_err0 _ s H)]. split; [exact H|reflexivity].
Qed.
Lemma sim_exit_context : sim (exec m hst IExitContext).
Proof.
  cbn [exec]. apply sim_bind; [now apply sim_gets|intros [|x rest]]; [apply sim_ret|].
  apply sim_bind; [exact (sim_exits (fun _ => rest))|intros _]. intros s H. change (v_data (room s)) with (v_data s).
  destruct (x (v_data s)) as [d r]. exact (sim_data d _ (sim_lift r) s H).
Qed.

(** What the instruction asks of the tables is the same. *)
Definition fine (i : instr) : Prop :=
  match i with
  | ILoadGlobal id | ISetGlobal id => pool_get g2 id = pool_get g1 id
  | ICallBuiltin id _ | IEnterContext id _ => pool_get g2 id = pool_get g1 id /\ alookup N.eqb id b2 = alookup N.eqb id b1
  | _ => True
  end.
Lemma look_room b : alookup N.eqb b b2 = alookup N.eqb b b1 -> forall s, okay s -> alookup N.eqb b (v_builtins (room s)) = alookup N.eqb b (v_builtins s).
Proof. intros E s [_ ->]. exact E. Qed.
Lemma sim_enter_context b argc : fine (IEnterContext b argc) -> sim (exec m hst (IEnterContext b argc)).
Proof.
  intros [F1 F2]. cbn [exec]. apply sim_with; [now apply look_room|intros s Hs]. destruct (alookup N.eqb b (v_builtins s)) as [[f|f x]|]; repeat ps. exact (sim_exits (fun l => x :: l)).
Qed.
Lemma sim_call_builtin b argc : fine (ICallBuiltin b argc) -> sim (exec m hst (ICallBuiltin b argc)).
Proof. intros [F1 F2]. cbn [exec]. apply sim_with; [now apply look_room|intros s Hs]. destruct (alookup N.eqb b (v_builtins s)) as [[f|f x]|]; repeat ps. Qed.
Lemma sim_compare off : sim (exec m hst (IJumpIfNotEq off)).
Proof.
  cbn [exec]. apply sim_bind; [apply sim_pop_peek|intros vc].
  apply (sim_here (fun s0 s => match geqb (feq_at hst s0) (fst vc) (snd vc) with Ok true => AOk tt s | Ok false => jump_forward off s | _ => APanic end)); [|reflexivity].
  intros s0. destruct (geqb _ _ _) as [[]| |]; [apply sim_ret|apply sim_jump|apply sim_panic|apply sim_panic].
Qed.
Lemma sim_back off : sim (exec m hst (IJumpBackward off)).
Proof. cbn [exec]. intros s H. change (ip (room s)) with (ip s). destruct (ip s <? N.to_nat off); [reflexivity|]. split; [exact H|reflexivity]. Qed.
Lemma sim_binary o : sim (exec m hst (IBinary o)).
Proof.
  cbn [exec]. apply sim_bind; [apply sim_double|intros ab]. intros s H. change (feq_at hst (room s)) with (feq_at hst s). cbn [room v_opts].
  destruct (binary_fn _ _ _ _ _ _ _) as [f|]; [|reflexivity].
  refine (sim_bind _ _ (sim_lift _) _ s H). intros. apply sim_push_unchecked.
Qed.
Lemma exec_sim i : fine i -> sim (exec m hst i).
Proof.
  intros F. destruct i; try (first [now apply sim_enter_context|now apply sim_call_builtin|apply sim_call|apply sim_exit_context|apply sim_compare|apply sim_back|apply sim_binary]);
    cbn [exec fine] in *; try (repeat ps; fail).
  all: try (repeat ps; first [exact (sim_blocks (fun b => _ :: b))|exact (sim_globals (ainsert _ _))]; fail).
  - apply sim_bind; [apply sim_pop|intros v]. apply sim_mod. intros s Hs. change (v_globals (room s)) with (v_globals s).
    destruct (alookup _ _ _); (split; [exact Hs|reflexivity]).
  - repeat ps. match goal with |- sim (amod (set_blocks ?r)) => exact (sim_blocks (fun _ => r)) end.
Qed.

Definition sims (a b : sres D) : Prop :=
  match a with
  | SNext t => okay t /\ b = SNext (room t)
  | SDone v t => b = SDone v (room t)
  | SErr e sp t => b = SErr e sp (room t)
  | SPanic => b = SPanic
  end.
Lemma return_sim s : okay s -> sims (do_return m hst s) (do_return m hst (room s)).
Proof.
  intros H. unfold do_return. pose proof (sim_pop s H) as P. destruct (pop s) as [v s1|e sp s1|]; [|destruct P as [P1 P2]; rewrite P2; reflexivity|rewrite P; reflexivity].
  destruct P as [H1 E1]. rewrite E1. change (v_frame (room s1)) with (v_frame s1). change (v_sp (room s1)) with (v_sp s1).
  pose proof (sim_range (v_sp s1 - f_st (v_frame s1)) (f_st (v_frame s1)) s1 H1) as P. destruct (close_range _ _ s1) as [x t|e sp t|]; [|destruct P as [P1 P2]; rewrite P2; reflexivity|rewrite P; reflexivity].
  destruct P as [T3 P]. rewrite P. change (v_frames (room t)) with (v_frames t).
  destruct (v_frames t) as [|fr rest] eqn:Ef.
  - change (v_sp (room t)) with (v_sp t). destruct m; [|reflexivity]. destruct (v_sp t); reflexivity.
  - cbn zeta. set (u := set_frames rest fr (set_stack (v_stack (set_data (h_leave hst (v_data t)) t)) (f_st (v_frame (set_data (h_leave hst (v_data t)) t))) (set_data (h_leave hst (v_data t)) t))).
    assert (K : okay u) by exact T3.
    match goal with |- context [push v ?x] => match x with u => fail 1 | _ => change x with (room u) end end.
    pose proof (sim_push v u K) as Q. destruct (push v u) as [y u1|e sp u1|]; [|destruct Q as [Q1 Q2]; rewrite Q2; reflexivity|rewrite Q; reflexivity].
    destruct Q as [P1 P2]. rewrite P2. split; [exact P1|reflexivity].
Qed.
Lemma tick_sim : sim (tick hst).
Proof.
  unfold tick. apply sim_bind; [now apply sim_gets|intros n]. destruct (64 <? n).
  - apply sim_bind; [apply sim_time|intros _]. apply sim_mod. intros s Hs. split; [exact Hs|reflexivity].
  - apply sim_mod. intros s Hs. split; [exact Hs|reflexivity].
Qed.
Lemma tick_place s : match tick hst s with AOk _ t => v_frame t = v_frame s | _ => True end.
Proof. unfold tick, has_runtime_exceeded, abind, agets, amod. destruct (64 <? _); [|reflexivity]. destruct (_ <? _)%N; [exact I|reflexivity]. Qed.
Lemma step_sim s : okay s -> (forall i next, decode (ck_ops (cur_chunk s)) (ip s) = Ok (i, next) -> fine i) -> sims (step m hst s) (step m hst (room s)).
Proof.
  intros H HF. unfold step. pose proof (tick_sim s H) as T. pose proof (tick_place s) as TP. destruct (tick hst s) as [x t|e sp t|]; [|destruct T as [T1 T2]; rewrite T2; reflexivity|rewrite T; reflexivity].
  destruct T as [Ht E]. rewrite E. change (cur_chunk (room t)) with (cur_chunk t). change (ip (room t)) with (ip t).
  assert (HF' : forall i next, decode (ck_ops (cur_chunk t)) (ip t) = Ok (i, next) -> fine i) by (unfold cur_chunk, ip in *; now rewrite TP).
  destruct (chunk_len (cur_chunk t) <=? ip t); [reflexivity|].
  clear HF. destruct (decode _ _) as [[i next]| |]; try reflexivity. specialize (HF' i next eq_refl).
  assert (K : okay (set_ip next t)) by exact Ht.
  change (set_ip next (room t)) with (room (set_ip next t)). pose proof (exec_sim i HF' _ K) as X.
  assert (Y : sims match exec m hst i (set_ip next t) with AOk _ s' => SNext s' | AErr e sp s' => SErr e sp s' | APanic => SPanic end
                   match exec m hst i (room (set_ip next t)) with AOk _ s' => SNext s' | AErr e sp s' => SErr e sp s' | APanic => SPanic end).
  { destruct (exec m hst i (set_ip next t)) as [y u|e sp u|]; [|destruct X as [X1 X2]; rewrite X2; reflexivity|rewrite X; reflexivity].
    destruct X as [X1 X2]. rewrite X2. split; [exact X1|reflexivity]. }
  destruct i; try exact Y. now apply return_sim.
Qed.
(** As long as every state reached asks for the same. *)
Lemma loop_sim k : forall s0 s, reach m hst s0 s -> okay s -> (forall s i next, reach m hst s0 s -> decode (ck_ops (cur_chunk s)) (ip s) = Ok (i, next) -> fine i) ->
  match loop m hst k s with
  | RDone v t => loop m hst k (room s) = RDone v (room t)
  | RErr e sp t => loop m hst k (room s) = RErr e sp (room t)
  | ROut t => loop m hst k (room s) = ROut (room t)
  | RPanic => loop m hst k (room s) = RPanic
  end.
Proof.
  induction k as [|k IH]; intros s0 s R H HF; cbn [loop]; [reflexivity|]. pose proof (step_sim s H (fun i next => HF s i next R)) as X.
  destruct (step m hst s) as [t|v t|e sp t|] eqn:E; cbn [sims] in X; [|now rewrite X..].
  destruct X as [Ht ->]. apply (IH s0); auto. econstructor; eauto.
Qed.
End Dress.
