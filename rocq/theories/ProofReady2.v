(** What one instruction does to the stack pointer, the position and the values (proof
    device for C03). *)
From Verif Require Import Base RleVec Pool Vecc Float NumText Bytecode Chunk Value Ast Arith VmOps
                          Compiler Vm SpecReady SpecRel ProofRel ProofHeight ProofReady.

Ltac Zify.zify_post_hook ::= Z.div_mod_to_equations.

Section Exec.
Context {D : Type} (m : mode) (hst : host D) (good : mfn -> Prop).
Notation vm := (vm D).
Notation vok := (vok good).
Notation vals := (@vals D good).
Notation moved := (@moved D good).

Lemma moved_eq s s' k k' : moved s s' k -> k = k' -> moved s s' k'.
Proof using. intros H <-. exact H. Qed.

Tactic Notation "nxt" uconstr(L) constr(M) := eapply wp_imp; [apply (L good); try (apply M); try assumption|].

Definition is_plain (i : instr) : Prop :=
  match i with
  | IHalt | IReturn | IJumpForward _ | IJumpBackward _ | IJumpIfFalse _ | IJumpIfNotEq _ | IIterNext _
  | IBlockResult | IBlockReturn | ICallFunction _ | ICreateClosure _ => False
  | _ => True
  end.

Lemma exec_plain i s : is_plain i -> vals s -> operands i <= v_sp s ->
  (forall k v, i = ILoadConst k -> chunk_get_constant (cur_chunk s) k = Ok v -> vok v) ->
  (forall k f, i = ICreateFunction k -> chunk_get_constant (cur_chunk s) k = Ok (VFn (MFun f)) -> good (MClo f [])) ->
  wp (exec m hst i) s (fun _ s' => moved s s' (v_sp s - operands i + results i)).
Proof using.
  intros Hp H Ho Hc Hf. destruct i; try contradiction; cbn [exec operands results] in *; cbv [peek pop_peek].
  - (* Pop *) apply wp_bind. nxt wp_pop H. intros v s1 [M1 Hv]. apply wp_ret. eapply moved_eq; [exact M1|lia].
  - (* PopMany *) nxt wp_pop_many H. intros [] s1 M1. eapply moved_eq; [exact M1|lia].
  - (* Swap *) nxt wp_swap H. intros [] s1 M1. eapply moved_eq; [exact M1|lia].
  - (* SwapPop *) apply wp_bind. nxt wp_swap H. intros [] s1 M1. apply wp_bind. nxt wp_pop M1. intros v s2 [M2 Hv]. apply wp_ret.
    eapply moved_eq; [eapply moved_trans; eauto|]. rewrite (mv_sp _ _ _ _ M1). lia.
  - (* LoadConst *) apply wp_bind. unfold get_constant at 1, wp at 1.
    destruct (chunk_get_constant (cur_chunk s) i) as [v|e|] eqn:E; auto.
    nxt wp_push H; [eapply Hc; eauto|]. intros [] s1 M1. eapply moved_eq; [exact M1|lia].
  - (* LoadLocal *) apply wp_bind, wp_gets, wp_bind. nxt wp_slot H. intros v s1 [-> Hv].
    nxt wp_push H. intros [] s1 M1. eapply moved_eq; [exact M1|lia].
  - (* SetLocal *) apply wp_bind. nxt wp_peekn H. intros v s1 (-> & Hv & _). apply wp_bind, wp_gets.
    nxt wp_set_slot H. intros [] s1 M1. eapply moved_eq; [exact M1|lia].
  - (* DefineGlobal *) apply wp_bind. nxt wp_pop H. intros v s1 [M1 Hv]. apply wp_mod.
    destruct M1 as [V1 F1 G1 B1 S1]. destruct V1. constructor; auto; [constructor; auto; apply ainsert_forall; auto|].
    cbn. lia.
  - (* LoadUpvalue *) apply wp_bind, wp_gets. destruct (nth_error _ _); [|exact I]. apply wp_bind. nxt wp_up_get H.
    intros v s1 [-> Hv]. nxt wp_push H. intros [] s1 M1. eapply moved_eq; [exact M1|lia].
  - (* SetUpvalue *) apply wp_bind. nxt wp_peekn H. intros v s1 (-> & Hv & _). apply wp_bind, wp_gets.
    destruct (nth_error _ _); [|exact I]. nxt wp_up_set H. intros [] s1 M1. eapply moved_eq; [exact M1|lia].
  - (* LoadGlobal *) apply wp_bind, wp_gets. destruct (alookup _ _ _) eqn:E; [|exact I].
    nxt wp_push H; [apply (alookup_forall _ _ _ _ (va_globals _ _ H) E)|]. intros [] s1 M1. eapply moved_eq; [exact M1|lia].
  - (* SetGlobal *) apply wp_bind. nxt wp_peekn H. intros v s1 (-> & Hv & _). apply wp_bind, wp_gets.
    destruct (alookup _ _ _) eqn:E; [|exact I]. apply wp_mod.
    destruct H. constructor; auto; [constructor; auto; apply ainsert_forall; auto|]. cbn. lia.
  - (* DefineGlobalDefaulted *) apply wp_bind. nxt wp_pop H. intros v s1 [M1 Hv]. apply wp_mod.
    destruct (alookup _ _ _); [eapply moved_eq; [exact M1|lia]|].
    destruct M1 as [V1 F1 G1 B1 S1]. destruct V1. constructor; auto; [constructor; auto; apply ainsert_forall; auto|].
    cbn. lia.
  - (* CloseUpvalue *) apply wp_bind, wp_gets. destruct (v_sp s) as [|k] eqn:E; [exact I|]. apply wp_bind. nxt wp_close H.
    intros [] s1 M1. apply wp_bind. nxt wp_pop M1. intros v s2 [M2 Hv]. apply wp_ret.
    eapply moved_eq; [eapply moved_trans; eauto|]. rewrite (mv_sp _ _ _ _ M1). lia.
  - (* CreateFunction *) apply wp_bind. unfold get_constant at 1, wp at 1.
    destruct (chunk_get_constant (cur_chunk s) i) as [v|e|] eqn:E; auto.
    destruct v; try exact I. destruct f as [f|f us]; [|exact I].
    nxt wp_push H.
    + intros g Hg. inversion Hg; subst. eapply Hf; eauto.
    + intros [] s1 M1. eapply moved_eq; [exact M1|lia].
  - (* CreatePair *) apply wp_bind. nxt wp_pop_double H. intros ab s1 (M1 & Ha & Hb). nxt wp_push_unchecked M1.
    + intros g Hg. inversion Hg; subst; auto.
    + intros [] s2 M2. eapply moved_eq; [eapply moved_trans; eauto|]. rewrite (mv_sp _ _ _ _ M1). lia.
  - (* CreateArray *) apply wp_bind. nxt wp_pop_items H. intros l s1 [M1 Hl]. apply wp_bind, wp_gets, wp_bind, wp_lift.
    intros v Ev. nxt wp_push M1; [eapply array_vok; eauto|]. intros [] s2 M2.
    eapply moved_eq; [eapply moved_trans; eauto|]. rewrite (mv_sp _ _ _ _ M1). lia.
  - (* CreateRange *) apply wp_bind. nxt wp_pop_double H. intros ab s1 (M1 & Ha & Hb). apply wp_bind, wp_lift. intros v Ev.
    nxt wp_push M1; [eapply range_vok; [| |exact Ev]; auto|].
    intros [] s2 M2. eapply moved_eq; [eapply moved_trans; eauto|]. rewrite (mv_sp _ _ _ _ M1). lia.
  - (* CallBuiltin *) apply wp_bind, wp_gets. destruct (alookup _ _ _) as [[f|e x]|] eqn:E; [|exact I|exact I].
    pose proof (alookup_forall _ _ _ _ (va_builtins _ _ H) E) as Hh. cbn in Hh.
    apply wp_bind. nxt wp_take_args H. intros args s1 [M1 Ha]. apply wp_bind. nxt wp_run_builtin M1.
    intros v s2 [M2 Hv]. apply wp_bind. nxt wp_push M2. intros [] s3 M3. eapply wp_imp; [apply (wp_runtime hst good); apply M3|]. intros [] s4 M4.
    eapply moved_eq; [eapply moved_trans; [|exact M4]; eapply moved_trans; [|exact M3]; eapply moved_trans; eauto|].
    rewrite (mv_sp _ _ _ _ M3), (mv_sp _ _ _ _ M2), (mv_sp _ _ _ _ M1). lia.
  - (* EnterContext *) apply wp_bind, wp_gets. destruct (alookup _ _ _) as [bi|] eqn:E; [|exact I].
    pose proof (alookup_forall _ _ _ _ (va_builtins _ _ H) E) as Hh.
    assert (Hh' : honest (fst (match bi with BFn f => (f, None) | BContext e x => (e, Some x) end)))
      by (destruct bi; exact Hh).
    destruct (match bi with BFn f => (f, None) | BContext e x => (e, Some x) end) as [entry exit]. cbn in Hh'.
    apply wp_bind. nxt wp_take_args H. intros args s1 [M1 Ha]. apply wp_bind.
    assert (W : wp (match exit with Some x => amod (fun s => set_exits (x :: v_exits s) s) | None => aret tt end) s1
                   (fun _ s' => moved s1 s' (v_sp s1))).
    { destruct exit; [apply wp_mod|apply wp_ret, moved_refl, M1]. destruct M1 as [V1 F1 G1 B1 S1]. destruct V1. constructor; auto. constructor; auto. }
    eapply wp_imp; [exact W|]. intros [] s2 M2. apply wp_bind. nxt wp_run_builtin M2. intros v s3 [M3 Hv].
    nxt wp_push M3. intros [] s4 M4.
    eapply moved_eq; [eapply moved_trans; [|exact M4]; eapply moved_trans; [|exact M3]; eapply moved_trans; eauto|].
    rewrite (mv_sp _ _ _ _ M3), (mv_sp _ _ _ _ M2), (mv_sp _ _ _ _ M1). lia.
  - (* ExitContext *) apply wp_bind, wp_gets. destruct (v_exits s) as [|x rest]; [apply wp_ret; eapply moved_eq; [apply moved_refl; auto|lia]|].
    apply wp_bind, wp_mod. unfold wp. destruct (x _) as [d r]. destruct r; [|exact I|exact I]. cbn.
    destruct H. constructor; auto; [constructor; auto|]. cbn. lia.
  - (* Unpack *) apply wp_bind. nxt wp_pop_swap_out H. intros v s1 [M1 Hv]. apply wp_bind, wp_lift. intros l El.
    nxt wp_push_items M1.
    + apply Forall_rev. eapply unpack_vok; eauto.
    + intros [] s2 M2. eapply moved_eq; [eapply moved_trans; eauto|]. rewrite (mv_sp _ _ _ _ M1), rev_length, (unpack_len _ _ _ El). lia.
  - (* LoadNone *) nxt wp_push H; [apply vok_none|]. intros [] s1 M1. eapply moved_eq; [exact M1|lia].
  - (* LoadNoneMany *) nxt wp_push_many H. intros [] s1 M1. eapply moved_eq; [exact M1|lia].
  - (* NewLoopCtx *) nxt wp_push H; [apply vok_loop|]. intros [] s1 M1. eapply moved_eq; [exact M1|lia].
  - (* IndexGet *) apply wp_bind. nxt wp_pop H. intros v s1 [M1 Hv]. apply wp_bind. nxt wp_pop M1. intros i s2 [M2 Hi].
    apply wp_bind, wp_lift. intros r Er. nxt wp_push M2; [eapply index_vok; [| |exact Er]; auto|]. intros [] s3 M3.
    eapply moved_eq; [eapply moved_trans; [|exact M3]; eapply moved_trans; eauto|].
    rewrite (mv_sp _ _ _ _ M2), (mv_sp _ _ _ _ M1). lia.
  - (* Unary *) apply wp_bind. nxt wp_pop H. intros v s1 [M1 Hv]. destruct (unary_fn m mfi o) as [f|] eqn:E; [|exact I].
    apply wp_bind, wp_lift. intros r Er. nxt wp_push_unchecked M1; [eapply unary_vok; [exact E| |exact Er]; auto|].
    intros [] s2 M2. eapply moved_eq; [eapply moved_trans; eauto|]. rewrite (mv_sp _ _ _ _ M1). lia.
  - (* Binary *) apply wp_bind. nxt wp_pop_double H. intros ab s1 (M1 & Ha & Hb). unfold wp.
    destruct (binary_fn _ _ _ _ _ _ o) as [f|] eqn:E; [|exact I].
    change (wp (abind (lift_1 (f (fst ab) (snd ab))) (fun r => push_unchecked r)) s1 (fun _ s' => moved s s' (v_sp s - 2 + 1))).
    apply wp_bind, wp_lift. intros r Er. nxt wp_push_unchecked M1; [eapply binary_vok; [exact E| | |exact Er]; auto|].
    intros [] s2 M2. eapply moved_eq; [eapply moved_trans; eauto|]. rewrite (mv_sp _ _ _ _ M1). lia.
Qed.

(** The others. *)
Definition at_ip (s s' : vm) (p : nat) (k : nat) : Prop :=
  vals s' /\ v_frames s' = v_frames s /\ v_frame s' = fr_set_ip p (v_frame s) /\ v_blocks s' = v_blocks s /\ v_sp s' = k.

Lemma vals_ip p s : vals s -> vals (set_ip p s).
Proof using. intros []. constructor; auto. Qed.
Lemma at_moved s s1 k p : moved s s1 k -> at_ip s (set_ip p s1) p k.
Proof using. intros [V1 F1 G1 B1 S1]. split; [apply vals_ip; auto|]. cbn. rewrite G1. auto. Qed.
Lemma fr_same (f : frame) : fr_set_ip (f_ip f) f = f.
Proof using. destruct f; reflexivity. Qed.
Lemma moved_at s s1 k : moved s s1 k -> at_ip s s1 (ip s) k.
Proof using. intros [V1 F1 G1 B1 S1]. split; auto. unfold ip. rewrite fr_same. auto. Qed.

Lemma exec_jump off s : vals s -> wp (exec m hst (IJumpForward off)) s (fun _ s' => at_ip s s' (ip s + N.to_nat off) (v_sp s)).
Proof using. intros H. apply wp_mod. apply at_moved, moved_refl, H. Qed.
Lemma exec_back off s : vals s -> wp (exec m hst (IJumpBackward off)) s (fun _ s' => at_ip s s' (ip s - N.to_nat off) (v_sp s)).
Proof using. intros H. unfold wp. cbn [exec]. destruct (_ <? _); auto. apply at_moved, moved_refl, H. Qed.
Lemma exec_if off s : vals s -> wp (exec m hst (IJumpIfFalse off)) s (fun _ s' =>
  at_ip s s' (ip s) (v_sp s) \/ at_ip s s' (ip s + N.to_nat off) (v_sp s)).
Proof using.
  intros H. cbn [exec]. cbv [peek]. apply wp_bind. nxt wp_peekn H. intros v s1 (-> & Hv & _). apply wp_bind, wp_lift. intros [|] _.
  - apply wp_ret. left. apply moved_at, moved_refl, H.
  - apply wp_mod. right. apply at_moved, moved_refl, H.
Qed.
Lemma exec_neq off s : vals s -> wp (exec m hst (IJumpIfNotEq off)) s (fun _ s' =>
  at_ip s s' (ip s) (v_sp s - 1) \/ at_ip s s' (ip s + N.to_nat off) (v_sp s - 1)).
Proof using.
  intros H. cbn [exec]. cbv [peek pop_peek]. apply wp_bind, wp_bind. nxt wp_pop H. intros c s1 [M1 Hc]. apply wp_bind.
  nxt wp_peekn M1. intros v s2 (-> & Hv & _). apply wp_ret. unfold wp.
  destruct (geqb _ _ _) as [[|]|e|]; auto.
  - left. apply moved_at; auto.
  - right. cbn. unfold ip at 1. rewrite (mv_frame _ _ _ _ M1). apply at_moved; auto.
Qed.
Lemma exec_iter off s : vals s -> wp (exec m hst (IIterNext off)) s (fun _ s' =>
  at_ip s s' (ip s) (v_sp s + 1) \/ at_ip s s' (ip s + N.to_nat off) (v_sp s)).
Proof using.
  intros H. cbn [exec]. apply wp_bind, wp_gets. destruct (_ <? _); [exact I|]. apply wp_bind. nxt wp_slot H.
  intros c s1 [-> Hc]. destruct c; try exact I. apply wp_bind. nxt wp_set_slot H; [apply vok_loop|]. intros [] s1 M1.
  apply wp_bind. nxt wp_slot M1. intros v s2 [-> Hv]. apply wp_bind, wp_lift. intros [r|] Er.
  - nxt wp_push M1; [eapply iter_vok; eauto|]. intros [] s2 M2. left. apply moved_at.
    eapply moved_eq; [eapply moved_trans; eauto|]. rewrite (mv_sp _ _ _ _ M1). lia.
  - apply wp_mod. right. unfold ip at 1. rewrite (mv_frame _ _ _ _ M1). apply at_moved; auto.
Qed.
Lemma exec_result s : vals s -> wp (exec m hst IBlockResult) s (fun _ s' =>
  exists v, vals s' /\ v_frames s' = v_frames s /\ v_frame s' = v_frame s /\ v_blocks s' = v :: v_blocks s /\ v_sp s' = v_sp s - 1).
Proof using.
  intros H. cbn [exec]. apply wp_bind. nxt wp_pop_swap_out H. intros v s1 [M1 Hv]. apply wp_mod. exists v.
  destruct M1 as [V1 F1 G1 B1 S1]. split; [destruct V1; constructor; auto; constructor; auto|]. cbn. rewrite B1. auto.
Qed.
Lemma exec_breturn s : vals s -> wp (exec m hst IBlockReturn) s (fun _ s' =>
  exists v, vals s' /\ v_frames s' = v_frames s /\ v_frame s' = v_frame s /\ v_blocks s = v :: v_blocks s' /\ v_sp s' = v_sp s + 1).
Proof using.
  intros H. cbn [exec]. apply wp_bind, wp_gets. destruct (v_blocks s) as [|v rest] eqn:E; [exact I|].
  apply wp_bind, wp_mod. pose proof (va_blocks _ _ H) as Hb. rewrite E in Hb. inversion Hb; subst.
  assert (H' : vals (set_blocks rest s)) by (destruct H; constructor; auto).
  nxt wp_push H'. intros [] s1 [V1 F1 G1 B1 S1]. exists v. cbn in *. rewrite B1. repeat split; auto; try apply V1. lia.
Qed.
Lemma wp_read_captures n : forall s, vals s -> wp (read_captures n) s (fun l s' =>
  at_ip s s' (ip s + 3 * n) (v_sp s) /\ length l = n).
Proof using.
  induction n as [|n IH]; intros s H; cbn [read_captures].
  - apply wp_ret. split; [|auto]. replace (ip s + 3 * 0) with (ip s) by lia. apply moved_at, moved_refl, H.
  - apply wp_bind, wp_gets. destruct (bc_read_u8 _ _); [|exact I|exact I]. destruct (bc_read_u16 _ _); [|exact I|exact I].
    apply wp_bind, wp_mod, wp_bind. set (s1 := set_ip (ip s + 3) s).
    assert (H1 : vals s1) by (apply vals_ip; auto).
    assert (W : wp (if (a =? 1)%N then capture_upvalue (f_st (v_frame s) + N.to_nat a0)
                    else match nth_error (f_ups (v_frame s)) (N.to_nat a0) with Some c => aret c | None => apanic end) s1
                   (fun _ s' => moved s1 s' (v_sp s1))).
    { destruct (_ =? _)%N; [nxt wp_capture H1; auto|]. destruct (nth_error _ _); [apply wp_ret, moved_refl; auto|exact I]. }
    eapply wp_imp; [exact W|]. intros c s2 [V2 F2 G2 B2 S2]. apply wp_bind. eapply wp_imp; [apply IH; auto|].
    intros l s3 [(V3 & F3 & G3 & B3 & S3) Hl]. apply wp_ret. split; [|cbn; auto].
    assert (Hi : ip s2 = ip s + 3) by (unfold ip at 1; rewrite G2; reflexivity).
    split; [auto|]. split; [rewrite F3, F2; reflexivity|]. split; [|split; [rewrite B3, B2; reflexivity|rewrite S3, S2; reflexivity]].
    rewrite G3, G2, Hi. cbn. unfold fr_set_ip. cbn. f_equal. lia.
Qed.
Lemma exec_clo k f s : vals s -> chunk_get_constant (cur_chunk s) k = Ok (VFn (MFun f)) ->
  (forall us, length us = N.to_nat (fn_upcount f) -> good (MClo f us)) ->
  wp (exec m hst (ICreateClosure k)) s (fun _ s' => at_ip s s' (ip s + 3 * N.to_nat (fn_upcount f)) (v_sp s + 1)).
Proof using.
  intros H Hc Hg. cbn [exec]. apply wp_bind. unfold get_constant at 1, wp at 1. rewrite Hc.
  apply wp_bind. eapply wp_imp; [apply wp_read_captures; auto|]. intros us s1 [(V1 & F1 & G1 & B1 & S1) Hl].
  nxt wp_push V1.
  - intros g Hin. inversion Hin; subst. auto.
  - intros [] s2 [V2 F2 G2 B2 S2]. split; [auto|]. repeat split; try congruence. lia.
Qed.
Lemma exec_call n s : vals s -> wp (exec m hst (ICallFunction n)) s (fun _ s' =>
  exists c f ups, vok (VFn c) /\ f = mfn_function c /\ ups = (match c with MFun _ => [] | MClo _ us => us end) /\
    n = fn_arity f /\ vals s' /\ v_frames s' = v_frame s :: v_frames s /\
    v_frame s' = mkFrame f ups 0 (v_sp s - N.to_nat n - 1) /\ v_blocks s' = v_blocks s /\ v_sp s' = v_sp s).
Proof using.
  intros H. cbn [exec]. apply wp_bind. nxt wp_peekn H. intros v s1 (-> & Hv & _). unfold wp.
  destruct (_ <=? _); [exact I|]. destruct v; try exact I. destruct (n =? _)%N eqn:E; [|exact I]. apply N.eqb_eq in E.
  exists f, (mfn_function f), (match f with MFun _ => [] | MClo _ us => us end).
  split; [auto|]. split; [auto|]. split; [auto|]. split; [auto|]. split; [destruct H; constructor; auto|]. cbn. auto.
Qed.
Lemma return_spec s s' : vals s -> do_return m hst s = SNext s' -> exists fr rest,
  v_frames s = fr :: rest /\ vals s' /\ v_frames s' = rest /\ v_frame s' = fr /\ v_blocks s' = v_blocks s /\
  v_sp s' = S (f_st (v_frame s)).
Proof using.
  intros H E. unfold do_return in E. pose proof (wp_pop good s H) as P. unfold wp in P.
  destruct (pop s) as [r s1| |]; try discriminate. destruct P as [[V1 F1 G1 B1 S1] Hr].
  pose proof (wp_close_range good (v_sp s1 - f_st (v_frame s1)) (f_st (v_frame s1)) s1 V1) as P. unfold wp in P.
  destruct (close_range _ _ s1) as [u s2| |]; try discriminate. destruct P as [V2 F2 G2 B2 S2].
  destruct (v_frames s2) as [|fr rest] eqn:Ef; [destruct m, (v_sp s2); discriminate|].
  match type of E with match push ?r ?x with _ => _ end = _ => set (s5 := x) in E;
    assert (V5 : vals s5) by (destruct V2; constructor; auto);
    pose proof (wp_push good r s5 V5 Hr) as P; unfold wp in P; destruct (push r s5); try discriminate end.
  injection E as <-. destruct P as [V6 F6 G6 B6 S6]. exists fr, rest. split; [congruence|]. split; [auto|].
  split; [rewrite F6; reflexivity|]. split; [rewrite G6; reflexivity|]. split; [rewrite B6; cbn; congruence|].
  rewrite S6. cbn. congruence.
Qed.
Lemma tick_spec s : vals s -> wp (tick hst) s (fun _ s' => moved s s' (v_sp s)).
Proof using.
  intros H. unfold tick. apply wp_bind, wp_gets. destruct (_ <? _).
  - apply wp_bind. eapply wp_imp; [apply (wp_runtime hst good); auto|]. intros [] s1 M1. apply wp_mod.
    destruct M1 as [V1 F1 G1 B1 S1]. constructor; auto. destruct V1; constructor; auto.
  - apply wp_mod. destruct H. constructor; auto. constructor; auto.
Qed.
End Exec.
