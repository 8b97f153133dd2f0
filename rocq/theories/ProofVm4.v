(** Proofs of C06 (second half), C17, C18 (host side), C23 and C25. *)
From Verif Require Import Base RleVec Pool Vecc Float NumText Bytecode Chunk Value Ast Arith VmOps
                          Compiler Vm SpecContainers ProofContainers SpecVm ProofVm ProofVm2 ProofVm3.

Section InTime.
Context {D : Type} (m : mode) (hst : host D).

Definition quiet (s : vm D) : Prop :=
  in_time hst s /\
  (forall i b, alookup N.eqb i (v_builtins s) = Some b -> own_errors b) /\
  Forall (fun x : xfn D => forall d l, snd (x d) <> Err (ERuntimeLimit l)) (v_exits s).

Lemma quiet_tame : tame hst quiet (fun e => ~ is_limit e).
Proof.
  constructor; unfold quiet, in_time.
  - auto.
  - intros; cbn; intuition congruence.
  - intros; cbn; intuition congruence.
  - intros; cbn; intuition congruence.
  - intros; cbn; intuition congruence.
  - intros; cbn; intuition congruence.
  - intros; cbn; intuition congruence.
  - intros s (H1 & H2 & H3). destruct (_ <? _)%N eqn:E.
    + apply N.ltb_lt in E. specialize (H1 (v_reads s) ltac:(lia)). lia.
    + cbn. repeat split; auto. intros k Hk. apply H1. lia.
  - intros s b f args e (H1 & H2 & H3) E Ee [l ->]. eapply (H2 _ _ E); eauto.
  - intros s b f x args (H1 & H2 & H3) E. destruct (H2 _ _ E) as [Ha Hb]. cbn. repeat split; auto.
    intros e Ee [l ->]. eapply Ha; eauto.
  - intros s x r (H1 & H2 & H3) E. rewrite E in H3. inversion H3; subst. cbn. repeat split; auto.
    intros e Ee [l ->]. eapply H4; eauto.
Qed.

Lemma within_limit s0 s :
  in_time hst s0 -> v_exits s0 = [] ->
  (forall i b, alookup N.eqb i (v_builtins s0) = Some b -> own_errors b) ->
  reach m hst s0 s -> forall l sp s', step m hst s <> SErr (ERuntimeLimit l) sp s'.
Proof.
  intros H1 H2 H3 Hr.
  assert (Hq : quiet s).
  { induction Hr as [|s1 s2 Hr IH E].
    - unfold quiet. rewrite H2. auto.
    - pose proof (gk_step m hst _ _ quiet_tame s1 IH ltac:(left; intros ? ? Hx; exact Hx)) as Hs.
      rewrite E in Hs. exact Hs. }
  intros l sp s' E.
  pose proof (gk_step m hst _ _ quiet_tame s Hq ltac:(left; intros ? ? Hx; exact Hx)) as Hs.
  rewrite E in Hs. apply Hs. exists l; reflexivity.
Qed.
End InTime.

Section GlobalsProof.
Context {D : Type} (m : mode) (hst : host D).

Lemma globals_tame g : tame hst (fun s : vm D => v_globals s = g) (fun _ => True).
Proof.
  constructor; auto.
  - intros s Hs. destruct (_ <? _)%N; auto.
Qed.

(** [step] is [tick], decoding and [exec]. *)
Lemma step_inv (s s' : vm D) : step m hst s = SNext s' ->
  exists s1 i ip', tick hst s = AOk tt s1 /\
    decode (ck_ops (cur_chunk s)) (ip s) = Ok (i, ip') /\
    v_frame s1 = v_frame s /\ v_frames s1 = v_frames s /\ v_stack s1 = v_stack s /\
    v_sp s1 = v_sp s /\ v_globals s1 = v_globals s /\
    (i = IReturn /\ do_return m hst (set_ip ip' s1) = SNext s' \/
     i <> IReturn /\ exec m hst i (set_ip ip' s1) = AOk tt s').
Proof.
  unfold step. intros H.
  assert (Ht : match tick hst s with
               | AOk _ s1 => v_frame s1 = v_frame s /\ v_frames s1 = v_frames s /\
                   v_stack s1 = v_stack s /\ v_sp s1 = v_sp s /\ v_globals s1 = v_globals s
               | _ => True end).
  { unfold tick, abind, agets. destruct (64 <? _); [|repeat split; reflexivity].
    unfold has_runtime_exceeded, abind, agets, amod. cbn [v_opts set_count].
    destruct (_ <? _)%N; [exact Logic.I|repeat split; reflexivity]. }
  destruct (tick hst s) as [[] s1| |]; try discriminate.
  destruct Ht as (H1 & H2 & H3 & H4 & H5).
  destruct (_ <=? _); [discriminate|].
  unfold cur_chunk, ip in *. rewrite H1 in H.
  destruct (decode _ _) as [[i ip']| |]; try discriminate.
  exists s1, i, ip'. repeat split; auto.
  assert (Hc : i = IReturn \/ i <> IReturn) by (destruct i; auto; right; discriminate).
  destruct Hc as [->|Hi]; [left; auto|]. right; split; auto.
  destruct (exec m hst i (set_ip ip' s1)) as [[] s2| |] eqn:E.
  - destruct i; congruence.
  - destruct i; congruence.
  - destruct i; congruence.
Qed.

Lemma live_last (s : vm D) k v : v_sp s = S k -> nth_error (v_stack s) k = Some v ->
  exists r, rev (live s) = v :: r.
Proof.
  intros H1 H2. unfold live. rewrite H1. clear H1. revert H2. generalize (v_stack s).
  induction k as [|k IH]; intros [|x l]; cbn [nth_error]; try discriminate.
  - intros [= ->]. exists []. reflexivity.
  - intros H. destruct (IH l H) as [r Hr]. cbn [firstn rev]. cbn [firstn] in Hr. rewrite Hr.
    exists (r ++ [x]). reflexivity.
Qed.

Lemma alookup_ainsert {V} i j (v : V) g :
  alookup N.eqb i (ainsert j v g) = if (i =? j)%N then Some v else alookup N.eqb i g.
Proof. reflexivity. Qed.

Lemma last_write_app {V} i (a b : list (N * V)) :
  last_write i (a ++ b) = match last_write i b with Some v => Some v | None => last_write i a end.
Proof.
  induction a as [|[j v] a IH]; cbn [app last_write].
  - destruct (last_write i b); auto.
  - rewrite IH. destruct (last_write i b); auto.
Qed.

Lemma step_globals (s s' : vm D) i : step m hst s = SNext s' ->
  alookup N.eqb i (v_globals s') =
    match last_write i (global_write s) with Some v => Some v | None => alookup N.eqb i (v_globals s) end.
Proof.
  intros H.
  assert (Hsame : match next_instr s with Some i => writes_global i = false | None => True end ->
                  v_globals s' = v_globals s).
  { intros Hw. pose proof (gk_step m hst _ _ (globals_tame (v_globals s)) s eq_refl (or_intror Hw)) as Hs.
    rewrite H in Hs. exact Hs. }
  destruct (step_inv s s' H) as (s1 & ins & ip' & Ht & Hd & H1 & H2 & H3 & H4 & H5 & He).
  unfold global_write. unfold next_instr in *. rewrite Hd in *.
  destruct (writes_global ins) eqn:Ew.
  2:{ specialize (Hsame eq_refl). rewrite Hsame. destruct ins; try discriminate Ew; reflexivity. }
  clear Hsame. destruct He as [[-> _]|[_ He]]; [discriminate|].
  destruct ins; try discriminate Ew; clear Ew; cbn [exec] in He; unfold abind at 1 in He.
  - (* DefineGlobal *)
    unfold pop in He. change (v_sp (set_ip ip' s1)) with (v_sp s1) in He. rewrite H4 in He.
    destruct (v_sp s) as [|k] eqn:Ek; [discriminate|].
    unfold slot in He. cbn [v_stack set_stack set_ip set_frames] in He. rewrite H3 in He.
    destruct (nth_error (v_stack s) k) as [v|] eqn:En; [|discriminate].
    destruct (live_last s k v Ek En) as [r ->]. unfold amod in He. injection He as <-.
    cbn [v_globals set_globals set_stack set_ip set_frames]. rewrite H5, alookup_ainsert.
    cbn [last_write]. destruct (i =? i0)%N; reflexivity.
  - (* SetGlobal *)
    unfold peek, peekn in He. change (v_sp (set_ip ip' s1)) with (v_sp s1) in He. rewrite H4 in He.
    destruct (v_sp s) as [|k] eqn:Ek; [discriminate|]. cbn [Nat.ltb Nat.leb] in He.
    unfold slot in He. cbn [v_stack set_stack set_ip set_frames] in He. rewrite H3 in He.
    replace (S k - 0 - 1) with k in He by lia.
    destruct (nth_error (v_stack s) k) as [v|] eqn:En; [|discriminate].
    destruct (live_last s k v Ek En) as [r ->]. unfold abind at 1, agets in He.
    destruct (alookup N.eqb i0 (v_globals (set_ip ip' s1))).
    + unfold amod in He. injection He as <-.
      cbn [v_globals set_globals set_stack set_ip set_frames]. rewrite H5, alookup_ainsert.
      cbn [last_write]. destruct (i =? i0)%N; reflexivity.
    + discriminate.
  - (* DefineGlobalDefaulted *)
    unfold pop in He. change (v_sp (set_ip ip' s1)) with (v_sp s1) in He. rewrite H4 in He.
    destruct (v_sp s) as [|k] eqn:Ek; [discriminate|].
    unfold slot in He. cbn [v_stack set_stack set_ip set_frames] in He. rewrite H3 in He.
    destruct (nth_error (v_stack s) k) as [v|] eqn:En; [|discriminate].
    destruct (live_last s k v Ek En) as [r ->]. unfold amod in He. injection He as <-.
    cbn [v_globals set_globals set_stack set_ip set_frames]. rewrite H5.
    destruct (alookup N.eqb i0 (v_globals s)) eqn:Eg.
    + cbn [last_write]. cbn [v_globals set_globals set_stack set_ip set_frames]. rewrite ?H5. reflexivity.
    + cbn [v_globals set_globals set_stack set_ip set_frames]. rewrite ?H5, alookup_ainsert.
      cbn [last_write]. destruct (i =? i0)%N; reflexivity.
Qed.

Lemma globals_log s0 log s : run_log m hst s0 log s -> forall i,
  alookup N.eqb i (v_globals s) =
    match last_write i log with Some v => Some v | None => alookup N.eqb i (v_globals s0) end.
Proof.
  induction 1 as [|s0 log s1 s2 Hr IH E]; intros i; [reflexivity|].
  rewrite (step_globals s1 s2 i E), last_write_app.
  destruct (last_write i (global_write s1)); auto.
Qed.

Lemma push_live (s s' : vm D) v : push v s = AOk tt s' -> live s' = live s ++ [v] /\ v_globals s' = v_globals s.
Proof.
  unfold push. destruct (_ <=? _); [discriminate|]. destruct (_ <? _) eqn:E; [|discriminate].
  intros [= <-]. split; [|reflexivity]. unfold live. cbn [v_sp v_stack set_stack].
  apply Nat.ltb_lt in E. revert E. generalize (v_sp s) (v_stack s). clear.
  intros n l; revert n; induction l as [|x l IH]; intros [|n] H; cbn in *; try lia; auto.
  f_equal. apply IH; lia.
Qed.

Lemma global_read s0 log s i : run_log m hst s0 log s -> next_instr s = Some (ILoadGlobal i) ->
  (forall s', step m hst s = SNext s' ->
     exists v, live s' = live s ++ [v] /\
       match last_write i log with
       | Some w => v = w
       | None => alookup N.eqb i (v_globals s0) = Some v
       end) /\
  (forall e sp s', step m hst s = SErr e sp s' ->
     is_limit e \/ e = EStackOverflow \/ e = EInstructionOverflow \/
     last_write i log = None /\ alookup N.eqb i (v_globals s0) = None /\
     e = ENameUndefined (match pool_get (v_gsyms s) i with Some n => n | None => str "unkown???" end)).
Proof.
  intros Hr Hn. pose proof (globals_log s0 log s Hr i) as Hg. split.
  - intros s' E. destruct (step_inv s s' E) as (s1 & ins & ip' & Ht & Hd & H1 & H2 & H3 & H4 & H5 & He).
    unfold next_instr in Hn. rewrite Hd in Hn. injection Hn as ->.
    destruct He as [[He _]|[_ He]]; [discriminate|]. cbn [exec] in He. unfold abind, agets in He.
    cbn [v_globals set_ip set_frames] in He. rewrite H5, Hg in He.
    assert (Hl : live (set_ip ip' s1) = live s).
    { unfold live. cbn [v_sp v_stack set_ip set_frames]. rewrite H3, H4. reflexivity. }
    destruct (last_write i log) as [w|].
    + exists w. apply push_live in He as [He _]. rewrite He, Hl. auto.
    + destruct (alookup N.eqb i (v_globals s0)) as [w|]; [|discriminate].
      exists w. apply push_live in He as [He _]. rewrite He, Hl. auto.
  - intros e sp s' E. unfold step in E.
    assert (Ht : match tick hst s with
                 | AOk _ s1 => v_frame s1 = v_frame s /\ v_globals s1 = v_globals s /\ v_gsyms s1 = v_gsyms s
                 | AErr e _ _ => is_limit e
                 | APanic => False end).
    { unfold tick, abind, agets. destruct (64 <? _); [|repeat split; reflexivity].
      unfold has_runtime_exceeded, abind, agets, amod. cbn [v_opts set_count].
      destruct (_ <? _)%N; [eexists; reflexivity|repeat split; reflexivity]. }
    destruct (tick hst s) as [u s1|e1 sp1 s1|]; [|injection E as <- _ _; auto|destruct Ht].
    destruct Ht as (H1 & H2 & H3). destruct (_ <=? _); [injection E as <- _ _; auto|].
    unfold next_instr, cur_chunk, ip in *. rewrite H1 in E.
    destruct (decode _ _) as [[ins ip']| |]; try discriminate. injection Hn as ->.
    cbn [exec] in E. unfold abind, agets in E. cbn [v_globals set_ip set_frames] in E.
    rewrite H2, Hg in E.
    assert (Hp : forall v sx e' sp' s2, push (D := D) v sx = AErr e' sp' s2 -> e' = EStackOverflow).
    { intros v sx e' sp' s2. unfold push, error_0. destruct (_ <=? _); [congruence|].
      destruct (_ <? _); discriminate. }
    destruct (last_write i log) as [w|].
    + destruct (push w _) eqn:Ep; try discriminate. apply Hp in Ep. injection E as <- _ _. auto.
    + destruct (alookup N.eqb i (v_globals s0)) as [w|].
      * destruct (push w _) eqn:Ep; try discriminate. apply Hp in Ep. injection E as <- _ _. auto.
      * unfold global_name, agets, error_1 in E. cbn [v_gsyms set_ip set_frames] in E. rewrite H3 in E.
        injection E as <- _ _. right; right; right; auto.
Qed.
End GlobalsProof.

(** ** C25: builtins by name *)
Section Builtins.
Context {D : Type}.

Lemma registered_app {B} n (a b : list (rstring * B)) :
  registered n (a ++ b) = match registered n b with Some x => Some x | None => registered n a end.
Proof.
  induction a as [|[x v] a IH]; cbn [app registered].
  - destruct (registered n b); auto.
  - rewrite IH. destruct (registered n b); auto.
Qed.

(** Names added to a pool that has room keep the numbers already given. *)
Lemma pool_add_spec p (n : rstring) : pool_inv seqb p ->
  exists l, p_entries (fst (pool_add seqb p n)) = p_entries p ++ l /\ length l <= 1 /\
    exists i, index_of seqb n (p_entries p ++ l) = Some i /\ snd (pool_add seqb p n) = pool_id_from i.
Proof.
  intros Hp. pose proof (pool_add_inv seqb seqb_eq p n Hp) as Hq.
  destruct Hp as [H1 H2]. unfold pool_add in *. rewrite H2 in *. destruct (index_of seqb n (p_entries p)) as [i|] eqn:E; cbn in *.
  - exists []. rewrite app_nil_r. repeat split; auto. eauto.
  - exists [n]. repeat split; auto. exists (length (p_entries p)). split; auto.
    rewrite (index_of_app_r seqb) by auto. cbn. rewrite seqb_refl. cbn. f_equal. lia.
Qed.
End Builtins.
