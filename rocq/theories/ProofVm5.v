(** Proofs for C25 (builtins by name), C18 (externals) and C23 (tracebacks). *)
From Verif Require Import Base RleVec Pool SpecContainers ProofContainers Vecc Float NumText Bytecode
  Chunk Value Ast Arith VmOps Compiler ProofCompiler Vm SpecVm ProofVm ProofVm2 ProofVm3 ProofVm4.

(** ** One step, seen from the next instruction *)
Section StepNext.
Context {D : Type} (m : mode) (hst : host D).

Lemma abind_ok {A B} (x : act D A) (k : A -> act D B) s a s' : x s = AOk a s' -> abind x k s = k a s'.
Proof. unfold abind. intros ->. reflexivity. Qed.

Lemma decode_in ops i r : decode ops i = Ok r -> i < length ops.
Proof.
  unfold decode. intros H. destruct (bc_read_u8 ops i) as [b| |] eqn:E; try discriminate.
  clear H. unfold bc_read_u8 in E. destruct (nth_error ops i) eqn:En; [|discriminate].
  apply nth_error_Some. congruence.
Qed.

Lemma step_next (s : vm D) i ip' : decode (ck_ops (cur_chunk s)) (ip s) = Ok (i, ip') -> i <> IReturn ->
  (exists e sp s', step m hst s = SErr e sp s' /\ is_limit e) \/
  exists r n, step m hst s = match exec m hst i (set_ip ip' (set_count r n s)) with
                             | AOk _ s' => SNext s' | AErr e sp s' => SErr e sp s' | APanic => SPanic end.
Proof.
  intros Hd Hi.
  assert (Ht : (exists e sp s', tick hst s = AErr e sp s' /\ is_limit e) \/
               exists r n, tick hst s = AOk tt (set_count r n s)).
  { unfold tick, abind, agets. destruct (64 <? v_n s); [|right; do 2 eexists; reflexivity].
    unfold has_runtime_exceeded, abind, agets, amod. cbn [v_opts set_count].
    destruct (_ <? _)%N.
    - left. do 3 eexists. split; [reflexivity|]. eexists; reflexivity.
    - right. do 2 eexists; reflexivity. }
  unfold step. destruct Ht as [(e & sp & s' & -> & He)|(r & n & ->)]; [left; do 3 eexists; split; [reflexivity|auto]|].
  right. exists r, n. pose proof (decode_in _ _ _ Hd) as Hlt.
  assert (E : (chunk_len (cur_chunk (set_count r n s)) <=? ip (set_count r n s)) = false).
  { apply Nat.leb_gt. exact Hlt. }
  rewrite E. change (cur_chunk (set_count r n s)) with (cur_chunk s).
  change (ip (set_count r n s)) with (ip s). rewrite Hd.
  destruct i; try reflexivity. congruence.
Qed.
End StepNext.

(** ** Names in pools *)
Lemma pool_id_index p (n : rstring) : pool_inv seqb p ->
  pool_id seqb p n = option_map pool_id_from (index_of seqb n (p_entries p)).
Proof. intros [_ H]. apply H. Qed.

Lemma pool_add_spec' p (n : rstring) : pool_inv seqb p ->
  exists l, p_entries (fst (pool_add seqb p n)) = p_entries p ++ l /\ (l = [] \/ l = [n]) /\
    exists i, index_of seqb n (p_entries p ++ l) = Some i /\ snd (pool_add seqb p n) = pool_id_from i.
Proof.
  intros Hp. destruct Hp as [H1 H2]. unfold pool_add. rewrite H2.
  destruct (index_of seqb n (p_entries p)) as [i|] eqn:E; cbn.
  - exists []. rewrite app_nil_r. repeat split; auto. eauto.
  - exists [n]. repeat split; auto. exists (length (p_entries p)). split; auto.
    rewrite (index_of_app_r seqb) by auto. cbn. rewrite seqb_refl. cbn. f_equal. lia.
Qed.

Section ByName.
Context {D : Type} (m : mode) (hst : host D).

Record binv (s : vm D) (reg : list (rstring * builtin D)) : Prop := {
  bi_pool : pool_inv seqb (v_gsyms s);
  bi_look : forall n i, index_of seqb n (p_entries (v_gsyms s)) = Some i ->
            alookup N.eqb (N.of_nat i) (v_builtins s) = registered n reg;
  bi_low : forall i, length (p_entries (v_gsyms s)) <= i ->
            alookup N.eqb (N.of_nat i) (v_builtins s) = None;
  bi_reg : forall n, ~ In n (p_entries (v_gsyms s)) -> registered n reg = None
}.

Lemma of_nat_eqb a b : (N.of_nat a =? N.of_nat b)%N = (a =? b).
Proof.
  destruct (a =? b) eqn:E.
  - apply Nat.eqb_eq in E as ->. apply N.eqb_refl.
  - apply Nat.eqb_neq in E. apply N.eqb_neq. lia.
Qed.

Lemma binv_add l : forall s reg, binv s reg ->
  length (p_entries (v_gsyms s)) + length l <= N.to_nat 65536 ->
  binv (add_builtins_list l s) (reg ++ l) /\
  exists k, p_entries (v_gsyms (add_builtins_list l s)) = p_entries (v_gsyms s) ++ k /\ length k <= length l.
Proof.
  induction l as [|[n b] l IH]; intros s reg H Hlen; cbn [add_builtins_list].
  - rewrite app_nil_r. split; auto. exists []. rewrite app_nil_r. auto.
  - cbn [length] in Hlen.
    destruct (pool_add_spec' (v_gsyms s) n (bi_pool _ _ H)) as (e & He & Hn & i & Hi & Hid).
    pose proof (pool_add_inv seqb seqb_eq (v_gsyms s) n (bi_pool _ _ H)) as Hq.
    destruct (pool_add seqb (v_gsyms s) n) as [p id]. cbn [fst snd] in *. subst id.
    set (s1 := set_builtins (ainsert (pool_id_from i) b (v_builtins s)) (set_gsyms p s)).
    assert (Hel : length e <= 1) by (destruct Hn as [->| ->]; auto).
    assert (Hil : i < length (p_entries s.(v_gsyms) ++ e)) by (eapply index_of_lt; [apply seqb_eq|eauto]).
    assert (Hil2 : i < length (p_entries s.(v_gsyms)) + 1) by (rewrite app_length in Hil; lia).
    assert (Hid : pool_id_from i = N.of_nat i) by (apply pool_id_from_small; lia).
    assert (H1 : binv s1 (reg ++ [(n, b)])).
    { constructor; unfold s1; cbn [v_gsyms v_builtins set_builtins set_gsyms]; auto.
      - intros n' j Hj. rewrite He in Hj. rewrite alookup_ainsert, Hid, of_nat_eqb.
        rewrite registered_app. cbn [registered].
        destruct (seqb n' n) eqn:En.
        + apply seqb_eq in En as ->. assert (j = i) by congruence. subst j. rewrite Nat.eqb_refl. reflexivity.
        + destruct (j =? i) eqn:Ej.
          * apply Nat.eqb_eq in Ej as ->.
            pose proof (index_of_nth seqb seqb_eq _ _ _ Hi) as N1.
            pose proof (index_of_nth seqb seqb_eq _ _ _ Hj) as N2.
            assert (n = n') by congruence. subst. rewrite seqb_refl in En. discriminate.
          * apply (bi_look _ _ H). destruct (index_of seqb n' (p_entries (v_gsyms s))) as [j'|] eqn:E'.
            -- rewrite (index_of_app_l seqb _ _ e _ E') in Hj. congruence.
            -- rewrite (index_of_app_r seqb) in Hj by auto.
               destruct Hn as [->| ->]; cbn in Hj; [discriminate|]. rewrite En in Hj. discriminate.
      - intros j Hj. rewrite He, app_length in Hj. rewrite alookup_ainsert, Hid, of_nat_eqb.
        destruct (j =? i) eqn:Ej; [apply Nat.eqb_eq in Ej; rewrite app_length in Hil; lia|].
        apply (bi_low _ _ H). lia.
      - intros n' Hn'. rewrite He in Hn'. rewrite registered_app. cbn [registered].
        destruct (seqb n' n) eqn:En.
        + apply seqb_eq in En as ->. exfalso. apply Hn'. eapply nth_error_In.
          eapply index_of_nth; [apply seqb_eq|eauto].
        + apply (bi_reg _ _ H). intros Hin. apply Hn'. apply in_or_app; auto. }
    destruct (IH s1 (reg ++ [(n, b)]) H1) as (H2 & k & Hk & Hkl).
    { unfold s1; cbn [v_gsyms set_builtins set_gsyms]. rewrite He, app_length. lia. }
    rewrite <- app_assoc in H2. split; [exact H2|]. exists (e ++ k). split.
    + rewrite Hk. unfold s1; cbn [v_gsyms set_builtins set_gsyms]. rewrite He, app_assoc. reflexivity.
    + rewrite app_length. cbn [length]. lia.
Qed.

Lemma binv_all bs : forall s reg, binv s reg ->
  length (p_entries (v_gsyms s)) + length (concat bs) <= N.to_nat 65536 ->
  binv (fold_left (fun s l => add_builtins_list l s) bs s) (reg ++ concat bs) /\
  exists k, p_entries (v_gsyms (fold_left (fun s l => add_builtins_list l s) bs s))
            = p_entries (v_gsyms s) ++ k.
Proof.
  induction bs as [|l bs IH]; intros s reg H Hlen; cbn [fold_left concat].
  - rewrite app_nil_r. split; auto. exists []. rewrite app_nil_r. auto.
  - cbn [concat] in Hlen. rewrite app_length in Hlen.
    destruct (binv_add l s reg H) as (H1 & k & Hk & Hkl); [lia|].
    destruct (IH _ _ H1) as (H2 & k2 & Hk2).
    + rewrite Hk, app_length. lia.
    + rewrite app_assoc. split; auto. exists (k ++ k2). rewrite Hk2, Hk, app_assoc. reflexivity.
Qed.

Definition same_names (b : list (N * builtin D)) (g : pool rstring) (s : vm D) : Prop :=
  v_builtins s = b /\ v_gsyms s = g.
Lemma names_tame b g : tame hst (same_names b g) (fun _ => True).
Proof.
  constructor; unfold same_names; cbn; auto.
  - intros s H. destruct (_ <? _)%N; auto.
Qed.

Lemma reach_names s0 s : reach m hst s0 s -> same_names (v_builtins s0) (v_gsyms s0) s.
Proof.
  induction 1 as [|s1 s2 Hr IH E]; [split; auto|].
  assert (Hg : (forall s g, same_names (v_builtins s0) (v_gsyms s0) s ->
                 same_names (v_builtins s0) (v_gsyms s0) (set_globals g s))) by (intros s g H; exact H).
  pose proof (gk_step m hst _ _ (names_tame (v_builtins s0) (v_gsyms s0)) s1 IH (or_introl Hg)) as Hs.
  rewrite E in Hs. exact Hs.
Qed.

Lemma reach_session s0 s : session m hst s0 -> reach m hst s0 s -> session m hst s.
Proof. intros H. induction 1; auto. eapply se_step; eauto. Qed.

Lemma session_with d sc o bs : session m hst (vm_new_with d sc o bs).
Proof.
  unfold vm_new_with. generalize (se_new m hst d sc o). generalize (vm_new d sc o).
  induction bs as [|l bs IH]; cbn [fold_left]; auto. intros v H. apply IH. apply se_builtins; auto.
Qed.

Lemma take_args_live (s : vm D) below args : v_sp s <= length (v_stack s) ->
  live s = below ++ args ->
  take_args (length args) s = AOk args (set_stack (v_stack s) (length below) s).
Proof.
  intros Hl E. unfold live in E.
  assert (Hs : v_sp s = length below + length args).
  { rewrite <- app_length, <- E, firstn_length. lia. }
  unfold take_args. rewrite (proj2 (Nat.ltb_ge _ _)) by lia. rewrite (proj2 (Nat.ltb_ge _ _)) by lia.
  replace (v_sp s - length args) with (length below) by lia. f_equal.
  rewrite <- (firstn_skipn (v_sp s) (v_stack s)), E.
  rewrite <- app_assoc, skipn_app, skipn_all, Nat.sub_diag. cbn [app skipn].
  rewrite firstn_app, firstn_all, Nat.sub_diag. cbn [firstn]. apply app_nil_r.
Qed.

Lemma by_name d sc o bs s n b below args :
  pool_inv seqb (sc_globals sc) ->
  length (p_entries (sc_globals sc)) + length (concat bs) <= N.to_nat 65536 ->
  pool_id seqb (sc_globals sc) n = Some b ->
  reach m hst (vm_new_with d sc o bs) s ->
  next_instr s = Some (ICallBuiltin b (N.of_nat (length args))) ->
  live s = below ++ args ->
  match registered n (concat bs) with
  | None => ends_with (fun e => is_limit e \/ e = EUndefinedBuiltin n) (step m hst s)
  | Some (BContext _ _) => ends_with (fun e => is_limit e \/ e = ENotCallable (str "context manager")) (step m hst s)
  | Some (BFn f) =>
      match f (v_data s) args (v_opts s) with
      | (d', Ok r) =>
          (exists s', step m hst s = SNext s' /\ live s' = below ++ [r] /\ v_data s' = d') \/
          ends_with (fun e => is_limit e \/ e = EStackOverflow /\ args = []) (step m hst s)
      | (_, Err e) => ends_with (fun e' => is_limit e' \/ e' = e) (step m hst s)
      | (_, Panic) => step m hst s = SPanic \/ ends_with is_limit (step m hst s)
      end
  end.
Proof.
  intros Hp Hlen Hid Hr Hn Hlive.
  assert (H0 : binv (vm_new_with d sc o bs) (concat bs) /\
               exists k, p_entries (v_gsyms (vm_new_with d sc o bs)) = p_entries (sc_globals sc) ++ k).
  { apply (binv_all bs (vm_new d sc o) []); auto. constructor; cbn; auto. }
  destruct H0 as (Hb & k & Hk).
  pose proof (reach_names _ _ Hr) as [Hbu Hgs].
  rewrite (pool_id_index _ _ Hp) in Hid. destruct (index_of seqb n (p_entries (sc_globals sc))) as [i|] eqn:Ei; [|discriminate].
  cbn in Hid. injection Hid as <-.
  assert (Hil : i < length (p_entries (sc_globals sc))) by (eapply index_of_lt; [apply seqb_eq|eauto]).
  rewrite pool_id_from_small in Hn by lia.
  assert (Hlook : alookup N.eqb (N.of_nat i) (v_builtins s) = registered n (concat bs)).
  { rewrite Hbu. apply (bi_look _ _ Hb). rewrite Hk. apply index_of_app_l; auto. }
  assert (Hname : pool_get (v_gsyms s) (N.of_nat i) = Some n).
  { rewrite Hgs. unfold pool_get. rewrite Nnat.Nat2N.id, Hk, nth_error_app1 by auto.
    eapply index_of_nth; [apply seqb_eq|eauto]. }
  pose proof (session_limits m hst s (reach_session _ _ (session_with d sc o bs) Hr)) as ((Hst & _) & Hsp).
  unfold next_instr in Hn. destruct (decode _ _) as [[ins ip']| |] eqn:Hd; try discriminate. injection Hn as ->.
  destruct (step_next m hst s _ ip' Hd ltac:(discriminate)) as [(e & sp & s' & E & He)|(r & c & E)].
  { assert (Hlim : forall P : error -> Prop, (is_limit e -> P e) -> ends_with P (step m hst s)).
    { intros P HP. exists e, sp, s'. auto. }
    destruct (registered n (concat bs)) as [[f|f x]|]; [|apply Hlim; auto|apply Hlim; auto].
    destruct (f (v_data s) args (v_opts s)) as [d' [v|er|]]; [right; apply Hlim; auto|apply Hlim; auto|right; apply Hlim; auto]. }
  rewrite E. clear E. cbn [exec]. set (s1 := set_ip ip' (set_count r c s)).
  change (v_builtins s) with (v_builtins s1) in Hlook. change (v_gsyms s) with (v_gsyms s1) in Hname.
  change (live s) with (live s1) in Hlive. change (v_data s) with (v_data s1). change (v_opts s) with (v_opts s1) in *.
  change (v_sp s) with (v_sp s1) in *. change (v_stack s) with (v_stack s1) in *. clearbody s1.
  rewrite Nnat.Nat2N.id.
  rewrite (abind_ok _ _ _ _ _ (eq_refl : agets (fun s => alookup N.eqb (N.of_nat i) (v_builtins s)) s1 = AOk _ s1)).
  rewrite Hlook. destruct (registered n (concat bs)) as [[f|f x]|].
  - rewrite <- Hst in Hsp. rewrite (abind_ok _ _ _ _ _ (take_args_live s1 below args Hsp Hlive)).
    assert (Hrb : run_builtin f args (set_stack (v_stack s1) (length below) s1) =
                  lift_1 (snd (f (v_data s1) args (v_opts s1)))
                    (set_data (fst (f (v_data s1) args (v_opts s1))) (set_stack (v_stack s1) (length below) s1))).
    { unfold run_builtin. cbn [v_data v_opts set_stack].
      change (v_data (set_stack (v_stack s1) (length below) s1)) with (v_data s1).
      destruct (f (v_data s1) args (v_opts s1)); reflexivity. }
    destruct (f (v_data s1) args (v_opts s1)) as [d' [v|er|]]; cbn [fst snd] in Hrb.
    + rewrite (abind_ok _ _ _ _ _ Hrb). unfold abind. assert (Hlb : length below + length args = v_sp s1).
      { rewrite <- app_length, <- Hlive. unfold live. rewrite firstn_length. lia. }
      assert (Hbl : firstn (length below) (v_stack s1) = below).
      { unfold live in Hlive. rewrite <- (firstn_skipn (v_sp s1) (v_stack s1)), Hlive, <- app_assoc.
        rewrite firstn_app, firstn_all, Nat.sub_diag. cbn [firstn]. apply app_nil_r. }
      set (s2 := set_data d' (set_stack (v_stack s1) (length below) s1)).
      assert (Hl2 : live s2 = below) by exact Hbl.
      unfold push. cbn [v_opts v_sp v_stack set_data set_stack s2].
      destruct (o_stack_size (v_opts s1) <=? length below) eqn:Eo.
      { apply Nat.leb_le in Eo. right. do 3 eexists. split; [reflexivity|]. right. split; auto.
        destruct args; auto. cbn in Hlb. lia. }
      apply Nat.leb_gt in Eo. rewrite (proj2 (Nat.ltb_lt _ _)) by lia.
      unfold has_runtime_exceeded, abind, agets, amod. cbn [v_opts set_stack set_data set_count v_reads s2].
      destruct (_ <? _)%N.
      { right. do 3 eexists. split; [reflexivity|]. left. eexists; reflexivity. }
      left. eexists. split; [reflexivity|]. split; [|reflexivity].
      assert (Hp2 : push v s2 = AOk tt (set_stack (upd (length below) v (v_stack s1)) (S (length below)) s2)).
      { unfold push. cbn [v_opts v_sp v_stack set_data set_stack s2].
        rewrite (proj2 (Nat.leb_gt _ _)) by auto. rewrite (proj2 (Nat.ltb_lt _ _)) by lia. reflexivity. }
      apply push_live in Hp2 as [Hp2 _]. rewrite Hl2 in Hp2. exact Hp2.
    + unfold abind at 1. rewrite Hrb. do 3 eexists. split; [reflexivity|auto].
    + left. unfold abind at 1. rewrite Hrb. reflexivity.
  - do 3 eexists. split; [reflexivity|auto].
  - unfold abind, global_name, agets. rewrite Hname. do 3 eexists. split; [reflexivity|auto].
Qed.
End ByName.

(** ** C18: externals *)
Section Externals.
Context {D : Type} (m : mode) (hst : host D).

Lemma gsyms_with d sc o bs : pool_inv seqb (sc_globals sc) ->
  length (p_entries (sc_globals sc)) + length (concat bs) <= N.to_nat 65536 ->
  let s := vm_new_with d sc o bs : vm D in
  pool_inv seqb (v_gsyms s) /\ length (p_entries (v_gsyms s)) <= N.to_nat 65536 /\
  (exists k, p_entries (v_gsyms s) = p_entries (sc_globals sc) ++ k) /\
  v_externals s = sc_externals sc /\ v_globals s = [].
Proof.
  intros Hp Hlen.
  assert (H0 : binv (vm_new d sc o : vm D) []) by (constructor; cbn; auto).
  cbn zeta. unfold vm_new_with.
  assert (G : forall bs (s : vm D) reg, binv s reg ->
     length (p_entries (v_gsyms s)) + length (concat bs) <= N.to_nat 65536 ->
     let s' := fold_left (fun s l => add_builtins_list l s) bs s in
     pool_inv seqb (v_gsyms s') /\ length (p_entries (v_gsyms s')) <= N.to_nat 65536 /\
     (exists k, p_entries (v_gsyms s') = p_entries (v_gsyms s) ++ k) /\
     v_externals s' = v_externals s /\ v_globals s' = v_globals s).
  { assert (Hl : forall l (s : vm D), v_externals (add_builtins_list l s) = v_externals s /\
               v_globals (add_builtins_list l s) = v_globals s).
    { induction l as [|[n b] l IH]; intros s; cbn [add_builtins_list]; auto.
      destruct (pool_add _ _ _) as [p id].
      destruct (IH (set_builtins (ainsert id b (v_builtins s)) (set_gsyms p s))) as [-> ->]. auto. }
    induction bs0 as [|l bs0 IH]; intros s reg H Hl0; cbn [fold_left concat] in *; cbn zeta.
    - repeat split; auto; try apply (bi_pool _ _ H); try lia. exists []. rewrite app_nil_r; auto.
    - rewrite app_length in Hl0. destruct (binv_add l s reg H) as (H1 & k & Hk & Hkl); [lia|].
      destruct (IH _ _ H1) as (I1 & I2 & (k2 & I3) & I4 & I5); [rewrite Hk, app_length; lia|].
      destruct (Hl l s) as [E1 E2]. repeat split; try apply I1; auto; try congruence.
      exists (k ++ k2). rewrite I3, Hk, app_assoc; auto. }
  apply (G bs (vm_new d sc o) [] H0). exact Hlen.
Qed.

Definition ext_ready (sc : script) (s : vm D) : Prop :=
  pool_inv seqb (v_gsyms s) /\ length (p_entries (v_gsyms s)) <= N.to_nat 65536 /\
  (exists k, p_entries (v_gsyms s) = p_entries (sc_globals sc) ++ k) /\
  v_externals s = sc_externals sc.

Lemma ready_id sc (s : vm D) n : pool_inv seqb (sc_globals sc) -> externals_ok sc -> ext_ready sc s ->
  match pool_id seqb (v_gsyms s) n with
  | Some id => existsb (N.eqb id) (v_externals s)
  | None => false
  end = check_external sc n.
Proof.
  intros Hp Ho (Hq & Hl & (k & Hk) & He). unfold check_external.
  rewrite (pool_id_index _ _ Hq), (pool_id_index _ _ Hp), Hk, He.
  destruct (index_of seqb n (p_entries (sc_globals sc))) as [i|] eqn:Ei.
  - rewrite (index_of_app_l seqb _ _ k _ Ei). reflexivity.
  - rewrite (index_of_app_r seqb) by auto. destruct (index_of seqb n k) as [j|] eqn:Ej; [|reflexivity].
    cbn [option_map].
    assert (j < length k) by (eapply index_of_lt; [apply seqb_eq|eauto]).
    rewrite Hk, app_length in Hl. rewrite pool_id_from_small by lia.
    destruct (existsb _ _) eqn:Ex; auto. apply existsb_exists in Ex as (x & Hx & Ex).
    apply N.eqb_eq in Ex. subst x. unfold externals_ok in Ho. rewrite Forall_forall in Ho. specialize (Ho _ Hx). lia.
Qed.

Lemma set_external_one sc (s : vm D) n v : pool_inv seqb (sc_globals sc) -> externals_ok sc -> ext_ready sc s ->
  if check_external sc n
  then exists s', set_external n v s = Ok s' /\ ext_ready sc s' /\ v_gsyms s' = v_gsyms s /\
       forall n', global_of s' n' = if seqb n' n then Some v else global_of s n'
  else set_external n v s = Err (EExternalNotDefined n).
Proof.
  intros Hp Ho Hr. pose proof (ready_id sc s n Hp Ho Hr) as Hc.
  unfold set_external. destruct Hr as (Hq & Hl & Hk & He).
  pose proof (pool_id_index _ n Hq) as Hi.
  destruct (pool_id seqb (v_gsyms s) n) as [id|] eqn:Ep; rewrite <- Hc; [|reflexivity].
  destruct (existsb _ _); [|reflexivity].
  eexists. split; [reflexivity|]. split; [repeat split; auto; apply Hq|]. split; [reflexivity|].
  intros n'. unfold global_of. cbn [v_gsyms v_globals set_globals].
  destruct (index_of seqb n (p_entries (v_gsyms s))) as [i|] eqn:Ei; [|discriminate]. cbn in Hi. injection Hi as ->.
  assert (i < length (p_entries (v_gsyms s))) by (eapply index_of_lt; [apply seqb_eq|eauto]).
  rewrite (pool_id_index _ n' Hq).
  destruct (seqb n' n) eqn:En.
  - apply seqb_eq in En as ->. rewrite Ei. cbn [option_map]. rewrite alookup_ainsert, N.eqb_refl. reflexivity.
  - destruct (index_of seqb n' (p_entries (v_gsyms s))) as [j|] eqn:Ej; [|reflexivity]. cbn [option_map].
    assert (j < length (p_entries (v_gsyms s))) by (eapply index_of_lt; [apply seqb_eq|eauto]).
    rewrite alookup_ainsert, !pool_id_from_small, of_nat_eqb by lia.
    destruct (j =? i) eqn:Eji; auto. apply Nat.eqb_eq in Eji as ->.
    pose proof (index_of_nth seqb seqb_eq _ _ _ Ei). pose proof (index_of_nth seqb seqb_eq _ _ _ Ej).
    assert (n = n') by congruence. subst. rewrite seqb_refl in En. discriminate.
Qed.

Lemma set_all_spec sc l : pool_inv seqb (sc_globals sc) -> externals_ok sc ->
  forall s : vm D, ext_ready sc s ->
  if forallb (fun nv => check_external sc (fst nv)) l
  then exists s', set_all l s = Ok s' /\
       forall n, global_of s' n = match registered n l with Some v => Some v | None => global_of s n end
  else exists n, In n (map fst l) /\ check_external sc n = false /\ set_all l s = Err (EExternalNotDefined n).
Proof.
  intros Hp Ho. induction l as [|[n v] l IH]; intros s Hr; cbn [forallb fst set_all registered].
  - exists s. auto.
  - pose proof (set_external_one sc s n v Hp Ho Hr) as H1. destruct (check_external sc n) eqn:Ec; cbn [andb].
    2:{ rewrite H1. cbn [rbind]. exists n. cbn. auto. }
    destruct H1 as (s1 & E1 & Hr1 & _ & Hg). rewrite E1. cbn [rbind]. specialize (IH s1 Hr1).
    destruct (forallb _ l).
    + destruct IH as (s' & E & H2). exists s'. split; auto. intros n'. rewrite H2.
      destruct (registered n' l); auto. rewrite Hg. destruct (seqb n' n); auto.
    + destruct IH as (n' & H1 & H2 & H3). exists n'. cbn. auto.
Qed.

Lemma externals_set d sc o bs l : pool_inv seqb (sc_globals sc) -> externals_ok sc ->
  length (p_entries (sc_globals sc)) + length (concat bs) <= N.to_nat 65536 ->
  let s := vm_new_with d sc o bs : vm D in
  if forallb (fun nv => check_external sc (fst nv)) l
  then exists s', set_all l s = Ok s' /\ forall n, global_of s' n = registered n l
  else exists n, In n (map fst l) /\ check_external sc n = false /\ set_all l s = Err (EExternalNotDefined n).
Proof.
  intros Hp Ho Hlen s. destruct (gsyms_with d sc o bs Hp Hlen) as (H1 & H2 & H3 & H4 & H5).
  pose proof (set_all_spec sc l Hp Ho s) as H. fold s in H1, H2, H3, H4, H5.
  destruct (forallb _ l).
  - destruct H as (s' & E & H); [repeat split; auto; apply H1|]. exists s'. split; auto. intros n. rewrite H.
    destruct (registered n l); auto. unfold global_of. rewrite H5. destruct (pool_id _ _ _); auto.
  - apply H. repeat split; auto; apply H1.
Qed.

Lemma default_step (s s' : vm D) i below v : next_instr s = Some (IDefineGlobalDefaulted i) ->
  live s = below ++ [v] -> step m hst s = SNext s' ->
  forall j, alookup N.eqb j (v_globals s') =
    if (j =? i)%N then Some (match alookup N.eqb i (v_globals s) with Some w => w | None => v end)
    else alookup N.eqb j (v_globals s).
Proof.
  intros Hn Hl E j. rewrite (step_globals m hst s s' j E). unfold global_write. rewrite Hn, Hl, rev_app_distr.
  cbn [rev app]. destruct (alookup N.eqb i (v_globals s)) eqn:Ei; cbn [last_write].
  - destruct (j =? i)%N eqn:Ej; auto. apply N.eqb_eq in Ej as ->. auto.
  - destruct (j =? i)%N; auto.
Qed.
End Externals.

(** ** C23: tracebacks *)
Section Trace.
Context {D : Type}.

Lemma snoc_or_nil {A} (l : list A) : l = [] \/ exists a x, l = a ++ [x].
Proof. destruct l as [|y l]; auto. right. destruct (exists_last (l := y :: l)) as (a & x & E); [discriminate|eauto]. Qed.
Lemma shown_app a b : shown (a ++ b) = shown a ++ shown b.
Proof. unfold shown. induction a as [|x a IH]; cbn; auto. rewrite IH. destruct (name_of x); auto. Qed.
Lemma hidden_app a b : counted_hidden (a ++ b) = counted_hidden a + counted_hidden b.
Proof. unfold counted_hidden. induction a as [|x a IH]; cbn; auto. rewrite IH. destruct x; lia. Qed.
Lemma shown_map {A} (f : A -> rstring) (g : A -> span) l : shown (map (fun x => TFrame (f x) (g x)) l) = map f l.
Proof. induction l; cbn; auto. f_equal; auto. Qed.
Lemma hidden_map {A} (f : A -> rstring) (g : A -> span) l : counted_hidden (map (fun x => TFrame (f x) (g x)) l) = 0.
Proof. induction l; cbn; auto. Qed.

Lemma trace_shape (s : vm D) :
  shown (trace_back s) = match rev (active_calls s) with
                         | [] => []
                         | main :: _ => if depth s =? 0 then [main]
                                        else firstn 9 (removelast (active_calls s)) ++ [main]
                         end /\
  counted_hidden (trace_back s) = depth s - 10.
Proof.
  unfold trace_back, active_calls, depth. set (nm := fun f => fn_name (f_fn f)).
  destruct (snoc_or_nil (v_frames s)) as [Ef|(fs & f & Ef)]; rewrite Ef.
  - cbn. auto.
  - rewrite removelast_last, rev_unit, app_length. cbn [length].
    replace (length fs + 1) with (S (length fs)) by lia.
    cbn [map]. rewrite map_app. cbn [map].
    change (nm (v_frame s) :: map nm fs ++ [nm f]) with ((nm (v_frame s) :: map nm fs) ++ [nm f]).
    rewrite removelast_last, rev_unit. cbn [Nat.eqb].
    split.
    + match goal with |- shown (?a :: ?l) = _ => change (shown (a :: l)) with (nm (v_frame s) :: shown l) end.
      rewrite !shown_app, (shown_map nm), <- firstn_map.
      change (firstn 9 (nm (v_frame s) :: map nm fs)) with (nm (v_frame s) :: firstn 8 (map nm fs)).
      cbn [app]. f_equal. f_equal.
      destruct (10 <? _); reflexivity.
    + match goal with |- counted_hidden (?a :: ?l) = _ => change (counted_hidden (a :: l)) with (counted_hidden l) end.
      rewrite !hidden_app, (hidden_map nm). destruct (10 <? S (length fs)) eqn:E; cbn [counted_hidden fold_right].
      * lia.
      * apply Nat.ltb_ge in E. lia.
Qed.

Lemma trace_short (s : vm D) : depth s <= 9 ->
  shown (trace_back s) = active_calls s /\ counted_hidden (trace_back s) = 0.
Proof.
  intros H. destruct (trace_shape s) as [H1 H2]. split; [|lia]. rewrite H1. clear H1 H2.
  unfold active_calls, depth in *.
  destruct (snoc_or_nil (v_frames s)) as [Ef|(fs & f & Ef)]; rewrite Ef in *; [reflexivity|].
  set (nm := fun f => fn_name (f_fn f)) in *. cbn [map]. rewrite map_app. cbn [map].
  change (nm (v_frame s) :: map nm fs ++ [nm f]) with ((nm (v_frame s) :: map nm fs) ++ [nm f]).
  rewrite app_length in *. cbn [length] in *.
  rewrite rev_unit, removelast_last. destruct (_ =? 0) eqn:E; [apply Nat.eqb_eq in E; lia|].
  rewrite firstn_all2; auto. cbn [length]. rewrite map_length. lia.
Qed.

Lemma trace_long (s : vm D) : 10 <= depth s ->
  (exists middle main, active_calls s = firstn 9 (active_calls s) ++ middle ++ [main] /\
     shown (trace_back s) = firstn 9 (active_calls s) ++ [main] /\
     S (counted_hidden (trace_back s)) = length middle).
Proof.
  intros H. destruct (trace_shape s) as [H1 H2]. rewrite H1, H2. clear H1 H2.
  unfold active_calls, depth in *.
  destruct (snoc_or_nil (v_frames s)) as [Ef|(fs & f & Ef)]; rewrite Ef in *; [cbn in H; lia|].
  set (nm := fun f => fn_name (f_fn f)) in *. cbn [map]. rewrite map_app. cbn [map].
  change (nm (v_frame s) :: map nm fs ++ [nm f]) with ((nm (v_frame s) :: map nm fs) ++ [nm f]).
  rewrite app_length in *. cbn [length] in *.
  rewrite rev_unit, removelast_last. destruct (_ =? 0) eqn:E; [apply Nat.eqb_eq in E; lia|].
  rewrite (firstn_app 9 (_ :: _)). cbn [length]. rewrite map_length.
  replace (9 - S (length fs)) with 0 by lia. rewrite firstn_O, app_nil_r.
  exists (skipn 9 (nm (v_frame s) :: map nm fs)), (nm f). split; [|split; [reflexivity|]].
  - rewrite app_assoc, firstn_skipn. reflexivity.
  - rewrite skipn_length. cbn [length]. rewrite map_length. lia.
Qed.
End Trace.

(** ** The names of a compiled script *)
Definition names_ok (g : pool rstring) (ex : list N) : Prop :=
  pool_inv seqb g /\ Forall (fun i => (N.to_nat i < length (p_entries g))%nat) ex.

Lemma names_grow g ex n : names_ok g ex -> names_ok (fst (pool_add seqb g n)) ex /\
  (N.to_nat (snd (pool_add seqb g n)) < length (p_entries (fst (pool_add seqb g n))))%nat.
Proof.
  intros [H1 H2]. destruct (pool_add_spec' g n H1) as (l & He & Hl & i & Hi & Hid).
  pose proof (pool_add_inv seqb seqb_eq g n H1) as H3. rewrite He, Hid. split; [split; auto|].
  - rewrite He. eapply Forall_impl; [|exact H2]. cbn. intros a Ha. rewrite app_length. lia.
  - assert (i < length (p_entries g ++ l)) by (eapply index_of_lt; [apply seqb_eq|eauto]).
    unfold pool_id_from, wrap16u. pose proof (N.mod_le (N.of_nat i) 65536 ltac:(discriminate)). lia.
Qed.

Lemma names_sym n : pres names_ok (add_global_symbol n).
Proof.
  intros c H. unfold add_global_symbol. pose proof (names_grow _ _ n H) as [H1 _].
  destruct (pool_add seqb (c_globals c) n) as [p i]. exact H1.
Qed.
Lemma names_ext (x : rstring * span) sp : pres names_ok
  (do off <- add_global_symbol (fst x); add_external off (fst x) (snd x) ;; write_op_u16 op_DefineGlobalDefaulted off sp).
Proof.
  intros c H. pose proof (names_grow _ _ (fst x) H) as [[H1 H2] H3].
  cbv beta iota zeta delta [bind add_global_symbol add_external write_op_u16 write_op write_u16 mod_level get_level set_level].
  destruct (pool_add seqb (c_globals c) (fst x)) as [p i]. cbn [fst snd c_externals c_globals] in *.
  destruct (existsb (N.eqb i) (c_externals c)).
  - exact (conj H1 H2).
  - exact (conj H1 (Forall_cons i H3 H2)).
Qed.

Lemma compile_names m ast sc : compile m ast = COk sc ->
  pool_inv seqb (sc_globals sc) /\ externals_ok sc.
Proof.
  unfold compile. intros E.
  assert (H : pres names_ok (set_main_span ast ;; compile_stmnts m ast)).
  { apply pres_bind.
    - unfold set_main_span. destruct ast as [|x t]; [apply pres_ret|apply pres_mod].
    - intros _. apply pres_stmnts. apply Forall_forall. intros x _ p sp.
      apply (pres_cnode m names_ok names_sym names_ext). }
  specialize (H (compiler_new main_name)).
  destruct ((set_main_span ast;; compile_stmnts m ast) (compiler_new main_name)) as [[a| |] c]; try discriminate.
  injection E as <-. apply H. split; [apply pool_new_inv|constructor].
Qed.
