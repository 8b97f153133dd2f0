From Verif Require Import Base RleVec Pool Vecc Bluff Bytecode Chunk SpecContainers ContainerHist
  ProofContainers ProofBytecode.

Lemma rle_plain_vector (T : Type) (teqb : T -> T -> bool) (ops : list (append_op T)) :
    (forall a b, teqb a b = true <-> a = b) ->
    rle_len (rle_run teqb ops) = length (append_plain_all ops) /\
    (forall i, rle_get (rle_run teqb ops) i = nth_error (append_plain_all ops) i) /\
    (forallb never_zero ops = true ->
     rle_first (rle_run teqb ops) = first_opt (append_plain_all ops) /\
     rle_last (rle_run teqb ops) = last_opt (append_plain_all ops) /\
     rle_data_len (rle_run teqb ops) = runs teqb (append_plain_all ops)).
Proof.
  intros Hok. rewrite <- (expand_run teqb Hok). split; [apply rle_len_expand|].
  split; [intros i; apply rle_get_expand|]. intros Hz. pose proof (rle_wf_run teqb Hok ops Hz) as Hwf.
  rewrite (expand_first _ _ Hwf), (expand_last _ Hok _ Hwf), (expand_runs teqb Hok _ Hwf). auto.
Qed.

Lemma rle_push_n_zero :
  exists ops : list (append_op nat),
    append_plain_all ops = [] /\ rle_first (rle_run Nat.eqb ops) = Some 7
    /\ rle_last (rle_run Nat.eqb ops) = Some 7.
Proof. exists [APushN 7 0]. vm_compute. auto. Qed.

Section PoolProof2.
Context (V : Type) (veqb : V -> V -> bool).

Lemma dedup_length_le acc vs : length (dedup_from veqb acc vs) <= length acc + length vs.
Proof.
  revert acc; induction vs as [|v vs IH]; intros acc; [cbn; lia|].
  rewrite dedup_from_cons. cbn [length]. specialize (IH (if existsb (veqb v) acc then acc else acc ++ [v])).
  destruct (existsb (veqb v) acc); rewrite ?app_length in IH; cbn in IH; lia.
Qed.

Lemma dedup_In_from (veqb_ok : forall a b, veqb a b = true <-> a = b) acc vs v :
  In v (dedup_from veqb acc vs) <-> In v acc \/ In v vs.
Proof.
  revert acc; induction vs as [|w vs IH]; intros acc; [cbn; tauto|].
  rewrite dedup_from_cons, IH. destruct (existsb (veqb w) acc) eqn:E.
  - cbn. split; [tauto|]. intros [H|[<-|H]]; auto.
    apply existsb_exists in E as (x & Hx & Ex). apply veqb_ok in Ex; subst. auto.
  - rewrite in_app_iff. cbn. tauto.
Qed.

Lemma map_ext_nth {A B} (f g : A -> B) l : (forall a, In a l -> f a = g a) -> map f l = map g l.
Proof. induction l; cbn; intros H; [auto|]. f_equal; auto. Qed.

Lemma pool_order vs :
    (forall a b, veqb a b = true <-> a = b) ->
    (N.of_nat (length vs) <= 65536)%N ->
    let p := fst (pool_adds veqb pool_new vs) in
    p_entries p = dedup veqb vs /\
    map Some (snd (pool_adds veqb pool_new vs))
      = map (fun v => option_map N.of_nat (index_of veqb v (dedup veqb vs))) vs /\
    (forall v, In v vs -> exists id, pool_add veqb p v = (p, id) /\ pool_get p id = Some v) /\
    (forall v, ~ In v vs -> (N.of_nat (length (dedup veqb vs)) < 65536)%N ->
       snd (pool_add veqb p v) = N.of_nat (length (dedup veqb vs)) /\
       p_entries (fst (pool_add veqb p v)) = dedup veqb vs ++ [v]).
Proof.
  intros Hok Hlen. pose proof (pool_adds_spec veqb Hok pool_new vs (pool_new_inv veqb)) as H.
  destruct (pool_adds veqb pool_new vs) as [p ids]. cbn [fst snd]. destruct H as ([Hnd Hd] & He & Hids).
  change (dedup_from veqb (p_entries pool_new) vs) with (dedup veqb vs) in He.
  pose proof (dedup_length_le [] vs) as Hdl. change (dedup_from veqb [] vs) with (dedup veqb vs) in Hdl.
  cbn [length] in Hdl. cbn zeta. rewrite He in *.
  assert (Hsmall : forall v k, index_of veqb v (dedup veqb vs) = Some k -> pool_id_from k = N.of_nat k).
  { intros v k Hk. apply index_of_lt in Hk; [|exact Hok]. apply pool_id_from_small. lia. }
  split; auto. split; [|split].
  - rewrite Hids. apply map_ext_nth. intros v Hv.
    destruct (index_of veqb v (dedup veqb vs)) as [k|] eqn:E; auto. cbn. f_equal. eapply Hsmall; eauto.
  - intros v Hv. unfold pool_add. rewrite Hd.
    destruct (index_of veqb v (dedup veqb vs)) as [k|] eqn:E.
    + cbn [option_map]. eexists; split; [reflexivity|]. unfold pool_get. rewrite (Hsmall _ _ E), Nat2N.id, He.
      eapply index_of_nth; eauto.
    + apply (index_of_None veqb Hok) in E. exfalso. apply E.
      change (dedup veqb vs) with (dedup_from veqb [] vs). apply dedup_In_from; auto.
  - intros v Hv Hl. unfold pool_add. rewrite Hd.
    assert (E : index_of veqb v (dedup veqb vs) = None).
    { apply (index_of_None veqb Hok). intros H. apply Hv.
      change (dedup veqb vs) with (dedup_from veqb [] vs) in H. apply dedup_In_from in H; auto.
      destruct H as [[]|H]; auto. }
    rewrite E. cbn. rewrite He. split; auto. apply pool_id_from_small; auto.
Qed.

Lemma pool_ids_distinct vs i j v w idv idw :
    (forall a b, veqb a b = true <-> a = b) ->
    (N.of_nat (length (dedup veqb vs)) <= 65536)%N ->
    nth_error vs i = Some v -> nth_error (snd (pool_adds veqb pool_new vs)) i = Some idv ->
    nth_error vs j = Some w -> nth_error (snd (pool_adds veqb pool_new vs)) j = Some idw ->
    pool_get (fst (pool_adds veqb pool_new vs)) idv = Some v /\ (idv = idw <-> v = w).
Proof.
  intros Hok Hlen Hi Hidi Hj Hidj.
  destruct (pool_adds_nth veqb Hok _ vs i v idv (pool_new_inv veqb) Hi Hidi) as (ki & Ki & ->).
  destruct (pool_adds_nth veqb Hok _ vs j w idw (pool_new_inv veqb) Hj Hidj) as (kj & Kj & ->).
  pose proof (pool_adds_spec veqb Hok pool_new vs (pool_new_inv veqb)) as H.
  destruct (pool_adds veqb pool_new vs) as [p ids]. cbn [fst snd] in *. destruct H as ([Hnd Hd] & He & Hids).
  change (dedup_from veqb (p_entries pool_new) vs) with (dedup veqb vs) in He.
  assert (Hs : forall u k, index_of veqb u (p_entries p) = Some k -> pool_id_from k = N.of_nat k).
  { intros u k Hk. apply index_of_lt in Hk; [|exact Hok]. rewrite He in Hk. apply pool_id_from_small. lia. }
  rewrite (Hs _ _ Ki), (Hs _ _ Kj). split.
  - unfold pool_get. rewrite Nat2N.id. eapply index_of_nth; eauto.
  - split.
    + intros E. apply Nat2N.inj in E. subst kj.
      apply (index_of_nth veqb Hok) in Ki, Kj. congruence.
    + intros ->. congruence.
Qed.
End PoolProof2.

Lemma dedup_nodup_from vs acc :
  NoDup (acc ++ vs) -> dedup_from Nat.eqb acc vs = acc ++ vs.
Proof.
  revert acc; induction vs as [|v vs IH]; intros acc H; [rewrite app_nil_r; reflexivity|].
  rewrite dedup_from_cons. destruct (existsb (Nat.eqb v) acc) eqn:E.
  - exfalso. apply existsb_exists in E as (x & Hx & Ex). apply Nat.eqb_eq in Ex; subst x.
    apply NoDup_remove_2 in H. apply H. rewrite in_app_iff; auto.
  - rewrite IH.
    + rewrite <- app_assoc; reflexivity.
    + rewrite <- app_assoc; exact H.
Qed.

Lemma nth_error_seq n k : k < n -> nth_error (seq 0 n) k = Some k.
Proof.
  intros H. assert (G : forall n s k, k < n -> nth_error (seq s n) k = Some (s + k)).
  { clear. induction n as [|n IH]; intros s [|k] H; cbn; try lia; [f_equal; lia|].
    rewrite IH by lia. f_equal; lia. }
  apply G; auto.
Qed.

Lemma index_of_seq n k : k < n -> index_of Nat.eqb k (seq 0 n) = Some k.
Proof.
  intros H. apply index_of_unique; [apply Nat.eqb_eq|apply seq_NoDup|apply nth_error_seq; auto].
Qed.

Lemma pool_ids_collide :
  exists (vs : list nat) (i j v w : nat) (id : N),
    nth_error vs i = Some v /\ nth_error (snd (pool_adds Nat.eqb pool_new vs)) i = Some id /\
    nth_error vs j = Some w /\ nth_error (snd (pool_adds Nat.eqb pool_new vs)) j = Some id /\ v <> w.
Proof.
  set (big := N.to_nat 65536). exists (seq 0 (S big)), 0, big, 0, big, 0%N.
  assert (Hbig : N.of_nat big = 65536%N) by apply N2Nat.id.
  assert (Hb : 0 < big) by lia. clearbody big.
  pose proof (pool_adds_spec Nat.eqb Nat.eqb_eq pool_new (seq 0 (S big)) (pool_new_inv _)) as H.
  destruct (pool_adds Nat.eqb pool_new (seq 0 (S big))) as [p ids]. cbn [snd].
  destruct H as (_ & He & Hids).
  change (p_entries pool_new) with (@nil nat) in He. rewrite dedup_nodup_from in He by apply seq_NoDup.
  cbn [app] in He.
  assert (Hk : forall k, k < S big -> nth_error ids k = Some (pool_id_from k)).
  { intros k Hk. assert (H1 : nth_error (map Some ids) k = Some (Some (pool_id_from k))).
    { rewrite Hids, nth_error_map, nth_error_seq by auto. cbn [option_map].
      rewrite He, index_of_seq by auto. reflexivity. }
    rewrite nth_error_map in H1. destruct (nth_error ids k); cbn in H1; congruence. }
  rewrite !nth_error_seq, !Hk by lia. unfold pool_id_from. rewrite Hbig.
  repeat split; auto. lia.
Qed.

Lemma pool_update_stale :
  exists (p p' : pool nat) (id : N),
    pool_add Nat.eqb pool_new 1 = (p, id) /\ pool_update p id 2 = Ok p' /\
    snd (pool_add Nat.eqb p' 1) = id /\ pool_get (fst (pool_add Nat.eqb p' 1)) id = Some 2.
Proof. do 3 eexists. vm_compute. auto. Qed.

Lemma vecc_history (T : Type) (size : T -> N) m max start ops :
    (total size start <= max)%N ->
    plain_history size max start ops = true ->
    exists v0, vecc_try_new_from size start max = Ok v0 /\
    let '(l, outs) := vec_spec_run size max start ops in
    snd (vecc_run size m v0 ops) = outs /\
    (~ In VAbort outs -> fst (vecc_run size m v0 ops) = mkVecc l (total size l) max) /\
    (total size l <= max)%N.
Proof.
  intros H1 H2. exists (mkVecc start (total size start) max). split.
  - rewrite vecc_try_new_from_spec. destruct (N.leb_spec (total size start) max); auto; lia.
  - apply vecc_run_plain; auto.
Qed.

Lemma vecc_set_wrong :
  exists (ops : list (vec_op N)),
    snd (vecc_run (fun x => x) Release (vecc_new 4) ops) = [VDone; VTooLarge] /\
    snd (vec_spec_run (fun x => x) 4 [] ops) = [VDone; VDone].
Proof. exists [VPush 3%N; VSet 0 2%N]. vm_compute. auto. Qed.

Lemma vecc_set_size_wrong :
  exists (ops : list (vec_op N)),
    let v := fst (vecc_run (fun x => x) Release (vecc_new 10) ops) in
    vc_size v = 6%N /\ total (fun x => x) (vc_data v) = 3%N.
Proof. exists [VPush 3%N; VSet 0 3%N]. vm_compute. auto. Qed.

Lemma vecc_extend_wrong :
  exists (ops : list (vec_op N)),
    let v := fst (vecc_run (fun x => x) Release (vecc_new 4) ops) in
    snd (vecc_run (fun x => x) Release (vecc_new 4) ops) = [VTooLarge] /\
    vc_size v = 9%N /\ vc_data v = [1%N].
Proof. exists [VExtend [1%N; 8%N]]. vm_compute. auto. Qed.

Lemma bluff_stack (T : Type) (ops : list (stack_op T)) :
  bluff_run bluff_new ops = stack_spec_run [] ops.
Proof. apply bluff_run_abs. split; cbn; auto. Qed.

Lemma write_read (ops : bytes) (v : N) : (v < 65536)%N ->
    length (bc_write_u16 v ops) = length ops + 2 /\
    bc_read_u16 (bc_write_u16 v ops) (length ops) = Ok v /\
    (forall i, i < length ops -> nth_error (bc_write_u16 v ops) i = nth_error ops i) /\
    length (bc_write_u8 v ops) = length ops + 1 /\
    bc_read_u8 (bc_write_u8 v ops) (length ops) = Ok v /\
    (forall i, i < length ops -> nth_error (bc_write_u8 v ops) i = nth_error ops i).
Proof.
  intros H. unfold bc_write_u16 at 1 3, bc_write_u8. rewrite !app_length.
  repeat split; auto.
  - apply write_u16_read; auto.
  - intros i Hi. apply nth_error_app1; auto.
  - unfold bc_read_u8. rewrite nth_error_app2, Nat.sub_diag by lia. reflexivity.
  - intros i Hi. apply nth_error_app1; auto.
Qed.

Lemma chunk_spans (V : Type) (ops : list (chunk_op V)) (c : chunk V) :
    chunk_run chunk_new ops = Ok c ->
    let written := flat_map spans_of ops in
    length written = chunk_len c /\ rle_len (ck_spans c) = chunk_len c /\
    (forall i, i < chunk_len c -> nth_error written i = Some (chunk_get_span c i)) /\
    (forall i, chunk_len c <= i -> chunk_get_span c i = default_span).
Proof.
  intros H. apply chunk_run_spans in H as [H1 H2]; [|reflexivity].
  cbn [expand ck_spans chunk_new rle_new flat_map app] in H1. cbn zeta. unfold chunk_len, chunk_get_span.
  rewrite rle_len_expand. split; [congruence|]. split; [auto|]. split.
  - intros i Hi. rewrite rle_get_expand, <- H1.
    destruct (nth_error (expand (ck_spans c)) i) eqn:E; auto. apply nth_error_None in E. lia.
  - intros i Hi. rewrite rle_get_expand.
    destruct (nth_error (expand (ck_spans c)) i) eqn:E; auto.
    assert (i < length (expand (ck_spans c))) by (apply nth_error_Some; congruence). lia.
Qed.
