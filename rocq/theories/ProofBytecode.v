From Verif Require Import Base RleVec Bytecode Chunk SpecContainers ContainerHist ProofContainers.
Ltac Zify.zify_post_hook ::= Z.div_mod_to_equations.

Lemma le_roundtrip v : (v < 65536)%N -> le_u16 (le_lo v) (le_hi v) = v.
Proof. unfold le_u16, le_lo, le_hi. intros H. lia. Qed.

Lemma le_bytes v : (le_lo v < 256)%N /\ (le_hi v < 256)%N.
Proof. unfold le_lo, le_hi. lia. Qed.

Lemma read_u16_at v pre post :
  (v < 65536)%N -> bc_read_u16 (pre ++ le_lo v :: le_hi v :: post) (length pre) = Ok v.
Proof.
  intros H. unfold bc_read_u16. rewrite !nth_error_app2 by lia.
  replace (length pre - length pre) with 0 by lia.
  replace (length pre + 1 - length pre) with 1 by lia. cbn [nth_error].
  rewrite le_roundtrip by auto. reflexivity.
Qed.

Lemma write_u16_read ops v : (v < 65536)%N ->
  bc_read_u16 (bc_write_u16 v ops) (length ops) = Ok v.
Proof. intros H. apply (read_u16_at v ops []); auto. Qed.

Lemma bc_set_spec i b ops : 
  match bc_set i b ops with
  | Ok ops' => i < length ops /\ length ops' = length ops /\ nth_error ops' i = Some b /\
               forall j, j <> i -> nth_error ops' j = nth_error ops j
  | Err _ => False
  | Panic => length ops <= i
  end.
Proof.
  unfold bc_set. destruct (Nat.ltb_spec i (length ops)); cbn; auto.
  repeat split; auto.
  - apply upd_length.
  - apply nth_error_upd_eq; auto.
  - intros j Hj. apply nth_error_upd_neq; auto.
Qed.

Lemma patch_u16_spec i v ops : (v < 65536)%N ->
  match bc_patch_u16 i v ops with
  | Ok ops' => i + 1 < length ops /\ length ops' = length ops /\ bc_read_u16 ops' i = Ok v /\
               forall j, j <> i -> j <> i + 1 -> nth_error ops' j = nth_error ops j
  | Err _ => False
  | Panic => length ops <= i + 1
  end.
Proof.
  intros Hv. unfold bc_patch_u16.
  pose proof (bc_set_spec i (le_lo v) ops) as H1. destruct (bc_set i (le_lo v) ops) as [o1| |]; cbn [rbind].
  2: contradiction. 2: lia.
  pose proof (bc_set_spec (i + 1) (le_hi v) o1) as H2.
  destruct (bc_set (i + 1) (le_hi v) o1) as [o2| |]; [|contradiction|lia].
  destruct H1 as (A1 & A2 & A3 & A4), H2 as (B1 & B2 & B3 & B4).
  repeat split; try lia.
  - unfold bc_read_u16. rewrite B3, (B4 i) by lia. rewrite A3. rewrite le_roundtrip; auto.
  - intros j Hj1 Hj2. rewrite B4, A4; auto.
Qed.

Lemma insert_u16_spec i v ops : (v < 65536)%N ->
  match bc_insert_u16 i v ops with
  | Ok ops' => i <= length ops /\ length ops' = length ops + 2 /\ bc_read_u16 ops' i = Ok v /\
               (forall j, j < i -> nth_error ops' j = nth_error ops j) /\
               (forall j, i <= j -> nth_error ops' (j + 2) = nth_error ops j)
  | Err _ => False
  | Panic => length ops < i
  end.
Proof.
  intros Hv. unfold bc_insert_u16, bc_insert. destruct (Nat.leb_spec i (length ops)) as [H|H]; cbn [rbind]; auto.
  set (l1 := firstn i ops). set (l2 := skipn i ops).
  assert (Hl : length l1 = i) by (unfold l1; rewrite firstn_length; lia).
  assert (Ho : ops = l1 ++ l2) by (unfold l1, l2; rewrite firstn_skipn; auto).
  assert (Hle : i <= length (l1 ++ le_hi v :: l2)) by (rewrite app_length; cbn; lia).
  destruct (Nat.leb_spec i (length (l1 ++ le_hi v :: l2))); [|lia].
  rewrite firstn_app, skipn_app, Hl, Nat.sub_diag. cbn [firstn skipn].
  rewrite (firstn_all2 l1), (skipn_all2 l1) by lia. rewrite app_nil_r. cbn [app].
  repeat split; auto.
  - rewrite Ho, !app_length. cbn. lia.
  - rewrite <- Hl. apply read_u16_at; auto.
  - intros j Hj. rewrite Ho, !nth_error_app1 by lia. auto.
  - intros j Hj. rewrite Ho, !nth_error_app2 by lia.
    replace (j + 2 - length l1) with (S (S (j - length l1))) by lia. reflexivity.
Qed.

Lemma insert_u8_spec i b ops :
  match bc_insert_u8 i b ops with
  | Ok ops' => i <= length ops /\ length ops' = length ops + 1 /\ bc_read_u8 ops' i = Ok b /\
               (forall j, j < i -> nth_error ops' j = nth_error ops j) /\
               (forall j, i <= j -> nth_error ops' (j + 1) = nth_error ops j)
  | Err _ => False
  | Panic => length ops < i
  end.
Proof.
  unfold bc_insert_u8, bc_insert. destruct (Nat.leb_spec i (length ops)) as [H|H]; auto.
  set (l1 := firstn i ops). set (l2 := skipn i ops).
  assert (Hl : length l1 = i) by (unfold l1; rewrite firstn_length; lia).
  assert (Ho : ops = l1 ++ l2) by (unfold l1, l2; rewrite firstn_skipn; auto).
  repeat split; auto.
  - rewrite Ho, !app_length. cbn. lia.
  - unfold bc_read_u8. rewrite nth_error_app2 by lia. rewrite Hl, Nat.sub_diag. reflexivity.
  - intros j Hj. rewrite Ho, !nth_error_app1 by lia. auto.
  - intros j Hj. rewrite Ho, !nth_error_app2 by lia.
    replace (j + 1 - length l1) with (S (j - length l1)) by lia. reflexivity.
Qed.

(** Chunk histories: the spans written, one per byte. *)
Section ChunkProof.
Context {V : Type}.

Definition spans_of (o : chunk_op V) : list span :=
  match o with
  | KWriteOp _ sp | KWriteU8 _ sp => [sp]
  | KWriteU16 _ sp => [sp; sp]
  | _ => []
  end.

Lemma chunk_step_spans (c c' : chunk V) o : chunk_step c o = Ok c' ->
  expand (ck_spans c') = expand (ck_spans c) ++ spans_of o /\
  length (ck_ops c') = length (ck_ops c) + length (spans_of o).
Proof.
  destruct o as [b sp|b sp|v sp|i b|i v|v|s]; cbn [chunk_step spans_of].
  - intros [= <-]. unfold chunk_write_op, chunk_write_u8, rle_push, bc_write_u8; cbn [ck_spans ck_ops]. rewrite (expand_push_n _ span_eqb_eq), app_length. auto.
  - intros [= <-]. unfold chunk_write_op, chunk_write_u8, rle_push, bc_write_u8; cbn [ck_spans ck_ops]. rewrite (expand_push_n _ span_eqb_eq), app_length. auto.
  - intros [= <-]. unfold chunk_write_u16, bc_write_u16; cbn [ck_spans ck_ops]. rewrite (expand_push_n _ span_eqb_eq), app_length. auto.
  - unfold chunk_patch_u8, bc_patch_u8. pose proof (bc_set_spec i b (ck_ops c)) as H.
    destruct (bc_set i b (ck_ops c)); cbn; try congruence. intros [= <-]. cbn. rewrite app_nil_r. split; [reflexivity|lia].
  - unfold chunk_patch_u16, bc_patch_u16. pose proof (bc_set_spec i (le_lo v) (ck_ops c)) as H.
    destruct (bc_set i (le_lo v) (ck_ops c)) as [o1| |]; cbn; try congruence.
    pose proof (bc_set_spec (i+1) (le_hi v) o1) as H2.
    destruct (bc_set (i+1) (le_hi v) o1); cbn; try congruence. intros [= <-]. cbn.
    rewrite app_nil_r. split; [reflexivity|lia].
  - intros [= <-]. cbn. rewrite app_nil_r. split; [reflexivity|lia].
  - intros [= <-]. cbn. rewrite app_nil_r. split; [reflexivity|lia].
Qed.

Lemma chunk_run_spans (c c' : chunk V) ops : chunk_run c ops = Ok c' ->
  length (expand (ck_spans c)) = length (ck_ops c) ->
  expand (ck_spans c') = expand (ck_spans c) ++ flat_map spans_of ops /\
  length (expand (ck_spans c')) = length (ck_ops c').
Proof.
  revert c; induction ops as [|o ops IH]; intros c; cbn [chunk_run flat_map].
  - intros [= <-]. rewrite app_nil_r. auto.
  - destruct (chunk_step c o) as [c1| |] eqn:E; cbn [rbind]; try congruence.
    intros Hr Hl. apply chunk_step_spans in E as [E1 E2].
    destruct (IH c1 Hr) as [I1 I2].
    + rewrite E1, app_length. lia.
    + split; [|exact I2]. rewrite I1, E1, <- app_assoc. reflexivity.
Qed.
End ChunkProof.
