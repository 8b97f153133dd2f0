(** Property theorems about the containers and the byte code buffer:
    C16, C22, C34-C38. *)
From Verif Require Import Base RleVec Pool Vecc Bluff Bytecode Chunk SpecContainers ContainerHist
  ProofContainers ProofBytecode ProofContainers2.

(** ** C34  RleVec behaves like a plain vector. *)
Theorem C34_rlevec_plain_vector :
  forall (T : Type) (teqb : T -> T -> bool) (ops : list (append_op T)),
    (forall a b, teqb a b = true <-> a = b) ->
    rle_len (rle_run teqb ops) = length (append_plain_all ops) /\
    (forall i, rle_get (rle_run teqb ops) i = nth_error (append_plain_all ops) i) /\
    (forallb never_zero ops = true ->
     rle_first (rle_run teqb ops) = first_opt (append_plain_all ops) /\
     rle_last (rle_run teqb ops) = last_opt (append_plain_all ops) /\
     rle_data_len (rle_run teqb ops) = runs teqb (append_plain_all ops)).
Proof. exact @rle_plain_vector. Qed.
Print Assumptions C34_rlevec_plain_vector.

Example C34_example :
  let ops := [APush 1; APush 1; APushN 2 3; APush 1] in
  forallb never_zero ops = true /\ append_plain_all ops = [1; 1; 2; 2; 2; 1] /\
  rle_run Nat.eqb ops = [(2, 1); (3, 2); (1, 1)].
Proof. vm_compute. auto. Qed.

(** Without the restriction on [first]/[last]/runs the claim is false: a run of
    length zero is reported. *)
Theorem C34_push_n_zero_refuted :
  exists ops : list (append_op nat),
    append_plain_all ops = [] /\ rle_first (rle_run Nat.eqb ops) = Some 7
    /\ rle_last (rle_run Nat.eqb ops) = Some 7.
Proof. exact rle_push_n_zero. Qed.
Print Assumptions C34_push_n_zero_refuted.

(** ** C35  Interning is idempotent and order preserving. *)
Theorem C35_intern_order :
  forall (V : Type) (veqb : V -> V -> bool) (vs : list V),
    (forall a b, veqb a b = true <-> a = b) ->
    (N.of_nat (length vs) <= 65536)%N ->
    let p := fst (pool_adds veqb pool_new vs) in
    p_entries p = dedup veqb vs /\
    map Some (snd (pool_adds veqb pool_new vs))
      = map (fun v => option_map N.of_nat (index_of veqb v (dedup veqb vs))) vs /\
    (forall v, In v vs -> exists id, pool_add veqb p v = (p, id) /\ pool_get p id = Some v) /\
    (forall v, ~ In v vs -> (N.of_nat (length (dedup veqb vs)) < 65536)%N ->
       snd (pool_add veqb p v) = N.of_nat (length (dedup veqb vs)) /\
       p_entries (fst (pool_add veqb p v)) = dedup veqb vs ++ [v]).
Proof. exact @pool_order. Qed.
Print Assumptions C35_intern_order.

Example C35_example :
  dedup Nat.eqb [5; 6; 5; 7] = [5; 6; 7] /\ snd (pool_adds Nat.eqb pool_new [5; 6; 5; 7]) = [0; 1; 0; 2]%N.
Proof. vm_compute. auto. Qed.

(** ** C16  Different values never share an identifier (up to 65536 of them). *)
Theorem C16_ids_distinct_partial :
  forall (V : Type) (veqb : V -> V -> bool) (vs : list V) i j v w idv idw,
    (forall a b, veqb a b = true <-> a = b) ->
    (N.of_nat (length (dedup veqb vs)) <= 65536)%N ->
    nth_error vs i = Some v -> nth_error (snd (pool_adds veqb pool_new vs)) i = Some idv ->
    nth_error vs j = Some w -> nth_error (snd (pool_adds veqb pool_new vs)) j = Some idw ->
    pool_get (fst (pool_adds veqb pool_new vs)) idv = Some v /\ (idv = idw <-> v = w).
Proof. exact @pool_ids_distinct. Qed.
Print Assumptions C16_ids_distinct_partial.

Example C16_example :
  snd (pool_adds Nat.eqb pool_new [5; 6; 5; 7]) = [0; 1; 0; 2]%N /\
  (N.of_nat (length (dedup Nat.eqb [5; 6; 5; 7]%nat)) <= 65536)%N.
Proof. vm_compute. split; [reflexivity|discriminate]. Qed.

(** Missing from the partial theorem, and false: 65537 distinct values. *)
Theorem C16_ids_distinct_refuted :
  exists (vs : list nat) (i j v w : nat) (id : N),
    nth_error vs i = Some v /\ nth_error (snd (pool_adds Nat.eqb pool_new vs)) i = Some id /\
    nth_error vs j = Some w /\ nth_error (snd (pool_adds Nat.eqb pool_new vs)) j = Some id /\ v <> w.
Proof. exact pool_ids_collide. Qed.
Print Assumptions C16_ids_distinct_refuted.

(** [update] leaves the old value registered under the id it no longer has. *)
Theorem C16_update_refuted :
  exists (p p' : pool nat) (id : N),
    pool_add Nat.eqb pool_new 1 = (p, id) /\ pool_update p id 2 = Ok p' /\
    snd (pool_add Nat.eqb p' 1) = id /\ pool_get (fst (pool_add Nat.eqb p' 1)) id = Some 2.
Proof. exact pool_update_stale. Qed.
Print Assumptions C16_update_refuted.

(** ** C36  Vecc tracks the size of its contents (histories without [set] whose
    [extend]s fit). *)
Theorem C36_vecc_history_partial :
  forall (T : Type) (size : T -> N) (m : mode) (max : N) (start : list T) (ops : list (vec_op T)),
    (total size start <= max)%N ->
    plain_history size max start ops = true ->
    exists v0, vecc_try_new_from size start max = Ok v0 /\
    let '(l, outs) := vec_spec_run size max start ops in
    snd (vecc_run size m v0 ops) = outs /\
    (~ In VAbort outs -> fst (vecc_run size m v0 ops) = mkVecc l (total size l) max) /\
    (total size l <= max)%N.
Proof. exact @vecc_history. Qed.
Print Assumptions C36_vecc_history_partial.

Example C36_example :
  let ops := [VPush 4%N; VInsert 0 7%N; VSwapRemove 0; VTruncate 1; VPush 90%N; VExtend [1%N; 2%N]; VPop] in
  plain_history (fun x => x) 50 [3%N] ops = true /\
  vec_spec_run (fun x => x) 50 [3%N] ops
    = ([4; 1]%N, [VDone; VDone; VItem (Some 7%N); VDone; VTooLarge; VDone; VItem (Some 2%N)]).
Proof. vm_compute. auto. Qed.

(** Missing above, and false: [set] forgets to subtract, so a list that is never
    larger than 4 is refused; a refused [extend] changes the recorded size. *)
Theorem C36_set_refuted :
  exists (ops : list (vec_op N)),
    snd (vecc_run (fun x => x) Release (vecc_new 4) ops) = [VDone; VTooLarge] /\
    snd (vec_spec_run (fun x => x) 4 [] ops) = [VDone; VDone].
Proof. exact vecc_set_wrong. Qed.
Print Assumptions C36_set_refuted.

Theorem C36_set_size_refuted :
  exists (ops : list (vec_op N)),
    let v := fst (vecc_run (fun x => x) Release (vecc_new 10) ops) in
    vc_size v = 6%N /\ total (fun x => x) (vc_data v) = 3%N.
Proof. exact vecc_set_size_wrong. Qed.
Print Assumptions C36_set_size_refuted.

Theorem C36_extend_refuted :
  exists (ops : list (vec_op N)),
    let v := fst (vecc_run (fun x => x) Release (vecc_new 4) ops) in
    snd (vecc_run (fun x => x) Release (vecc_new 4) ops) = [VTooLarge] /\
    vc_size v = 9%N /\ vc_data v = [1%N].
Proof. exact vecc_extend_wrong. Qed.
Print Assumptions C36_extend_refuted.

(** ** C37  Bluff behaves like a stack. *)
Theorem C37_bluff_stack :
  forall (T : Type) (ops : list (stack_op T)), bluff_run bluff_new ops = stack_spec_run [] ops.
Proof. exact @bluff_stack. Qed.
Print Assumptions C37_bluff_stack.

Example C37_example :
  stack_spec_run [] [SPush 1; SPush 2; SPop; SInit 9; SPeek; SLen; SPush 4; SDrain; SPop]
  = [SUnit; SUnit; SItem (Some 2); SUnit; SItem (Some 9); SNat 1; SUnit; SList [9; 4]; SItem None].
Proof. reflexivity. Qed.

(** ** C38  Bytecode writes and reads round-trip. *)
Theorem C38_write_read :
  forall (ops : bytes) (v : N), (v < 65536)%N ->
    length (bc_write_u16 v ops) = length ops + 2 /\
    bc_read_u16 (bc_write_u16 v ops) (length ops) = Ok v /\
    (forall i, i < length ops -> nth_error (bc_write_u16 v ops) i = nth_error ops i) /\
    length (bc_write_u8 v ops) = length ops + 1 /\
    bc_read_u8 (bc_write_u8 v ops) (length ops) = Ok v /\
    (forall i, i < length ops -> nth_error (bc_write_u8 v ops) i = nth_error ops i).
Proof. exact write_read. Qed.
Print Assumptions C38_write_read.

Theorem C38_patch :
  forall (i : nat) (v : N) (ops : bytes), (v < 65536)%N ->
    match bc_patch_u16 i v ops with
    | Ok ops' => i + 1 < length ops /\ length ops' = length ops /\ bc_read_u16 ops' i = Ok v /\
                 forall j, j <> i -> j <> i + 1 -> nth_error ops' j = nth_error ops j
    | Err _ => False
    | Panic => length ops <= i + 1
    end.
Proof. exact patch_u16_spec. Qed.
Print Assumptions C38_patch.

Theorem C38_patch_u8 :
  forall (i : nat) (b : N) (ops : bytes),
    match bc_patch_u8 i b ops with
    | Ok ops' => i < length ops /\ length ops' = length ops /\ nth_error ops' i = Some b /\
                 forall j, j <> i -> nth_error ops' j = nth_error ops j
    | Err _ => False
    | Panic => length ops <= i
    end.
Proof. exact bc_set_spec. Qed.
Print Assumptions C38_patch_u8.

Theorem C38_insert :
  forall (i : nat) (v : N) (ops : bytes), (v < 65536)%N ->
    match bc_insert_u16 i v ops with
    | Ok ops' => i <= length ops /\ length ops' = length ops + 2 /\ bc_read_u16 ops' i = Ok v /\
                 (forall j, j < i -> nth_error ops' j = nth_error ops j) /\
                 (forall j, i <= j -> nth_error ops' (j + 2) = nth_error ops j)
    | Err _ => False
    | Panic => length ops < i
    end.
Proof. exact insert_u16_spec. Qed.
Print Assumptions C38_insert.

Theorem C38_insert_u8 :
  forall (i : nat) (b : N) (ops : bytes),
    match bc_insert_u8 i b ops with
    | Ok ops' => i <= length ops /\ length ops' = length ops + 1 /\ bc_read_u8 ops' i = Ok b /\
                 (forall j, j < i -> nth_error ops' j = nth_error ops j) /\
                 (forall j, i <= j -> nth_error ops' (j + 1) = nth_error ops j)
    | Err _ => False
    | Panic => length ops < i
    end.
Proof. exact insert_u8_spec. Qed.
Print Assumptions C38_insert_u8.

Example C38_example :
  bc_write_u16 400 [6]%N = [6; 144; 1]%N /\ bc_read_u16 [6; 144; 1]%N 1 = Ok 400%N /\
  bc_patch_u16 1 513 [6; 144; 1]%N = Ok [6; 1; 2]%N /\ bc_insert_u16 1 513 [6; 7]%N = Ok [6; 1; 2; 7]%N /\
  bc_patch_u16 2 513 [6; 144; 1]%N = Panic.
Proof. vm_compute. auto. Qed.

(** ** C22  Every code byte has a source position. *)
Theorem C22_spans :
  forall (V : Type) (ops : list (chunk_op V)) (c : chunk V),
    chunk_run chunk_new ops = Ok c ->
    let written := flat_map spans_of ops in
    length written = chunk_len c /\ rle_len (ck_spans c) = chunk_len c /\
    (forall i, i < chunk_len c -> nth_error written i = Some (chunk_get_span c i)) /\
    (forall i, chunk_len c <= i -> chunk_get_span c i = default_span).
Proof. exact @chunk_spans. Qed.
Print Assumptions C22_spans.

Example C22_example :
  let s1 := mkSpan 1 2 0 in let s2 := mkSpan 3 4 0 in
  let ops := [KWriteOp 6 s1; KWriteU16 400 s1; KWriteOp 1 s2; KPatchU16 1 7; KConst 5] in
  exists c : chunk nat, chunk_run chunk_new ops = Ok c /\
  ck_ops c = [6; 7; 0; 1]%N /\ flat_map spans_of ops = [s1; s1; s1; s2].
Proof. eexists. vm_compute. auto. Qed.
