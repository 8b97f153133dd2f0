(** Errors and tracebacks of a run (C92, C93). *)
From Verif Require Import Base RleVec Pool Vecc Float NumText Bytecode Chunk Value Ast Arith VmOps
                          Compiler Vm Items CodeSize SpecContainers ContainerHist ProofContainers ProofValue
                          SpecParse SpecReady SpecRel ProofRel ProofHeight ProofReady ProofReady2
                          SpecPos ProofCompiler ProofPos1 ProofPos3 ProofPos6 ProofPos7 ProofPos8.
From Verif Require ProofCode ProofReady3.
Import ProofCode(pre, pre_refl, pre_trans, pre_app, pre_nth, pre_len, cpool_inv).
Ltac Zify.zify_post_hook ::= Z.div_mod_to_equations.

Section Run.
Context {D : Type} (m : mode) (hst : host D) (ast : list nodeS) (sc : script).
Notation vm := (vm D).
Notation at_ := (occurs ast).
Notation P := (position_of ast).
Notation G := (G sc).

(** The state an error leaves behind, as far as a traceback shows it. *)
Definition traced (s : vm) : Prop :=
  fok at_ P G (f_fn (v_frame s)) /\ ip s - 1 < length (ck_ops (cur_chunk s)) /\ Forall (waiting ast sc) (v_frames s).

Lemma fok_span f q : fok at_ P G f -> q < length (ck_ops (fn_chunk f)) -> P (chunk_get_span (fn_chunk f) q).
Proof using.
  intros H Hq. destruct (fok_cut _ _ _ _ H) as (sh & HC). exact (span_at at_ P _ _ _ HC q (means_pos ast) Hq).
Qed.
Lemma fok_nspan f : fok at_ P G f -> P (fn_nspan f). Proof using. now intros []. Qed.

Lemma clo_fun C x i : means at_ P G C x -> length C <= u16max -> pinstr (p_kind x) (ICreateClosure i) ->
  exists g, nth_error C (N.to_nat i) = Some (VFn (MFun g)).
Proof using.
  intros Hm HC Hpi. destruct x as [[j|j|off us] xsp la]; cbn [p_kind pinstr] in Hpi.
  - subst j. inversion Hm as [? ? Q| ? n ? Q| | | | | | | | |]; [discriminate|inversion Q].
  - destruct Hpi as [v Hv]. destruct j; discriminate.
  - injection Hpi as <-. inversion Hm as [| | | | | | | | | |? ? g ? _ (n & Hg & En) _]; subst. exists g.
    rewrite pool_id_from_small, Nat2N.id, Hg; [reflexivity|]. assert (n < length C) by (apply nth_error_Some; congruence). lia.
Qed.
Lemma close_frames n : forall k (t : vm), match close_range k n t with AOk _ t' => v_frames t' = v_frames t | AErr _ _ _ => False | APanic => True end.
Proof using.
  induction n as [|n IH]; intros k t; cbn [close_range]; [reflexivity|]. unfold abind, close_upvalues.
  destruct (nth_error _ _); cbv beta iota; apply (IH (S k) (set_cells _ _ _)) || apply IH.
Qed.
Lemma captures_err n : forall s : vm, match read_captures n s with
  | AOk _ s' => v_frames s' = v_frames s /\ v_frame s' = fr_set_ip (ip s + 3 * n) (v_frame s)
  | AErr _ _ _ => False | APanic => True end.
Proof using.
  induction n as [|n IH]; intros s; cbn [read_captures].
  - cbn. split; [reflexivity|]. unfold ip. rewrite Nat.add_0_r. now destruct (v_frame s).
  - cbv [abind agets amod aret]. destruct (bc_read_u8 _ _); try exact I. destruct (bc_read_u16 _ _); try exact I.
    set (s1 := set_ip (ip s + 3) s). cbv beta iota.
    assert (K : forall (x : act D nat), (forall s : vm, match x s with AOk _ s' => v_frames s' = v_frames s /\ v_frame s' = v_frame s | AErr _ _ _ => False | APanic => True end) ->
      match match x s1 with AOk a s' => match read_captures n s' with AOk a1 s'0 => AOk (a :: a1) s'0 | AErr e sp s'0 => AErr e sp s'0 | APanic => APanic end
            | AErr e sp s' => AErr e sp s' | APanic => APanic end with
      | AOk _ s' => v_frames s' = v_frames s /\ v_frame s' = fr_set_ip (ip s + 3 * S n) (v_frame s)
      | AErr _ _ _ => False | APanic => True end).
    { intros x Hx. specialize (Hx s1). destruct (x s1) as [c s2|e sp s2|]; try exact Hx. destruct Hx as [H1 H2].
      specialize (IH s2). destruct (read_captures n s2) as [l s3|e sp s3|]; try exact IH. destruct IH as [H3 H4].
      split; [rewrite H3, H1; reflexivity|]. rewrite H4, H2. unfold ip. rewrite H2. unfold s1, set_ip, fr_set_ip, ip. cbn. f_equal. lia. }
    destruct (_ =? _)%N.
    + apply K. intros t. unfold capture_upvalue. destruct (find _ _); cbn; auto.
    + destruct (nth_error _ _) as [c|]; [|exact I]. apply (K (fun s => AOk c s)). intros t. auto.
Qed.

Theorem step_err s e sp s' : pinv ast sc s -> ready s -> pre G (p_entries (v_gsyms s)) -> length G <= u16max ->
  step m hst s = SErr e sp s' -> P sp /\ (blamed m hst ast s e sp \/ elsewhere ast s e) /\ traced s'.
Proof using.
  intros Iv R Hpre HG E. pose proof Iv as [V C F]. destruct (now_at ast sc s Iv R) as (sh & x & i & next & HC & Hin & Hpi & Hd & Hn & Hl & Hm & Hsp).
  destruct R as [R1 R2 (i' & next' & Hd' & Ho & Hbr & _ & _ & Hnx & Hj)]. rewrite Hd in Hd'. injection Hd' as <- <-.
  assert (Hposat : forall q, q < length (ck_ops (cur_chunk s)) -> P (chunk_get_span (cur_chunk s) q)) by (intros q; exact (fok_span _ q C)).
  unfold step in E.
  assert (HT : match tick hst s with
    | AOk _ s1 => v_frame s1 = v_frame s /\ v_frames s1 = v_frames s /\ calm s s1 /\ v_sp s1 = v_sp s /\ v_stack s1 = v_stack s /\ v_blocks s1 = v_blocks s
    | AErr e1 sp1 s1 => frs s s1 /\ elsewhere ast s e1 /\ spans0 s sp1 | APanic => True end).
  { unfold tick, abind, agets. destruct (_ <? _); [|repeat split].
    pose proof (ew_runtime (R := elsewhere ast s) hst s (fun _ => False)) as K. unfold has_runtime_exceeded, abind, agets, amod, ew in *.
    destruct (_ <? _)%N; cbn in *; [|repeat split]. destruct K as [K1 [[[] _]|K2]]. auto. }
  destruct (tick hst s) as [u s1|e1 sp1 s1|]; [| |discriminate].
  2:{ injection E as <- <- <-. destruct HT as ([T1 T2] & T3 & T4). split; [|split; [now right|]].
      - destruct T4 as [->| ->]; [now apply Hposat|apply (fok_nspan _ C)].
      - unfold traced, cur_chunk, ip. rewrite T1, T2. split; [exact C|]. split; [|exact F]. unfold ip, cur_chunk in R1. lia. }
  destruct HT as (T1 & T2 & T3 & T4 & T6 & T5).
  assert (Hcc : cur_chunk s1 = cur_chunk s) by (unfold cur_chunk, fr_chunk; rewrite T1; auto).
  assert (Hip : ip s1 = ip s) by (unfold ip; rewrite T1; auto).
  unfold chunk_len in E. rewrite Hcc, Hip in E. destruct (length (ck_ops (cur_chunk s)) <=? ip s) eqn:El; [apply Nat.leb_le in El; lia|]. clear El.
  rewrite Hd in E. set (s2 := set_ip next s1) in *.
  assert (Hfr2 : v_frame s2 = fr_set_ip next (v_frame s)) by (cbn; rewrite T1; auto).
  assert (Hfs2 : v_frames s2 = v_frames s) by (cbn; auto).
  assert (Hc2 : cur_chunk s2 = cur_chunk s) by (unfold cur_chunk, fr_chunk; rewrite Hfr2; auto).
  assert (Hip2 : ip s2 = next) by (unfold ip; rewrite Hfr2; auto).
  assert (Ca : calm s s2) by (destruct T3; constructor; auto).
  assert (Tr : forall p t, p - 1 < length (ck_ops (cur_chunk s)) -> v_frame t = fr_set_ip p (v_frame s) -> v_frames t = v_frames s -> traced t).
  { intros p t Hp H1 H2. unfold traced, cur_chunk, ip. rewrite H1, H2. split; [exact C|]. split; [exact Hp|exact F]. }
  assert (Gen : (forall k, i <> ICreateClosure k) -> i <> IReturn ->
    match exec m hst i s2 with AOk _ s' => SNext s' | AErr e sp s' => SErr e sp s' | APanic => SPanic end = SErr e sp s' ->
    P sp /\ (blamed m hst ast s e sp \/ elsewhere ast s e) /\ traced s').
  { intros Hncl Hnr Ex.
    assert (L : next < length (ck_ops (cur_chunk s))).
    { destruct i; try (specialize (Hnx ltac:(discriminate) ltac:(discriminate) ltac:(discriminate)); cbn [trailer] in Hnx; lia).
      cbn [exec] in Ex. destruct (_ <? _); discriminate. }
    assert (K : ew (R := elsewhere ast s) (exec m hst i) s2 any (fun e => blamed m hst ast s e (p_last x))).
    { apply (exec_err m hst ast sc s s2 x i Ca T6 T4 Hpre HG); auto.
      - rewrite Hc2. exact Hm.
      - rewrite Hc2. apply HC.
      - cbn. rewrite T4. lia.
      - intros Hi. cbn. rewrite T5. auto. }
    unfold ew in K. destruct (exec m hst i s2) as [a s3|e3 sp3 s3|]; try discriminate. injection Ex as -> -> ->.
    destruct K as [[K1 K2] K]. split; [|split].
    - destruct K as [[_ ->]|[_ [->| ->]]].
      + unfold span1. rewrite Hc2, Hip2. apply Hposat. lia.
      + rewrite Hc2, Hip2. now apply Hposat.
      + rewrite Hfr2. apply (fok_nspan _ C).
    - destruct K as [[K ->]|[K _]]; [|now right]. left. unfold span1. rewrite Hc2, Hip2, (Hsp Hncl). exact K.
    - apply (Tr next); [lia|rewrite K1; exact Hfr2|rewrite K2; exact Hfs2]. }
  destruct (match i with IReturn => true | _ => false end) eqn:Ei.
  - (* Return *) destruct i; try discriminate. unfold do_return in E.
    assert (Hpop : match pop s2 with AOk _ s3 => v_frames s3 = v_frames s2 | AErr _ _ _ => False | APanic => True end).
    { unfold pop, slot. destruct (v_sp s2); [exact I|]. cbn. destruct (nth_error _ _); [reflexivity|exact I]. }
    destruct (pop s2) as [v s3|e3 sp3 s3|]; [|contradiction|discriminate].
    match type of E with match close_range ?a ?n ?t with _ => _ end = _ => pose proof (close_frames n a t) as Hcl; destruct (close_range a n t) as [u4 s4|e4 sp4 s4|]; [|contradiction|discriminate] end.
    rewrite Hpop, Hfs2 in Hcl. rewrite Hcl in E. destruct (v_frames s) as [|fr rest] eqn:Efs.
    { destruct m; [destruct (v_sp s4)|]; discriminate. }
    apply Forall_cons_iff in F as [(W1 & W2 & W3) Fr].
    match type of E with match push ?r ?t with _ => _ end = _ => set (s5 := t) in *; pose proof (ew_push (R := elsewhere ast s) r s5 (fun _ => False)) as K; unfold ew in K;
      destruct (push r s5) as [u6 s6|e6 sp6 s6|]; try discriminate end.
    injection E as -> -> ->. destruct K as [[K1 K2] [[[] _]|[K3 K4]]]. split; [|split; [now right|]].
    * destruct K4 as [->| ->]; [exact (fok_span _ _ W1 W2)|exact (fok_nspan _ W1)].
    * unfold traced, cur_chunk, ip. rewrite K1, K2. split; [exact W1|]. split; [|exact Fr]. cbn. lia.
  - destruct (match i with ICreateClosure _ => true | _ => false end) eqn:Ec.
    + destruct i; try discriminate. specialize (Hnx ltac:(discriminate) ltac:(discriminate) ltac:(discriminate)).
      pose proof (clo_fun _ _ _ Hm (proj2 (proj2 (proj2 HC))) Hpi) as Kg.
      destruct Kg as [g Hg]. cbn [exec] in E. unfold abind at 1, get_constant, chunk_get_constant in E. rewrite Hc2, Hg in E.
      cbn [trailer] in Hnx. rewrite Hg in Hnx. unfold abind at 1 in E.
      pose proof (captures_err (N.to_nat (fn_upcount g)) s2) as K. destruct (read_captures _ s2) as [us s3|e3 sp3 s3|]; [|contradiction|discriminate].
      destruct K as [K1 K2]. pose proof (ew_push (R := elsewhere ast s) (VFn (MClo g us)) s3 (fun _ => False)) as K. unfold ew in K.
      destruct (push _ s3) as [u6 s6|e6 sp6 s6|]; try discriminate. injection E as -> -> ->.
      destruct K as [[K3 K4] [[[] _]|[K5 K6]]].
      assert (Hf3 : v_frame s3 = fr_set_ip (next + 3 * N.to_nat (fn_upcount g)) (v_frame s)).
      { rewrite K2, Hfr2, Hip2. reflexivity. }
      split; [|split; [now right|]].
      * destruct K6 as [->| ->].
        -- unfold cur_chunk, ip. rewrite Hf3. cbn [fr_set_ip f_ip]. apply (fok_span _ _ C). exact Hnx.
        -- rewrite Hf3. exact (fok_nspan _ C).
      * apply (Tr (next + 3 * N.to_nat (fn_upcount g))); [unfold cur_chunk in *; lia|congruence|congruence].
    + apply Gen.
      * intros k ->. discriminate.
      * intros ->. discriminate.
      * destruct i; try discriminate; exact E.
Qed.
End Run.
