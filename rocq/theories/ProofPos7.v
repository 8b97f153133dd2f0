(** Every function the machine meets is code of the program (proof device for C92 and C93). *)
From Verif Require Import Base RleVec Pool Vecc Float NumText Bytecode Chunk Value Ast Arith VmOps
                          Compiler Vm Items CodeSize SpecContainers ContainerHist ProofContainers ProofValue
                          SpecParse SpecReady SpecRel ProofRel ProofHeight ProofReady ProofReady2
                          SpecPos ProofCompiler ProofPos1 ProofPos3 ProofPos6.
From Verif Require ProofCode ProofVm ProofReady3.
Import ProofCode(pre, pre_refl, pre_trans, pre_app, pre_nth, pre_len, cpool_inv).
Ltac Zify.zify_post_hook ::= Z.div_mod_to_equations.

Section Machine.
Context {D : Type} (m : mode) (hst : host D) (ast : list nodeS) (sc : script).
Notation vm := (vm D).
Notation at_ := (occurs ast).
Notation P := (position_of ast).
Definition G : list rstring := p_entries (sc_globals sc).
Definition mine (q : mfn) : Prop := fok at_ P G (mfn_function q).

Definition waiting (fr : frame) : Prop :=
  fok at_ P G (f_fn fr) /\ f_ip fr < length (ck_ops (fr_chunk fr)) /\
  exists f l, at_ (NCall f l) (chunk_get_span (fr_chunk fr) (f_ip fr - 1)).
Record pinv (s : vm) : Prop := {
  pv_vals : vals mine s;
  pv_cur : fok at_ P G (f_fn (v_frame s));
  pv_frames : Forall waiting (v_frames s) }.

Lemma const_at (c : chunk value) k v : chunk_get_constant c k = Ok v -> In v (ck_consts c).
Proof using. intros H. eapply nth_error_In. apply ProofReady3.const_nth. eauto. Qed.
Lemma fok_const f v q : fok at_ P G f -> In v (ck_consts (fn_chunk f)) -> fn_in q v -> mine q.
Proof using. intros [sh A B C E F H] Hv Hq. exact (H v q Hv Hq). Qed.

(** The instruction about to run, with the construct it belongs to. *)
Lemma now_at s : pinv s -> ready s -> exists sh x i next,
  cut at_ P (cur_chunk s) sh G /\ In x sh /\ pinstr (p_kind x) i /\
  decode (ck_ops (cur_chunk s)) (ip s) = Ok (i, next) /\ 0 < next /\ next <= length (ck_ops (cur_chunk s)) /\
  means at_ P G (ck_consts (cur_chunk s)) x /\
  ((forall k, i <> ICreateClosure k) -> chunk_get_span (cur_chunk s) (next - 1) = p_last x).
Proof using.
  intros [V C F] [R1 R2 R3]. destruct (fok_cut _ _ _ _ C) as (sh & HC). exists sh.
  destruct (boundary_piece at_ P _ _ _ HC _ R2 R1) as (a & x & b & E & Ep).
  destruct (at_piece at_ P _ _ _ HC a x b E) as (i & K1 & K2 & K3 & K4 & K5 & K6). exists x, i, (psize a + length (enc i)).
  split; [exact HC|]. split; [rewrite E; apply in_or_app; right; now left|]. split; [exact K1|]. rewrite Ep.
  split; [exact K3|]. split; [lia|]. split; [|split; [|exact K6]].
  - destruct HC as (HC & _). change (cur_chunk s) with (fn_chunk (f_fn (v_frame s))). rewrite (codes_len _ _ HC), E, psize_app. cbn [psize fold_right].
    change (cur_chunk s) with (fn_chunk (f_fn (v_frame s))) in K4. lia.
  - destruct HC as (_ & _ & HC & _). rewrite E in HC. apply Forall_app in HC as [_ HC]. now inversion HC.
Qed.

Theorem pinv_step s s' : pinv s -> ready s -> step m hst s = SNext s' -> pinv s'.
Proof using.
  intros I R E. pose proof I as [V C F]. destruct (now_at s I R) as (sh & x & i & next & HC & Hin & Hpi & Hd & Hn & Hl & Hm & Hsp).
  destruct R as [R1 R2 (i' & next' & Hd' & Ho & _ & _ & _ & Hnx & _)]. rewrite Hd in Hd'. injection Hd' as <- <-.
  unfold step in E.
  pose proof (tick_spec hst mine s V) as T. unfold wp in T. destruct (tick hst s) as [u s1| |]; try discriminate.
  destruct T as [V1 F1 G1 B1 S1]. destruct (_ <=? _); [discriminate|].
  assert (Hcc : cur_chunk s1 = cur_chunk s) by (unfold cur_chunk, fr_chunk; rewrite G1; auto).
  assert (Hip : ip s1 = ip s) by (unfold ip; rewrite G1; auto).
  rewrite Hcc, Hip, Hd in E. set (s2 := set_ip next s1) in *.
  assert (V2 : vals mine s2) by (apply vals_ip; auto).
  assert (Hfr2 : v_frame s2 = fr_set_ip next (v_frame s)) by (cbn; rewrite G1; auto).
  assert (Hfs2 : v_frames s2 = v_frames s) by (cbn; auto).
  assert (Hc2 : cur_chunk s2 = cur_chunk s) by (unfold cur_chunk, fr_chunk; rewrite Hfr2; auto).
  assert (At : forall p k s3, at_ip mine s2 s3 p k -> s3 = s' -> pinv s').
  { intros p k s3 (V3 & F3 & G3 & B3 & S3) <-. constructor; [exact V3| |rewrite F3, Hfs2; exact F].
    rewrite G3, Hfr2. exact C. }
  assert (Same : vals mine s' -> v_frames s' = v_frames s2 -> v_frame s' = v_frame s2 -> pinv s').
  { intros V3 F3 G3. constructor; [exact V3|rewrite G3, Hfr2; exact C|rewrite F3, Hfs2; exact F]. }
  assert (Plain : is_plain i -> match exec m hst i s2 with AOk _ s' => SNext s' | AErr e sp s' => SErr e sp s' | APanic => SPanic end = SNext s' -> pinv s').
  { intros Hp Ex.
    assert (P1 : wp (exec m hst i) s2 (fun _ s' => moved mine s2 s' (v_sp s2 - operands i + results i))).
    { apply (exec_plain m hst mine i s2 Hp V2).
      - cbn. rewrite S1. lia.
      - intros k v Ek Ev q Hq. rewrite Hc2 in Ev. apply const_at in Ev. eapply fok_const; eauto.
      - intros k g Ek Ev. rewrite Hc2 in Ev. apply const_at in Ev. unfold mine. cbn. apply (fok_const _ _ (MFun g) C Ev). constructor. }
    unfold wp in P1. destruct (exec m hst i s2) as [[] s3| |]; try discriminate. injection Ex as ->.
    eapply At; [apply moved_at; exact P1|reflexivity]. }
  destruct i; try (apply Plain; [exact Logic.I|exact E]); cbv beta iota in E.
  - (* Halt *) discriminate.
  - (* Return *) destruct (return_spec m hst mine s2 s' V2 E) as (fr & rest & R3 & R4 & R5 & R6 & _).
    rewrite Hfs2 in R3. rewrite R3 in F. inversion F as [|? ? [W1 _] Fr]; subst. constructor; [exact R4|congruence|congruence].
  - (* CreateClosure *)
    assert (K : exists g, chunk_get_constant (cur_chunk s2) i = Ok (VFn (MFun g))).
    { rewrite Hc2. destruct x as [[j|j|off us] sp la]; cbn [p_kind pinstr] in Hpi.
      - subst j. inversion Hm as [? ? Q| ? n ? Q| | | | | | | | |]; [discriminate|inversion Q].
      - destruct Hpi as [v Hv]. destruct j; discriminate.
      - injection Hpi as <-. inversion Hm as [| | | | | | | | | |? ? g ? _ (n & Hg & En) _]; subst. exists g. unfold chunk_get_constant.
        destruct HC as (_ & _ & _ & HC). rewrite pool_id_from_small, Nat2N.id, Hg; [reflexivity|].
        assert (n < length (ck_consts (cur_chunk s))) by (apply nth_error_Some; congruence). lia. }
    destruct K as [g Hg]. pose proof (exec_clo m hst mine i g s2 V2 Hg) as Q. unfold wp in Q.
    destruct (exec m hst (ICreateClosure i) s2) as [[] s3| |]; try discriminate. injection E as ->.
    eapply At; [apply Q|reflexivity]. intros us _. rewrite Hc2 in Hg. apply const_at in Hg. unfold mine. cbn.
    apply (fok_const _ _ (MFun g) C Hg). constructor.
  - (* CallFunction *) pose proof (exec_call m hst mine argc s2 V2) as Q. unfold wp in Q.
    destruct (exec m hst (ICallFunction argc) s2) as [[] s3| |]; try discriminate. injection E as ->.
    destruct Q as (c & f & ups & Hv & -> & -> & _ & V3 & F3 & G3 & _). constructor; [exact V3| |].
    + rewrite G3. cbn. apply Hv. constructor.
    + rewrite F3. constructor; [|rewrite Hfs2; exact F]. unfold waiting. rewrite Hfr2. cbn [fr_set_ip f_fn f_ip]. split; [exact C|].
      change (fr_chunk (fr_set_ip next (v_frame s))) with (cur_chunk s). split.
      * specialize (Hnx ltac:(discriminate) ltac:(discriminate) ltac:(discriminate)). cbn [trailer] in Hnx. lia.
      * rewrite (Hsp ltac:(discriminate)). destruct x as [[j|j|off us] sp la]; cbn [p_kind pinstr] in Hpi.
        -- subst j. inversion Hm as [? ? Q| ? n ? Q| | | | | | | | |]; [discriminate|inversion Q; subst]. cbn [p_last]. eauto.
        -- destruct Hpi as [v Hv']. destruct j; discriminate.
        -- discriminate.
  - (* BlockResult *) pose proof (exec_result m hst mine s2 V2) as Q. unfold wp in Q.
    destruct (exec m hst IBlockResult s2) as [[] s3| |]; try discriminate. injection E as ->.
    destruct Q as (v & V3 & F3 & G3 & _). auto.
  - (* BlockReturn *) pose proof (exec_breturn m hst mine s2 V2) as Q. unfold wp in Q.
    destruct (exec m hst IBlockReturn s2) as [[] s3| |]; try discriminate. injection E as ->.
    destruct Q as (v & V3 & F3 & G3 & _). auto.
  - (* JumpIfFalse *) pose proof (exec_if m hst mine off s2 V2) as Q. unfold wp in Q.
    destruct (exec m hst (IJumpIfFalse off) s2) as [[] s3| |]; try discriminate. injection E as ->.
    destruct Q as [Q|Q]; (eapply At; [exact Q|reflexivity]).
  - (* JumpIfNotEq *) pose proof (exec_neq m hst mine off s2 V2) as Q. unfold wp in Q.
    destruct (exec m hst (IJumpIfNotEq off) s2) as [[] s3| |]; try discriminate. injection E as ->.
    destruct Q as [Q|Q]; (eapply At; [exact Q|reflexivity]).
  - (* JumpForward *) pose proof (exec_jump m hst mine off s2 V2) as Q. unfold wp in Q.
    destruct (exec m hst (IJumpForward off) s2) as [[] s3| |]; try discriminate. injection E as ->.
    eapply At; [exact Q|reflexivity].
  - (* JumpBackward *) pose proof (exec_back m hst mine off s2 V2) as Q. unfold wp in Q.
    destruct (exec m hst (IJumpBackward off) s2) as [[] s3| |]; try discriminate. injection E as ->.
    eapply At; [exact Q|reflexivity].
  - (* IterNext *) pose proof (exec_iter m hst mine off s2 V2) as Q. unfold wp in Q.
    destruct (exec m hst (IIterNext off) s2) as [[] s3| |]; try discriminate. injection E as ->.
    destruct Q as [Q|Q]; (eapply At; [exact Q|reflexivity]).
Qed.

(** The start. *)
Lemma prepared_pinv (s : vm) : fok at_ P G (sc_function sc) -> prepared sc s -> pinv s.
Proof using.
  intros Hf.
  assert (Vok : forall v : value, (forall f, ~ fn_in f v) -> vok mine v) by (intros v Hv g Hg; exfalso; eapply Hv; eauto).
  induction 1 as [d o|s l H [V K FR] Hl|s n v H [V K FR] Hv|s n v s' H [V K FR] Hv E|s H [V K FR]].
  - constructor; cbn; auto. constructor; cbn; auto. apply Forall_forall. intros v Hv. apply repeat_spec in Hv. subst. apply vok_none.
  - assert (J : forall (l : list (rstring * builtin D)) s, pinv s -> Forall (fun nb => honest_builtin (snd nb)) l -> pinv (add_builtins_list l s)).
    { clear. induction l as [|[n b] t IH]; intros s Hs Hl; cbn; auto. inversion Hl; subst.
      destruct (pool_add seqb (v_gsyms s) n) as [p id]. apply IH; auto. destruct Hs as [[] K FR].
      constructor; auto. constructor; auto. cbn. apply (ainsert_forall (fun b => honest_builtin b)); auto. }
    apply J; auto. constructor; auto.
  - unfold insert_global. destruct (pool_add _ _ _) as [p id]. destruct V. constructor; auto. constructor; auto.
    cbn. apply (ainsert_forall (vok mine)); auto.
  - unfold set_external in E. destruct (pool_id _ _ _); [|discriminate]. destruct (existsb _ _); [|discriminate].
    injection E as <-. destruct V. constructor; auto. constructor; auto. cbn. apply (ainsert_forall (vok mine)); auto.
  - destruct V. constructor; auto. constructor; auto.
Qed.

(** The table of names is only extended before the run. *)
Definition syms_I (p : pool rstring) (s : vm) : Prop :=
  length (v_stack s) = o_stack_size (v_opts s) /\ v_sp s <= o_stack_size (v_opts s) /\ v_gsyms s = p.
Definition syms_J (p : pool rstring) (s : vm) : Prop := v_gsyms s = p.
Lemma syms_stable p : ProofVm.stable hst (syms_I p) (syms_J p).
Proof using. constructor; unfold syms_I, syms_J; intros; cbn in *; intuition lia. Qed.
Lemma pool_add_pre (p : pool rstring) x : pre (p_entries p) (p_entries (fst (pool_add seqb p x))).
Proof using. unfold pool_add. destruct (alookup _ _ _); cbn; [apply pre_refl|exists [x]; reflexivity]. Qed.
Lemma prepared_syms (s : vm) : prepared sc s -> length (v_stack s) = o_stack_size (v_opts s) /\ v_sp s <= o_stack_size (v_opts s) /\
  pre G (p_entries (v_gsyms s)).
Proof using.
  induction 1 as [d o|s l H IH Hl|s n v H IH Hv|s n v s' H IH Hv E|s H IH].
  - cbn. rewrite repeat_length. split; [auto|]. split; [lia|apply pre_refl].
  - clear Hl H. revert s IH. induction l as [|[n b] l IHl]; intros s IH; [exact IH|]. cbn [add_builtins_list].
    pose proof (pool_add_pre (v_gsyms s) n) as Hp. destruct (pool_add seqb (v_gsyms s) n) as [p id]. apply IHl. cbn in *.
    destruct IH as (A & B & C). split; [auto|]. split; [auto|]. eapply pre_trans; eauto.
  - unfold insert_global. pose proof (pool_add_pre (v_gsyms s) n) as Hp. destruct (pool_add seqb (v_gsyms s) n) as [p id]. cbn in *.
    destruct IH as (A & B & C). split; [auto|]. split; [auto|]. eapply pre_trans; eauto.
  - unfold set_external in E. destruct (pool_id _ _ _); [|discriminate]. destruct (existsb _ _); [|discriminate].
    injection E as <-. exact IH.
  - exact IH.
Qed.

Context (Hc : compile m ast = COk sc) (Hw : weights ast <= u16max) (Hp : complete_program ast).
Lemma reach_pinv s0 s : prepared sc s0 -> reach m hst s0 s -> pinv s /\ ready s /\ pre G (p_entries (v_gsyms s)).
Proof using Hc Hw Hp.
  intros H0 HR. split; [|split].
  - assert (K : pinv s0) by (apply prepared_pinv; [exact (proj1 (compile_pieces ast m sc Hc Hw Hp))|exact H0]).
    induction HR as [|s1 s2 HR IH E]; [exact K|]. eapply pinv_step; [exact IH| |exact E].
    exact (ProofReady3.main_ready m hst ast sc s0 s1 Hc Hw Hp H0 HR).
  - exact (ProofReady3.main_ready m hst ast sc s0 s Hc Hw Hp H0 HR).
  - destruct (prepared_syms s0 H0) as (A & B & C).
    pose proof (ProofVm.inv_reach m hst (syms_I (v_gsyms s0)) (syms_J (v_gsyms s0)) (fun s H => proj2 (proj2 H)) (syms_stable _) s0 s (conj A (conj B eq_refl)) HR) as (_ & _ & K).
    rewrite K. exact C.
Qed.
End Machine.
