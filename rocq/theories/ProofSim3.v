(** One lemma per instruction: captures, calls and returns. *)
From Verif Require Import Base RleVec Pool Vecc Float NumText Bytecode Chunk Value Ast Arith VmOps
                          Compiler Vm Items SpecVm ProofVars ProofSim1 ProofSim2.

Section Machine.
Context {D : Type} (m : mode) (hst : host D) (opts : options) (gs : pool rstring)
        (bs : list (N * builtin D)).
Notation goes := (goes m hst opts gs bs).
Notation failing := (failing m hst opts gs bs).
Notation finishes := (finishes m hst opts gs bs).
Notation leads := (leads m hst opts gs bs).
Notation "ip '+>' i" := (ip + length (item_bytes (It i))) (at level 50).
Notation conc := (conc opts gs bs).
Notation A := (A opts gs bs).

Implicit Types (F : @fixed D) (gl : list (N * value)) (t : list value) (h : list upvalue) (d : D).

Ltac start Hc := refine (go_exec m hst opts gs bs _ _ _ (It _) _ Hc _ _); [discriminate|];
  intros rest opens reads n ext Hf; cbn [item_instr exec item_bytes]; unfold abind, agets, amod, lift_1, aret.
Ltac start_f Hc := refine (fail_exec m hst opts gs bs _ _ _ (It _) _ _ _ Hc _ _); [discriminate|];
  intros rest opens reads n ext Hf; cbn [item_instr exec item_bytes]; unfold abind, agets, amod, lift_1, aret.

Lemma close_slot_nth j v h c : nth_error (close_slot j v h) c =
  match nth_error h c with Some (Open l) => if l =? j then Some (Closed v) else Some (Open l) | x => x end.
Proof.
  unfold close_slot. rewrite nth_error_map. destruct (nth_error h c) as [[l|w]|]; cbn; auto. destruct (l =? j); auto.
Qed.
Lemma close_from_nth b t h c : nth_error (close_from b t h) c =
  match nth_error h c with
  | Some (Open l) => if b <=? l then match nth_error t l with Some v => Some (Closed v) | None => Some (Open l) end
                     else Some (Open l)
  | x => x
  end.
Proof.
  unfold close_from. rewrite nth_error_map. destruct (nth_error h c) as [[l|w]|]; cbn; auto.
  destruct (b <=? l); auto. destruct (nth_error t l); auto.
Qed.

Lemma i_close F ip t gl h d v : code_at (k_fn F) ip [It ICloseUpvalue] ->
  goes 1 (F, ip, mkM (t ++ [v]) gl h d) (F, ip +> ICloseUpvalue, mkM t gl (close_slot (length t) v h) d).
Proof.
  intros Hc. start Hc.
  change (v_sp (conc F (ip + length (enc ICloseUpvalue)) (mkM (t ++ [v]) gl h d) rest opens reads n ext)) with (length (t ++ [v])).
  rewrite app_length, Nat.add_comm. cbn [length Nat.add].
  unfold close_upvalues. cbn [ProofSim1.conc v_stack m_stk v_opens v_heap m_heap].
  replace (nth_error ((t ++ [v]) ++ rest) (length t)) with (Some v) by (rewrite <- app_assoc, nth_app_0; reflexivity).
  destruct Hf as [Hf1 Hf2]. cbn [m_stk m_heap] in *.
  assert (E : close_cells (length t) v opens h = close_slot (length t) v h).
  { apply list_ext. intros c. rewrite close_cells_nth, close_slot_nth.
    destruct (nth_error h c) as [[l|w]|] eqn:E; auto. destruct (l =? length t); auto. cbn [andb].
    replace (existsb (Nat.eqb c) opens) with true; auto. symmetry. apply existsb_exists. exists c.
    split; [apply Hf2; eauto|apply Nat.eqb_refl]. }
  rewrite E. set (h' := close_slot (length t) v h). set (o' := filter (is_open h') opens).
  match goal with |- context [pop ?s] =>
    change s with (conc F (ip + length (enc ICloseUpvalue)) (mkM (t ++ [v]) gl h' d) rest o' reads n ext) end.
  rewrite pop_c. right. eexists. split; [reflexivity|]. apply A_conc. apply fit_cons. split; [exact Hf1|].
  cbn [m_heap]. intros c. unfold o'. rewrite filter_In, is_open_spec, Hf2. split; [tauto|].
  intros [l Hl]. split; eauto. unfold h' in Hl. rewrite close_slot_nth in Hl.
  destruct (nth_error h c) as [[l2|w]|]; eauto; discriminate.
Qed.

Lemma i_function F ip t gl h d off f : code_at (k_fn F) ip [It (ICreateFunction off)] ->
  nth_error (ck_consts (fn_chunk (k_fn F))) (N.to_nat off) = Some (VFn (MFun f)) ->
  goes 1 (F, ip, mkM t gl h d) (F, ip +> ICreateFunction off, mkM (t ++ [VFn (MClo f [])]) gl h d).
Proof.
  intros Hc Hv. start Hc. unfold get_constant, chunk_get_constant, cur_chunk, fr_chunk. cbn [ProofSim1.conc v_frame f_fn].
  rewrite Hv. apply push_end; auto.
Qed.

(** Reading the captures behind CreateClosure. *)
Lemma caps_bytes pre c post : (fst c < 65536)%N ->
  bc_read_u8 (pre ++ cap_bytes c ++ post) (length pre) = Ok (if snd c then 1 else 0)%N /\
  bc_read_u16 (pre ++ cap_bytes c ++ post) (length pre + 1) = Ok (fst c).
Proof.
  intros H. unfold cap_bytes. cbn [app]. split; [apply read_u8_back|apply read_u16_at; auto].
Qed.
Lemma read_caps_c F gl t d rest h caps cells h' : caps_to (k_base F) (k_up F) h caps cells h' ->
  forall pre post opens reads n ext,
  ck_ops (fn_chunk (k_fn F)) = pre ++ flat_map cap_bytes caps ++ post ->
  Forall (fun c => (fst c < 65536)%N) caps -> one_cell h ->
  (forall c, In c opens <-> exists l, nth_error h c = Some (Open l)) ->
  exists opens',
    read_captures (length caps) (conc F (length pre) (mkM t gl h d) rest opens reads n ext)
    = AOk cells (conc F (length pre + length (flat_map cap_bytes caps)) (mkM t gl h' d) rest opens' reads n ext) /\
    (forall c, In c opens' <-> exists l, nth_error h' c = Some (Open l)).
Proof.
  induction 1 as [h|h i c tl cs h' Hn H IH|h i tl cs h' Hn H IH|h i c tl cs h' Hn H IH];
    intros pre post opens reads n ext Hops Hfit H1 Ho.
  - exists opens. cbn [length read_captures flat_map]. rewrite Nat.add_0_r. split; auto.
  - inversion Hfit as [|? ? Hi Ht]; subst. cbn [flat_map] in Hops. rewrite <- app_assoc in Hops.
    destruct (caps_bytes pre (i, true) (flat_map cap_bytes tl ++ post) Hi) as [E1 E2]. rewrite <- Hops in E1, E2.
    cbn [length read_captures]. unfold abind at 1, agets at 1.
    unfold cur_chunk at 1 2, fr_chunk, Vm.ip at 1 2. cbn [ProofSim1.conc v_frame f_fn f_ip f_ups f_st].
    rewrite E1, E2. cbn [fst snd N.eqb Pos.eqb]. unfold abind, amod, aret. unfold capture_upvalue.
    cbn [ProofSim1.conc set_ip set_frames v_heap v_opens m_heap].
    assert (Ef : find (is_open_at h (k_base F + N.to_nat i)) opens = Some c).
    { destruct (find (is_open_at h (k_base F + N.to_nat i)) opens) as [c'|] eqn:E.
      - apply find_some in E as [_ E]. apply is_open_at_spec in E. f_equal. eapply H1; eauto.
      - exfalso. eapply find_none in E; [|apply Ho; eauto]. rewrite (proj2 (is_open_at_spec _ _ _) Hn) in E. discriminate. }
    rewrite Ef.
    destruct (IH (pre ++ cap_bytes (i, true)) post opens reads n ext) as (o' & E & Ho'); auto.
    { rewrite <- app_assoc. exact Hops. }
    exists o'. split; auto. rewrite app_length in E. cbn [cap_bytes length u16b fst snd] in E. cbn [flat_map]. rewrite app_length.
    match goal with |- context [read_captures _ ?s] =>
      change s with (conc F (length pre + 3) (mkM t gl h d) rest opens reads n ext) end.
    rewrite E. cbn [cap_bytes length u16b fst snd]. rewrite <- Nat.add_assoc. reflexivity.
  - inversion Hfit as [|? ? Hi Ht]; subst. cbn [flat_map] in Hops. rewrite <- app_assoc in Hops.
    destruct (caps_bytes pre (i, true) (flat_map cap_bytes tl ++ post) Hi) as [E1 E2]. rewrite <- Hops in E1, E2.
    cbn [length read_captures]. unfold abind at 1, agets at 1.
    unfold cur_chunk at 1 2, fr_chunk, Vm.ip at 1 2. cbn [ProofSim1.conc v_frame f_fn f_ip f_ups f_st].
    rewrite E1, E2. cbn [fst snd N.eqb Pos.eqb]. unfold abind, amod, aret. unfold capture_upvalue.
    cbn [ProofSim1.conc set_ip set_frames v_heap v_opens m_heap].
    assert (Ef : find (is_open_at h (k_base F + N.to_nat i)) opens = None).
    { destruct (find (is_open_at h (k_base F + N.to_nat i)) opens) as [c'|] eqn:E; auto.
      apply find_some in E as [_ E]. apply is_open_at_spec in E. destruct (Hn _ E). }
    rewrite Ef.
    destruct (IH (pre ++ cap_bytes (i, true)) post (opens ++ [length h]) reads n ext) as (o' & E & Ho'); auto.
    { rewrite <- app_assoc. exact Hops. }
    { intros a b l Ha Hb.
      destruct (Nat.lt_ge_cases a (length h)) as [La|La], (Nat.lt_ge_cases b (length h)) as [Lb|Lb].
      - rewrite nth_error_app1 in Ha, Hb by auto. eapply H1; eauto.
      - rewrite nth_error_app1 in Ha by auto. rewrite nth_error_app2 in Hb by auto.
        destruct (b - length h) as [|k]; [injection Hb as <-; destruct (Hn _ Ha)|destruct k; discriminate].
      - rewrite nth_error_app1 in Hb by auto. rewrite nth_error_app2 in Ha by auto.
        destruct (a - length h) as [|k]; [injection Ha as <-; destruct (Hn _ Hb)|destruct k; discriminate].
      - rewrite nth_error_app2 in Ha, Hb by auto.
        assert (Xa : a - length h = 0) by (destruct (a - length h) as [|[|?]]; auto; discriminate).
        assert (Xb : b - length h = 0) by (destruct (b - length h) as [|[|?]]; auto; discriminate). lia. }
    { intros c. rewrite in_app_iff, Ho. split.
      - intros [[l Hl]|[<-|[]]].
        + exists l. rewrite nth_error_app1; auto. apply nth_error_Some. congruence.
        + rewrite nth_app_0. eexists; reflexivity.
      - intros [l Hl]. destruct (Nat.lt_ge_cases c (length h)) as [La|La].
        + rewrite nth_error_app1 in Hl by auto. eauto.
        + right. left. rewrite nth_error_app2 in Hl by auto.
          assert (Xa : c - length h = 0) by (destruct (c - length h) as [|[|?]]; auto; discriminate). lia. }
    exists o'. split; auto. rewrite app_length in E. cbn [cap_bytes length u16b fst snd] in E. cbn [flat_map]. rewrite app_length.
    match goal with |- context [read_captures _ ?s] =>
      change s with (conc F (length pre + 3) (mkM t gl (h ++ [Open (k_base F + N.to_nat i)]) d) rest (opens ++ [length h]) reads n ext) end.
    rewrite E. cbn [cap_bytes length u16b fst snd]. rewrite <- Nat.add_assoc. reflexivity.
  - inversion Hfit as [|? ? Hi Ht]; subst. cbn [flat_map] in Hops. rewrite <- app_assoc in Hops.
    destruct (caps_bytes pre (i, false) (flat_map cap_bytes tl ++ post) Hi) as [E1 E2]. rewrite <- Hops in E1, E2.
    cbn [length read_captures]. unfold abind at 1, agets at 1.
    unfold cur_chunk at 1 2, fr_chunk, Vm.ip at 1 2. cbn [ProofSim1.conc v_frame f_fn f_ip f_ups f_st].
    rewrite E1, E2. cbn [fst snd N.eqb Pos.eqb]. rewrite Hn. unfold abind, amod, aret.
    destruct (IH (pre ++ cap_bytes (i, false)) post opens reads n ext) as (o' & E & Ho'); auto.
    { rewrite <- app_assoc. exact Hops. }
    exists o'. split; auto. rewrite app_length in E. cbn [cap_bytes length u16b fst snd] in E. cbn [flat_map]. rewrite app_length.
    match goal with |- context [read_captures _ ?s] =>
      change s with (conc F (length pre + 3) (mkM t gl h d) rest opens reads n ext) end.
    rewrite E. cbn [cap_bytes length u16b fst snd]. rewrite <- Nat.add_assoc. reflexivity.
Qed.

Lemma i_closure F ip t gl h d off f caps cells h' : code_at (k_fn F) ip [ItClo off caps] ->
  nth_error (ck_consts (fn_chunk (k_fn F))) (N.to_nat off) = Some (VFn (MFun f)) ->
  N.to_nat (fn_upcount f) = length caps -> one_cell h ->
  caps_to (k_base F) (k_up F) h caps cells h' ->
  goes 1 (F, ip, mkM t gl h d)
         (F, ip + length (item_bytes (ItClo off caps)), mkM (t ++ [VFn (MClo f cells)]) gl h' d).
Proof.
  intros Hc Hv Hn H1 H. refine (go_exec m hst opts gs bs _ _ _ _ _ Hc _ _); [discriminate|].
  intros rest opens reads n ext [Hf1 Hf2]. cbn [item_instr exec item_bytes]. unfold abind, aret.
  unfold get_constant, chunk_get_constant, cur_chunk, fr_chunk. cbn [ProofSim1.conc v_frame f_fn]. rewrite Hv, Hn.
  destruct Hc as (pre & post & Hops & Hfit & <-). cbn [app] in *.
  apply Forall_app in Hfit as [_ Hfit]. inversion Hfit as [|? ? Hx Hx']; subst. destruct Hx as [Hoff Hcaps].
  destruct (read_caps_c F gl t d rest h caps cells h' H (bytes_of pre ++ enc (ICreateClosure off)) (bytes_of post) opens reads n ext)
    as (o' & E & Ho'); auto.
  { rewrite Hops, bytes_of_app. cbn [bytes_of flat_map item_bytes]. rewrite <- !app_assoc. reflexivity. }
  rewrite !app_length in E. fold (size pre) in E.
  change (mkVm _ _ _ _ _ _ _ _ _ _ _ _ _ _ _ _) with (conc F (size pre + length (enc (ICreateClosure off))) (mkM t gl h d) rest opens reads n ext).
  rewrite E. rewrite app_length, Nat.add_assoc. apply push_end. split; auto.
Qed.

Lemma i_exit F ip t gl h d x rest0 : code_at (k_fn F) ip [It IExitContext] -> k_exits F = x :: rest0 ->
  match x d with
  | (d', Ok _) => goes 1 (F, ip, mkM t gl h d) (with_exits F rest0, ip +> IExitContext, mkM t gl h d')
  | (d', Err e) => failing (F, ip, mkM t gl h d) e d' gl
  | (_, Panic) => True
  end.
Proof.
  intros Hc Hx. destruct (x d) as [d' [u|e|]] eqn:E; auto.
  - start Hc. cbn [ProofSim1.conc v_exits]. rewrite Hx. cbn beta iota zeta delta [ProofSim1.conc set_exits v_data m_data]. rewrite E.
    right. destruct u. eexists. split; [reflexivity|].
    apply (A_conc opts gs bs (with_exits F rest0) _ (mkM t gl h d') rest opens reads n ext). eapply fit_same; eauto.
  - start_f Hc. cbn [ProofSim1.conc v_exits]. rewrite Hx. cbn beta iota zeta delta [ProofSim1.conc set_exits v_data m_data]. rewrite E.
    right. do 2 eexists. split; [reflexivity|]. auto.
Qed.

Lemma take_args_c F ip t args gl h d rest o r n e :
  take_args (length args) (conc F ip (mkM (t ++ args) gl h d) rest o r n e)
  = AOk args (conc F ip (mkM t gl h d) (args ++ rest) o r n e).
Proof.
  unfold take_args. cbn [ProofSim1.conc v_sp m_stk v_stack].
  replace (_ <? length args) with false by (symmetry; apply Nat.ltb_ge; rewrite app_length; lia).
  replace (_ <? _) with false by (symmetry; apply Nat.ltb_ge; rewrite !app_length; lia).
  rewrite (app_length t). replace (length t + length args - length args) with (length t) by lia.
  rewrite <- app_assoc, skipn_app, skipn_all, Nat.sub_diag. cbn [app skipn].
  rewrite firstn_app, firstn_all, Nat.sub_diag. cbn [firstn]. rewrite app_nil_r.
  unfold ProofSim1.conc, set_stack. cbn. reflexivity.
Qed.
Lemma i_enter F ip t gl h d b k args entry exit : code_at (k_fn F) ip [It (IEnterContext b k)] ->
  N.to_nat k = length args -> alookup N.eqb b bs = Some (BContext entry exit) ->
  match entry d args opts with
  | (d', Ok v) => goes 1 (F, ip, mkM (t ++ args) gl h d)
      (with_exits F (exit :: k_exits F), ip +> IEnterContext b k, mkM (t ++ [v]) gl h d')
  | (d', Err e) => failing (F, ip, mkM (t ++ args) gl h d) e d' gl
  | (_, Panic) => True
  end.
Proof.
  intros Hc Hk Hb. destruct (entry d args opts) as [d' [v|e|]] eqn:E; auto.
  - start Hc. cbn [ProofSim1.conc v_builtins]. rewrite Hb, Hk.
    change (mkVm _ _ _ _ _ _ _ _ _ _ _ _ _ _ _ _) with (conc F (ip + length (enc (IEnterContext b k))) (mkM (t ++ args) gl h d) rest opens reads n ext).
    rewrite take_args_c. unfold run_builtin. cbn beta iota zeta delta [ProofSim1.conc set_exits v_data m_data v_opts]. rewrite E.
    apply (push_end opts gs bs (with_exits F (exit :: k_exits F)) _ t gl h d' (args ++ rest) opens reads n ext v).
    eapply fit_same; [eapply fit_app; eauto|reflexivity].
  - start_f Hc. cbn [ProofSim1.conc v_builtins]. rewrite Hb, Hk.
    change (mkVm _ _ _ _ _ _ _ _ _ _ _ _ _ _ _ _) with (conc F (ip + length (enc (IEnterContext b k))) (mkM (t ++ args) gl h d) rest opens reads n ext).
    rewrite take_args_c. unfold run_builtin. cbn beta iota zeta delta [ProofSim1.conc set_exits v_data m_data v_opts]. rewrite E.
    right. do 2 eexists. split; [reflexivity|]. auto.
Qed.
Lemma i_enter_none F ip M b k x : code_at (k_fn F) ip [It (IEnterContext b k)] ->
  alookup N.eqb b bs = None -> pool_get gs b = Some x ->
  failing (F, ip, M) (EUndefinedBuiltin x) (m_data M) (m_gl M).
Proof.
  intros Hc Hb Hx. start_f Hc. cbn [ProofSim1.conc v_builtins]. rewrite Hb. unfold global_name, agets, error_1.
  cbn [ProofSim1.conc v_gsyms]. rewrite Hx. right. do 2 eexists. split; [reflexivity|]. auto.
Qed.
Lemma i_builtin_none F ip M b k x : code_at (k_fn F) ip [It (ICallBuiltin b k)] ->
  alookup N.eqb b bs = None -> pool_get gs b = Some x ->
  failing (F, ip, M) (EUndefinedBuiltin x) (m_data M) (m_gl M).
Proof.
  intros Hc Hb Hx. start_f Hc. cbn [ProofSim1.conc v_builtins]. rewrite Hb. unfold global_name, agets, error_1.
  cbn [ProofSim1.conc v_gsyms]. rewrite Hx. right. do 2 eexists. split; [reflexivity|]. auto.
Qed.
Lemma i_builtin_ctx F ip M b k en ex : code_at (k_fn F) ip [It (ICallBuiltin b k)] ->
  alookup N.eqb b bs = Some (BContext en ex) ->
  failing (F, ip, M) (ENotCallable (str "context manager")) (m_data M) (m_gl M).
Proof.
  intros Hc Hb. start_f Hc. cbn [ProofSim1.conc v_builtins]. rewrite Hb. unfold error_0.
  right. do 2 eexists. split; [reflexivity|]. auto.
Qed.
Lemma i_builtin F ip t gl h d b k args f : code_at (k_fn F) ip [It (ICallBuiltin b k)] ->
  N.to_nat k = length args -> alookup N.eqb b bs = Some (BFn f) ->
  match f d args opts with
  | (d', Ok v) => goes 1 (F, ip, mkM (t ++ args) gl h d) (F, ip +> ICallBuiltin b k, mkM (t ++ [v]) gl h d')
  | (d', Err e) => failing (F, ip, mkM (t ++ args) gl h d) e d' gl
  | (_, Panic) => True
  end.
Proof.
  intros Hc Hk Hb. destruct (f d args opts) as [d' [v|e|]] eqn:E; auto.
  - start Hc. cbn [ProofSim1.conc v_builtins]. rewrite Hb, Hk.
    change (mkVm _ _ _ _ _ _ _ _ _ _ _ _ _ _ _ _) with (conc F (ip + length (enc (ICallBuiltin b k))) (mkM (t ++ args) gl h d) rest opens reads n ext).
    rewrite take_args_c. unfold run_builtin. cbn beta iota zeta delta [ProofSim1.conc v_data m_data v_opts]. rewrite E. unfold lift_1, aret. cbn beta iota.
    change (set_data d' _) with (conc F (ip + length (enc (ICallBuiltin b k))) (mkM t gl h d') (args ++ rest) opens reads n ext).
    assert (Hf' : fit opts (mkM t gl h d') (args ++ rest) opens) by (eapply fit_same; [eapply fit_app; eauto|reflexivity]).
    pose proof (push_c opts gs bs F (ip + length (enc (ICallBuiltin b k))) t gl h d' (args ++ rest) opens reads n ext v (proj1 Hf')) as P.
    destruct (args ++ rest) as [|y rest'].
    + destruct P as (sp & s & ->). left. do 3 eexists. split; [reflexivity|]. left; auto.
    + rewrite P. unfold has_runtime_exceeded, abind, agets, amod.
      cbn [ProofSim1.conc v_reads set_count v_opts v_n]. destruct (o_max_runtime opts <? h_clock hst reads)%N.
      * left. unfold errorf. do 3 eexists. split; [reflexivity|]. right; eauto.
      * right. eexists. split; [reflexivity|].
        apply (A_conc opts gs bs F _ (mkM (t ++ [v]) gl h d') rest' opens (S reads) n ext). eapply fit_snoc; eauto.
  - start_f Hc. cbn [ProofSim1.conc v_builtins]. rewrite Hb, Hk.
    change (mkVm _ _ _ _ _ _ _ _ _ _ _ _ _ _ _ _) with (conc F (ip + length (enc (ICallBuiltin b k))) (mkM (t ++ args) gl h d) rest opens reads n ext).
    rewrite take_args_c. unfold run_builtin. cbn beta iota zeta delta [ProofSim1.conc v_data m_data v_opts]. rewrite E.
    right. do 2 eexists. split; [reflexivity|]. auto.
Qed.

Definition callee F f ups ip base := mkFx (D:=D) f ups base (mkFrame (k_fn F) (k_up F) ip (k_base F) :: k_frames F)
  (k_blocks F) (k_exits F).
Lemma peekn_c F ip t c args gl h d rest o r n e :
  peekn (length args) (conc F ip (mkM (t ++ c :: args) gl h d) rest o r n e)
  = AOk c (conc F ip (mkM (t ++ c :: args) gl h d) rest o r n e).
Proof.
  unfold peekn. cbn [ProofSim1.conc v_sp m_stk].
  replace (_ <? _) with false by (symmetry; apply Nat.ltb_ge; rewrite app_length; cbn; lia).
  erewrite slot_c; [reflexivity|]. rewrite app_length. cbn [length].
  replace (length t + S (length args) - length args - 1) with (length t) by lia. rewrite nth_app_0. reflexivity.
Qed.
Lemma i_call F ip t gl h d k args c : code_at (k_fn F) ip [It (ICallFunction k)] -> N.to_nat k = length args ->
  match c with
  | VFn g =>
      let f := mfn_function g in
      let ups := match g with MFun _ => [] | MClo _ us => us end in
      if (k =? fn_arity f)%N
      then goes 1 (F, ip, mkM (t ++ c :: args) gl h d)
                  (callee F f ups (ip +> ICallFunction k) (length t), 0, mkM (t ++ c :: args) gl h (h_enter hst d))
      else failing (F, ip, mkM (t ++ c :: args) gl h d) (EMismatchedArity (fn_name f) (fn_arity f) k) d gl
  | _ => failing (F, ip, mkM (t ++ c :: args) gl h d) (ENotCallable (ntype mfi c)) d gl
  end.
Proof.
  intros Hc Hk.
  assert (Kc : forall g, c = VFn g -> (k =? fn_arity (mfn_function g))%N = true ->
    goes 1 (F, ip, mkM (t ++ c :: args) gl h d)
       (callee F (mfn_function g) (match g with MFun _ => [] | MClo _ us => us end) (ip +> ICallFunction k) (length t), 0, mkM (t ++ c :: args) gl h (h_enter hst d))).
  { intros g -> Ha. start Hc. rewrite Hk, peekn_c. cbn [ProofSim1.conc v_opts v_frames].
    destruct (o_call_stack_size opts <=? length (k_frames F)).
    - left. unfold error_0. do 3 eexists. split; [reflexivity|]. left; auto.
    - rewrite Ha. right. eexists. split; [reflexivity|].
      match goal with |- A _ ?s => replace s with (conc (callee F (mfn_function g) (match g with MFun _ => [] | MClo _ us => us end) (ip +> ICallFunction k) (length t)) 0
         (mkM (t ++ VFn g :: args) gl h (h_enter hst d)) rest opens reads n ext) end.
      { apply A_conc. eapply fit_same; eauto. }
      unfold ProofSim1.conc, set_data, set_frames. cbn. f_equal. f_equal. rewrite app_length. cbn. lia. }
  assert (Kf : forall e, (forall s : vm D, exists sp, match c with
             | VFn c =>
                 let f := mfn_function c in
                 let ups := match c with MFun _ => [] | MClo _ us => us end in
                 if (k =? fn_arity f)%N then
                   AOk tt (set_data (h_enter hst (v_data s))
                            (set_frames (v_frame s :: v_frames s)
                               (mkFrame f ups 0 (v_sp s - N.to_nat k - 1)) s))
                 else error_0 (EMismatchedArity (fn_name f) (fn_arity f) k) s
             | _ => error_1 (ENotCallable (ntype mfi c)) s
             end = AErr e sp s) -> failing (F, ip, mkM (t ++ c :: args) gl h d) e d gl).
  { intros e He. start_f Hc. rewrite Hk, peekn_c.
    set (s := conc F (ip + length (enc (ICallFunction k))) (mkM (t ++ c :: args) gl h d) rest opens reads n ext).
    destruct (He s) as [sp E]. cbv zeta in E. rewrite Hk in E. destruct (_ <=? _).
    - left. unfold error_0. do 3 eexists. split; [reflexivity|]. left; auto.
    - right. exists sp, s. split; [exact E|]. auto. }
  destruct c as [| | | | | | | | | | |g]; try (apply Kf; intros ?; unfold error_1; eexists; reflexivity).
  cbv zeta. destruct (k =? fn_arity (mfn_function g))%N eqn:Ea.
  - apply (Kc g); auto.
  - apply Kf. intros s. cbv zeta. rewrite Ea. unfold error_0. eexists. reflexivity.
Qed.

(** Returns. *)
Lemma close_all F ip t gl h d v rest opens reads n ext :
  k_base F <= length t -> length (t ++ v :: rest) = o_stack_size opts ->
  (forall c l, nth_error h c = Some (Open l) -> l < length t) ->
  (forall c, In c opens <-> exists l, nth_error h c = Some (Open l)) ->
  exists opens', close_range (k_base F) (length t - k_base F) (conc F ip (mkM t gl h d) (v :: rest) opens reads n ext)
    = AOk tt (conc F ip (mkM t gl (close_from (k_base F) t h) d) (v :: rest) opens' reads n ext) /\
  (forall c, In c opens' <-> exists l, nth_error (close_from (k_base F) t h) c = Some (Open l)).
Proof.
  intros Hb Hl Hlt Ho.
  destruct (close_range_ok (length t - k_base F) (k_base F) (conc F ip (mkM t gl h d) (v :: rest) opens reads n ext)) as (o' & h' & E & [_ Hc] & Ho').
  - exact Ho.
  - cbn [ProofSim1.conc v_stack m_stk]. rewrite app_length. cbn. lia.
  - cbn [ProofSim1.conc v_stack m_stk v_heap m_heap] in Hc.
    assert (Eh : h' = close_from (k_base F) t h).
    { apply list_ext. intros c. rewrite Hc, close_from_nth. destruct (nth_error h c) as [[l|w]|] eqn:Eh; auto.
      specialize (Hlt _ _ Eh). replace (l <? k_base F + (length t - k_base F)) with true by (symmetry; apply Nat.ltb_lt; lia).
      rewrite andb_true_r. destruct (k_base F <=? l); auto. rewrite nth_error_app1 by auto.
      destruct (nth_error t l) eqn:Et; auto. apply nth_error_None in Et. lia. }
    subst h'. exists o'. split; [exact E|exact Ho'].
Qed.
Lemma i_return F ip t gl h d v fr rest0 F' ip' : code_at (k_fn F) ip [It IReturn] ->
  k_frames F = fr :: rest0 -> fr = mkFrame (k_fn F') (k_up F') ip' (k_base F') -> k_frames F' = rest0 ->
  k_blocks F' = k_blocks F -> k_exits F' = k_exits F ->
  k_base F <= length t -> (forall c l, nth_error h c = Some (Open l) -> l < length t) ->
  goes 1 (F, ip, mkM (t ++ [v]) gl h d)
         (F', ip', mkM (firstn (k_base F) t ++ [v]) gl (close_from (k_base F) t h) (h_leave hst d)).
Proof.
  intros Hc Hfr E1 E2 E3 E4 Hb Hlt s (rest & opens & reads & n & ext & -> & Hf).
  destruct (step_item m hst opts gs bs F ip (mkM (t ++ [v]) gl h d) rest opens reads n ext _ Hc) as [|(reads' & n' & E)]; auto.
  cbn [item_instr] in E. cbv zeta in E. unfold do_return in E. rewrite pop_c in E.
  apply fit_cons in Hf. destruct Hf as [Hf1 Hf2].
  destruct (close_all F (ip + length (enc IReturn)) t gl h d v rest opens reads' n' ext) as (o' & Ec & Ho'); auto.
  cbn [ProofSim1.conc v_frame f_st v_sp m_stk] in E.
  change (mkVm _ _ _ _ _ _ _ _ _ _ _ _ _ _ _ _) with (conc F (ip + length (enc IReturn)) (mkM t gl h d) (v :: rest) opens reads' n' ext) in E.
  rewrite Ec in E. cbn [ProofSim1.conc v_frames] in E. rewrite Hfr in E.
  assert (Lt : length (firstn (k_base F) t) = k_base F) by (rewrite firstn_length; lia).
  match type of E with context [push v ?s] =>
    replace s with (conc F' ip' (mkM (firstn (k_base F) t) gl (close_from (k_base F) t h) (h_leave hst d)) (skipn (k_base F) t ++ v :: rest) o' reads' n' ext) in E end.
  2:{ unfold ProofSim1.conc, set_frames, set_stack, set_data. cbn. rewrite Lt, E1, E2, E3, E4, app_assoc, firstn_skipn. reflexivity. }
  assert (Hf' : fit (D:=D) opts (mkM (firstn (k_base F) t) gl (close_from (k_base F) t h) (h_leave hst d)) (skipn (k_base F) t ++ v :: rest) o').
  { split; [|exact Ho']. cbn [m_stk] in *. rewrite app_assoc, firstn_skipn. exact Hf1. }
  destruct (push_end opts gs bs F' ip' _ _ _ _ _ o' reads' n' ext v Hf') as [(e & sp & s & Er & St)|(s' & Er & Ha)]; rewrite Er in E.
  - left. exists 0. do 4 eexists. split; [constructor|]. split; eauto.
  - right. exists s'. split; auto. econstructor; [eauto|constructor].
Qed.
Lemma i_finish F ip t gl h d v : code_at (k_fn F) ip [It IReturn] -> k_frames F = [] -> k_base F = 0 ->
  (m = Debug -> t = []) -> (forall c l, nth_error h c = Some (Open l) -> l < length t) ->
  finishes (F, ip, mkM (t ++ [v]) gl h d) v d gl.
Proof.
  intros Hc Hfr Hb Hm Hlt s (rest & opens & reads & n & ext & -> & Hf).
  destruct (step_item m hst opts gs bs F ip (mkM (t ++ [v]) gl h d) rest opens reads n ext _ Hc) as [|(reads' & n' & E)]; auto.
  cbn [item_instr] in E. cbv zeta in E. unfold do_return in E. rewrite pop_c in E.
  apply fit_cons in Hf. destruct Hf as [Hf1 Hf2].
  destruct (close_all F (ip + length (enc IReturn)) t gl h d v rest opens reads' n' ext) as (o' & Ec & Ho'); auto; [lia|].
  cbn [ProofSim1.conc v_frame f_st v_sp m_stk] in E.
  change (mkVm _ _ _ _ _ _ _ _ _ _ _ _ _ _ _ _) with (conc F (ip + length (enc IReturn)) (mkM t gl h d) (v :: rest) opens reads' n' ext) in E.
  rewrite Ec in E. cbn [ProofSim1.conc v_frames] in E. rewrite Hfr in E. cbn [v_sp m_stk] in E.
  right. exists 0. do 2 eexists. split; [constructor|]. split.
  - rewrite E. destruct m; [rewrite Hm by auto|]; reflexivity.
  - auto.
Qed.
End Machine.
