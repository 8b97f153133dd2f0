(** Loops, conditionals, switches and functions of the compiler against CodeRel.v. *)
From Verif Require Import Base RleVec Pool Vecc Float NumText Bytecode Chunk Value Ast Arith VmOps
                          Compiler Vm Items CodeRel SpecContainers ContainerHist ProofContainers
                          ProofValue ProofCompiler ProofCode ProofCode2 ProofCode3.

Ltac Zify.zify_post_hook ::= Z.div_mod_to_equations.

Section Naming.
Context {P : naming}.

(** An instruction whose only operand is a u16. *)
Definition wide (o : N) (mk : N -> instr) : Prop :=
  (forall v, enc (mk v) = o :: u16b v) /\ (forall v, (v < 65536)%N -> fits (mk v)) /\
  (forall v k, mk v <> ICreateClosure k).

Lemma wide_fits o mk v : wide o mk -> (v < 65536)%N -> item_fits (It (mk v)).
Proof. intros (A & B & C) H. cbn. auto. Qed.
Lemma wide_size o mk v : wide o mk -> length (item_bytes (It (mk v))) = 3.
Proof. intros (A & B & C). cbn [item_bytes]. rewrite A. reflexivity. Qed.
Lemma wide_bytes o mk v l : wide o mk -> bytes_of (It (mk v) :: l) = o :: u16b v ++ bytes_of l.
Proof. intros (A & B & C). cbn [bytes_of flat_map item_bytes]. rewrite A. reflexivity. Qed.
Lemma wide_jf : wide op_JumpIfFalse IJumpIfFalse.
Proof. repeat split; cbn; auto; discriminate. Qed.
Lemma wide_ne : wide op_JumpIfNotEq IJumpIfNotEq.
Proof. repeat split; cbn; auto; discriminate. Qed.
Lemma wide_fw : wide op_JumpForward IJumpForward.
Proof. repeat split; cbn; auto; discriminate. Qed.
Lemma wide_bk : wide op_JumpBackward IJumpBackward.
Proof. repeat split; cbn; auto; discriminate. Qed.
Lemma wide_it : wide op_IterNext IIterNext.
Proof. repeat split; cbn; auto; discriminate. Qed.

(** ** Conditionals *)
Lemma gen_ifelse (B : M unit) (C : M unit) wb wc JB JC o mk sp1 sp2 sp3 sp4 : wide o mk ->
  genE B wb JB -> genE C wc JC ->
  genE (do j <- write_jump o sp1; B ;; do e <- write_jump op_JumpForward sp2; patch_jump j sp3 ;;
        C ;; patch_jump e sp4) (wb + wc)
   (fun _ X L k => exists kb kc, JB tt X L kb /\ JC tt X L kc /\
      k = It (mk (szN (kb ++ [It (IJumpForward (szN kc))]))) :: kb ++ It (IJumpForward (szN kc)) :: kc).
Proof.
  intros Wm HB HC c0 UN b [] c6 H I Bn Hb.
  mbi H as j c1 H1. destruct (write_jump_inv _ _ _ _ _ H1) as (E1 & O1 & ->).
  pose proof (R_ext0 _ _ _ _ I Bn E1) as R1. destruct R1 as (I1 & B1 & X1). rewrite Nat.add_0_r in B1.
  mbi H as u2 c2 H2. destruct u2.
  destruct (HB _ _ _ _ _ H2 I1 B1 ltac:(lia)) as (kb & U2 & R2 & O2 & F2 & L2 & G2).
  pose proof R2 as (I2 & B2 & X2).
  mbi H as e c3 H3. destruct (write_jump_inv _ _ _ _ _ H3) as (E3 & O3 & ->).
  mbi H as u4 c4 H4.
  assert (O3' : opsof c3 = (opsof c0 ++ [o]) ++ le_lo 0 :: le_hi 0 :: (bytes_of kb ++ op_JumpForward :: u16b 0)).
  { rewrite O3, O2, O1, <- !app_assoc. reflexivity. }
  assert (Hj : length (opsof c0) + 1 = length (opsof c0 ++ [o])) by (rewrite app_length; reflexivity).
  rewrite Hj in H4. destruct (patch_jump_inv _ _ _ _ _ _ _ _ H4 O3') as (E4 & S4 & O4).
  pose proof (R_ext0 _ _ _ _ I2 B2 (ext0_trans _ _ _ E3 E4)) as R4.
  destruct R4 as (I4 & B4 & X4). rewrite Nat.add_0_r in B4.
  mbi H as u5 c5 H5. destruct u5.
  destruct (HC _ _ _ _ _ H5 I4 B4 ltac:(lia)) as (kc & U5 & R5 & O5 & F5 & L5 & G5).
  pose proof R5 as (I5 & B5 & X5).
  set (v1 := N.of_nat (length (bytes_of kb ++ op_JumpForward :: u16b 0))) in *.
  assert (O5' : opsof c5 = (opsof c0 ++ o :: u16b v1 ++ bytes_of kb ++ [op_JumpForward])
                           ++ le_lo 0 :: le_hi 0 :: bytes_of kc).
  { rewrite O5, O4. cbn [app u16b]. rewrite <- !app_assoc. cbn [app]. rewrite <- !app_assoc. reflexivity. }
  assert (He : length (opsof c2) + 1 = length (opsof c0 ++ o :: u16b v1 ++ bytes_of kb ++ [op_JumpForward])).
  { rewrite O2, O1. rewrite !app_length. cbn [length u16b app]. rewrite !app_length. cbn. lia. }
  rewrite He in H. destruct (patch_jump_inv _ _ _ _ _ _ _ _ H O5') as (E6 & S6 & O6).
  pose proof (R_ext0 _ _ _ _ I5 B5 E6) as R6. destruct R6 as (I6 & B6 & X6).
  assert (Ev : v1 = szN (kb ++ [It (IJumpForward (szN kc))])).
  { unfold v1, szN. rewrite size_app, app_length. unfold size. cbn. reflexivity. }
  exists (It (mk (szN (kb ++ [It (IJumpForward (szN kc))]))) :: kb ++ It (IJumpForward (szN kc)) :: kc), U5.
  split; [|split; [|split; [|split]]].
  - split; [exact I6|]. split; [eapply bnd_mono; eauto; lia|].
    eapply ext_trans; [exact X1|]. eapply ext_trans; [exact X2|]. eapply ext_trans; [exact X4|].
    eapply ext_trans; eauto.
  - rewrite O6. rewrite (wide_bytes o) by auto. rewrite bytes_of_app.
    rewrite (wide_bytes op_JumpForward IJumpForward) by apply wide_fw. rewrite <- Ev.
    rewrite <- !app_assoc. cbn [app]. rewrite <- !app_assoc. reflexivity.
  - constructor; [eapply wide_fits; eauto; rewrite <- Ev; exact S4|].
    apply Forall_app; split; auto. constructor; auto. eapply wide_fits; [apply wide_fw|exact S6].
  - destruct E6 as [? ->], E4 as [? ->], E3 as [? ->], E1 as [? ->]. cbn in *.
    unfold loc in *. cbn in *. congruence.
  - intros X L F. exists kb, kc.
    assert (L6 : length (loc c6) = length (loc c5)) by (destruct E6 as [? ->]; reflexivity).
    pose proof (fin_backE _ _ _ _ _ _ X6 L6 F) as F5'.
    pose proof (fin_backE _ _ _ _ _ _ X5 L5 F5') as F4'.
    assert (L4 : length (loc c4) = length (loc c2)) by (destruct E4 as [? ->], E3 as [? ->]; reflexivity).
    pose proof (fin_backE _ _ _ _ _ _ X4 L4 F4') as F2'. auto.
Qed.

(** ** Loops *)
Lemma gen_loop (A B C : M unit) wa wb wc JA JB JC o mk sp1 sp2 sp3 : wide o mk ->
  genE A wa JA -> genE B wb JB -> genE C wc JC ->
  genE (do s <- code_len; A ;; do j <- write_jump o sp1; B ;; write_jump_backward s sp2 ;;
        patch_jump j sp3 ;; C) (wa + wb + wc)
   (fun _ X L k => exists ka kb kc, JA tt X L ka /\ JB tt X L kb /\ JC tt X L kc /\
      k = ka ++ It (mk (szN (kb ++ [It (IJumpBackward 0)]))) :: kb
          ++ It (IJumpBackward (szN (ka ++ It (mk 0%N) :: kb) + 3)) :: kc).
Proof.
  intros Wm HA HB HC c0 UN b [] c6 H I Bn Hb.
  mbi H as s c00 H0. apply code_len_inv in H0. destruct H0 as [-> ->].
  mbi H as u1 c1 H1. destruct u1.
  destruct (HA _ _ _ _ _ H1 I Bn ltac:(lia)) as (ka & U1 & (I1 & B1 & X1) & O1 & F1 & L1 & G1).
  mbi H as j c2 H2. destruct (write_jump_inv _ _ _ _ _ H2) as (E2 & O2 & ->).
  pose proof (R_ext0 _ _ _ _ I1 B1 E2) as R2. destruct R2 as (I2 & B2 & X2). rewrite Nat.add_0_r in B2.
  mbi H as u3 c3 H3. destruct u3.
  destruct (HB _ _ _ _ _ H3 I2 B2 ltac:(lia)) as (kb & U3 & (I3 & B3 & X3) & O3 & F3 & L3 & G3).
  mbi H as u4 c4 H4.
  destruct (jump_backward_inv _ _ _ _ _ H4) as (E4 & S4 & O4).
  { rewrite O3, O2, O1, !app_length. lia. }
  set (v4 := (N.of_nat (length (opsof c3) - length (opsof c0)) + 3)%N) in *.
  mbi H as u5 c5 H5.
  assert (O4' : opsof c4 = (opsof c0 ++ bytes_of ka ++ [o]) ++ le_lo 0 :: le_hi 0 ::
                           (bytes_of kb ++ enc (IJumpBackward v4))).
  { rewrite O4, O3, O2, O1, <- !app_assoc. cbn [app u16b]. reflexivity. }
  assert (Hj : length (opsof c1) + 1 = length (opsof c0 ++ bytes_of ka ++ [o]))
    by (rewrite O1, !app_length; cbn; lia).
  rewrite Hj in H5. destruct (patch_jump_inv _ _ _ _ _ _ _ _ H5 O4') as (E5 & S5 & O5).
  pose proof (R_ext0 _ _ _ _ I3 B3 (ext0_trans _ _ _ E4 E5)) as R5.
  destruct R5 as (I5 & B5 & X5). rewrite Nat.add_0_r in B5. destruct u5.
  destruct (HC _ _ _ _ _ H I5 B5 ltac:(lia)) as (kc & U6 & (I6 & B6 & X6) & O6 & F6 & L6 & G6).
  assert (Ev : N.of_nat (length (bytes_of kb ++ enc (IJumpBackward v4))) = szN (kb ++ [It (IJumpBackward 0)])).
  { unfold szN. rewrite size_app, app_length. unfold size. cbn. reflexivity. }
  assert (Ev4 : v4 = (szN (ka ++ It (mk 0%N) :: kb) + 3)%N).
  { unfold v4, szN. rewrite size_app, size_cons, (wide_size o) by auto.
    rewrite O3, O2, O1. rewrite !app_length. cbn [length u16b]. unfold size. lia. }
  exists (ka ++ It (mk (szN (kb ++ [It (IJumpBackward 0)]))) :: kb
          ++ It (IJumpBackward (szN (ka ++ It (mk 0%N) :: kb) + 3)) :: kc), U6.
  split; [|split; [|split; [|split]]].
  - split; [exact I6|]. split; [eapply bnd_mono; eauto; lia|].
    eapply ext_trans; [exact X1|]. eapply ext_trans; [exact X2|]. eapply ext_trans; [exact X3|].
    eapply ext_trans; eauto.
  - rewrite O6, O5, bytes_of_app. rewrite (wide_bytes o) by auto. rewrite bytes_of_app.
    rewrite (wide_bytes op_JumpBackward IJumpBackward) by apply wide_bk.
    rewrite <- Ev, <- Ev4. cbn [enc].
    repeat (rewrite <- !app_assoc; cbn [app]). reflexivity.
  - apply Forall_app; split; auto.
    constructor; [eapply wide_fits; eauto; rewrite <- Ev; exact S5|].
    apply Forall_app; split; auto. constructor; auto.
    eapply wide_fits; [apply wide_bk|rewrite <- Ev4; unfold v4; exact S4].
  - assert (length (loc c5) = length (loc c3)) by (destruct E5 as [? ->], E4 as [? ->]; reflexivity).
    assert (length (loc c2) = length (loc c1)) by (destruct E2 as [? ->]; reflexivity). congruence.
  - intros X L F. exists ka, kb, kc.
    pose proof (fin_backE _ _ _ _ _ _ X6 L6 F) as F5'.
    assert (L5 : length (loc c5) = length (loc c3)) by (destruct E5 as [? ->], E4 as [? ->]; reflexivity).
    assert (L2 : length (loc c2) = length (loc c1)) by (destruct E2 as [? ->]; reflexivity).
    pose proof (fin_backE _ _ _ _ _ _ X5 L5 F5') as F3'.
    pose proof (fin_backE _ _ _ _ _ _ X3 L3 F3') as F2'.
    pose proof (fin_backE _ _ _ _ _ _ X2 L2 F2') as F1'. auto.
Qed.

(** ** Switches *)
Definition jump0 : item := It (IJumpForward 0).
Definition open_items (segs : list (list item)) : list item := flat_map (fun s => s ++ [jump0]) segs.
Fixpoint case_items (segs : list (list item)) (co : list item) : list item :=
  match segs with
  | [] => co
  | s :: t => s ++ It (IJumpForward (szN (case_items t co))) :: case_items t co
  end.
Fixpoint js_at (n : nat) (segs : list (list item)) : list nat :=
  match segs with
  | [] => []
  | s :: t => (n + size s + 1) :: js_at (n + size s + 3) t
  end.

Lemma open_size segs co : size (open_items segs ++ co) = size (case_items segs co).
Proof.
  induction segs as [|s t IH]; [reflexivity|]. cbn [open_items flat_map case_items].
  fold (open_items t). rewrite <- !app_assoc, !size_app. rewrite size_app in IH.
  rewrite !size_cons. cbn [item_bytes enc jump0 length u16b]. rewrite size_nil. lia.
Qed.

Lemma patch_all_inv segs co sp : forall A c u c',
  patch_all (js_at (length A) segs) sp c = (COk u, c') ->
  opsof c = A ++ bytes_of (open_items segs ++ co) ->
  Forall (Forall item_fits) segs -> Forall item_fits co ->
  ext0 c c' /\ opsof c' = A ++ bytes_of (case_items segs co) /\ Forall item_fits (case_items segs co).
Proof.
  induction segs as [|s t IH]; intros A c u c' H E Fs Fc; cbn [js_at patch_all case_items] in *.
  - apply ret_inv in H. destruct H as [_ <-]. split; [apply ext0_refl|]. auto.
  - inversion Fs as [|? ? Fs1 Fs2]; subst. mbi H as u1 c1 H1.
    cbn [open_items flat_map] in E. fold (open_items t) in E. rewrite <- !app_assoc in E.
    rewrite bytes_of_app in E. cbn [app] in E. unfold jump0 in E.
    rewrite (wide_bytes op_JumpForward IJumpForward) in E by apply wide_fw.
    assert (E' : opsof c = (A ++ bytes_of s ++ [op_JumpForward]) ++ le_lo 0 :: le_hi 0 :: bytes_of (open_items t ++ co)).
    { rewrite E, <- !app_assoc. reflexivity. }
    assert (Hl : length A + size s + 1 = length (A ++ bytes_of s ++ [op_JumpForward]))
      by (rewrite !app_length; unfold size; cbn; lia).
    rewrite Hl in H1. destruct (patch_jump_inv _ _ _ _ _ _ _ _ H1 E') as (E1 & S1 & O1).
    fold (size (open_items t ++ co)) in *. rewrite open_size in *.
    fold (szN (case_items t co)) in *. set (v := szN (case_items t co)) in *.
    assert (Hl3 : length A + size s + 3 = length (A ++ bytes_of s ++ op_JumpForward :: u16b v))
      by (rewrite !app_length; unfold size; cbn; lia).
    rewrite Hl3 in H.
    destruct (IH _ _ _ _ H) as (E2 & O2 & F2); auto.
    { rewrite O1, <- !app_assoc. reflexivity. }
    split; [eapply ext0_trans; eauto|]. split.
    + rewrite O2, bytes_of_app, (wide_bytes op_JumpForward IJumpForward) by apply wide_fw.
      rewrite <- !app_assoc. reflexivity.
    + apply Forall_app. split; auto. constructor; auto. eapply wide_fits; [apply wide_fw|exact S1].
Qed.

(** ** Functions *)
Lemma caps_emits us sp : emits (write_upvalues us sp) (flat_map cap_bytes us).
Proof.
  induction us as [|[i l] us IH]; cbn [write_upvalues flat_map]; [apply emits_ret|].
  unfold cap_bytes at 1. cbn [fst snd].
  apply (emits_bind _ _ [_] (u16b i ++ flat_map cap_bytes us)); [apply emits_u8|intros _].
  apply emits_bind; [apply emits_u16|intros _; exact IH].
Qed.

Lemma chain_len l r un ur : chain_ok (l :: r) (un :: ur) -> length (lv_upvalues l) = length un.
Proof.
  destruct r as [|l1 r], ur as [|un1 ur]; cbn [chain_ok]; try tauto.
  - intros [-> ->]. reflexivity.
  - intros [H _]. apply (F2_len _ _ _ H).
Qed.
Lemma nth_error_Some_lt {A} (l : list A) i x : nth_error l i = Some x -> i < length l.
Proof. intros H. apply nth_error_Some. congruence. Qed.

Lemma caps_fits X L us un : Forall2 (cap_ok X L) us un -> length L <= u16max -> length (x_ups X) <= u16max ->
  Forall (fun c => (fst c < 65536)%N) us.
Proof.
  intros H HL HU. induction H as [|cp x us un Hc Hr IH]; [constructor|]. constructor; auto.
  unfold cap_ok in Hc. destruct Hc as [_ Hc]. destruct (snd cp).
  - destruct Hc as [Hc _]. apply slot_of_lt in Hc. lia.
  - destruct Hc as (_ & _ & Hc). apply nth_error_Some_lt in Hc. lia.
Qed.

Lemma lev_new name ar d : lev_ok (new_level name ar d).
Proof. constructor; cbn; auto. intros v id H. discriminate. Qed.

Lemma gen_function m (f : bool -> node -> span -> M unit) w name args body sp :
  gen (stmnts_with f body) w (fun d _ X L k L' => code_stmts m X (d =? 0) L body k L') ->
  genE (function_with f name args body sp) (length args + w + 2)
   (fun _ X L k => exists off fn caps, nth_error (x_consts X) off = Some (VFn (MFun fn)) /\
      code_fun m X L (fst name) (map fst args) body fn caps /\ k = [make_fun off caps]).
Proof.
  intros Hbody c0 UN b [] cz H I Bn Hb. unfold function_with in H.
  destruct (over255 args) eqn:Eo; [discriminate|]. unfold over255 in Eo. apply Nat.ltb_ge in Eo.
  mbi H as l0 c00 H0. injection H0 as <- <-.
  mbi H as u1 c1 H1. injection H1 as _ <-.
  mbi H as u2 c2 H2. rewrite enter_run in H2. injection H2 as _ <-.
  set (c2 := mkCompiler _ _ _ _) in H.
  mbi H as u3 c3 H3. mbi H as u4 c4 H4. mbi H as u5 c5 H5.
  assert (Hx : (define_local (fst name) true ;; define_locals (map fst args) ;; stmnts_with f body) c2 = (COk u5, c5)).
  { unfold bind. rewrite H3, H4. exact H5. }
  assert (I2 : inv c2 ([] :: UN)).
  { destruct I as [J1 J2 J3]. constructor; [| |exact J3].
    - unfold levels in *. cbn [c2 c_level c_enclosing]. destruct UN as [|un ur]; [destruct J1|].
      apply chain_cons2. split; [constructor|exact J1].
    - unfold levels in *. cbn [c2 c_level c_enclosing]. constructor; auto.
      constructor; cbn; auto. intros v id Hv. discriminate. }
  assert (B2 : bnd b c2).
  { destruct Bn as [B1 B2]. split; [exact B1|]. unfold levels in *. cbn [c2 c_level c_enclosing].
    constructor; auto. unfold lev_b; cbn; lia. }
  assert (Hg : gen (define_local (fst name) true ;; define_locals (map fst args) ;; stmnts_with f body)
                   (1 + (length args + w))
                   (fun d _ X L k L' => exists Lp, L = [] -> map fst Lp = rev (fst name :: map fst args) /\
                                        code_stmts m X (d =? 0) Lp body k L')).
  { eapply gen_weaken; [apply gen_bind; [apply gen_define|intros ?; apply gen_bind;
      [apply gen_defines|intros ?; apply Hbody]]|pose proof (map_length fst args) as Em; cbv delta [spanned] in *; lia|].
    intros d a X L k L' (_ & k1 & k2 & L1 & -> & (-> & f1 & ->) & (_ & k3 & k4 & L2 & -> & (-> & new & -> & En) & Hs)).
    exists (new ++ (fst name, f1) :: L). intros ->. split; [rewrite map_app, En; reflexivity|exact Hs]. }
  destruct (Hg _ _ _ _ _ Hx I2 B2 ltac:(lia)) as (bc & U5 & (I5 & B5 & X5) & O5 & F5 & G5).
  mbi H as fu c6 H6. unfold exit_level in H6.
  pose proof (e_encl _ _ _ _ X5) as Ee. cbn [c2 c_enclosing] in Ee.
  inversion Ee as [|? e ? rest He Hrest Ea Eb]; subst. rewrite <- Eb in H6. injection H6 as <- <-.
  set (c6 := mkCompiler e rest _ _) in H.
  set (l5 := c_level c5) in *.
  destruct I5 as [J1 J2 J3]. unfold levels in J1, J2. rewrite <- Eb in J1, J2.
  destruct (chain_two _ _ _ _ J1) as (un & un1 & ur & ->). apply chain_cons2 in J1. destruct J1 as [J1 J1'].
  inversion J2 as [|? ? K1 K2]; subst. inversion K2 as [|? ? K3 K4]; subst.
  pose proof (e_un _ _ _ _ X5) as Eu. inversion Eu as [|? ? ? ? Eu1 Eu2]; subst.
  assert (B5' : Forall (lev_b (b + (1 + (length args + w)))) (l5 :: e :: rest)).
  { destruct B5 as [_ B5]. unfold levels in B5. rewrite <- Eb in B5. exact B5. }
  inversion B5' as [|? ? B51 B52]; subst. inversion B52 as [|? ? B53 B54]; subst.
  assert (R6 : R b (1 + (length args + w)) c0 UN c6 (un1 :: ur)).
  { split; [|split].
    - constructor; auto.
    - split; [apply B5|exact B52].
    - constructor; cbn [c6 c_globals c_level c_enclosing].
      + apply (e_globals _ _ _ _ X5).
      + rewrite (ll_consts _ _ He). apply pre_refl.
      + apply (ll_name _ _ He). + apply (ll_arity _ _ He). + apply (ll_depth _ _ He).
      + apply grow_le, (ll_locals _ _ He).
      + exact Hrest.
      + exact Eu2.
      + rewrite (ll_consts _ _ He). apply mm_refl. }
  assert (O6 : opsof c6 = opsof c0) by (unfold opsof; cbn [c6 c_level]; rewrite (ll_chunk _ _ He); reflexivity).
  assert (L6 : length (loc c6) = length (loc c0)) by (symmetry; apply (F2_len _ _ _ (ll_locals _ _ He))).
  set (fn := fst (level_finish l5)) in *.
  assert (CF : forall X L, fin_ok X L c6 (un1 :: ur) -> code_fun m X L (fst name) (map fst args) body fn (lv_upvalues l5)).
  { pose proof (e_depth _ _ _ _ X5) as Hd. cbn in Hd. fold l5 in Hd.
    assert (Hfc : fn_chunk fn = mkChunk (ck_ops (lv_chunk l5)) (ck_spans (lv_chunk l5))
                    (p_entries (lv_consts l5)) (p_entries (lv_syms l5))).
    { unfold fn, level_finish. rewrite Hd. reflexivity. }
    intros X L F6'. destruct F6' as [P1 P2 P3 P4 P5]. cbn in P1, P2, P3, P4, P5.
    set (X' := mkCtx (x_globals X) (ck_consts (fn_chunk fn)) un (map fst L ++ x_outer X)).
    assert (Fin5 : fin_ok X' (view l5) c5 (un :: un1 :: ur)).
    { constructor; cbn [X' x_globals x_consts x_ups x_outer hd].
      - exact P1.
      - rewrite Hfc. apply pre_refl.
      - apply pre_refl.
      - rewrite <- Eb. cbn [outer_of flat_map]. rewrite P4. f_equal.
        rewrite <- view_names. symmetry. apply vle_names. exact P5.
      - apply F2_refl. intros x. split; auto. }
    destruct (G5 _ _ Fin5) as (Lp & HLp). unfold loc in HLp. cbn [c2 c_level lv_set_depth lv_locals new_level length] in HLp.
    rewrite Nat.sub_0_r, skipn_all in HLp. destruct (HLp eq_refl) as [HLp1 HLp2].
    cbn [lv_depth lv_set_depth c2 c_level Nat.eqb] in HLp2.
    econstructor; try exact HLp2; auto.
    + rewrite map_length. exact Eo.
    + unfold fn, level_finish, l5. cbn. rewrite (e_name _ _ _ _ X5). reflexivity.
    + unfold fn, level_finish. cbn. unfold l5. rewrite (e_arity _ _ _ _ X5). cbn. unfold len8, len. rewrite map_length. reflexivity.
    + unfold fn, level_finish. cbn. apply (lk_up _ K1).
    + eapply F2_impl; [|exact J1]. intros cp x Hc.
      refine (cap_ok_mono (mkCtx [] [] un1 (outer_of rest)) X (view e) L cp x _ _ _ Hc); cbn; auto.
    + rewrite Hfc. cbn [ck_ops]. fold (opsof c5). unfold opsof, l5 in *. rewrite O5. reflexivity. }
  assert (Hfine : fine (VFn (MFun fn))).
  { intros f0 E0. injection E0 as <-. econstructor; [apply (CF _ _ (self_fin c6 _))|]. intros g Hgc.
    assert (Hq : In (VFn (MFun g)) (p_entries (lv_consts l5))) by (unfold fn, level_finish in Hgc; destruct (lv_depth l5 =? 0); exact Hgc).
    destruct (e_fns _ _ _ _ X5 g Hq) as [[]|K]. exact K. }
  mbi H as off c7 H7. pose proof R6 as (I6 & B6 & X6).
  destruct (gen_constant _ Hfine _ _ _ _ _ H7 I6 B6 ltac:(lia)) as (k7 & U7 & (I7 & B7 & X7) & O7 & F7 & G7).
  assert (Hoff : exists o, off = N.of_nat o /\ o <= u16max).
  { destruct (G7 _ _ (self_fin c7 U7)) as (_ & _ & o & E1 & E2 & _). eauto. }
  destruct Hoff as (o & -> & Ho).
  assert (k7n : k7 = []) by (destruct (G7 _ _ (self_fin c7 U7)) as (E1 & _); exact E1). subst k7.
  assert (L7 : length (loc c7) = length (loc c6)).
  { destruct (G7 _ _ (self_fin c7 U7)) as (_ & E & _).
    pose proof (grow_len _ _ _ (e_grow _ _ _ _ X7)).
    apply (f_equal (@length _)) in E. rewrite skipn_length in E.
    rewrite (fin_len _ _ _ _ (self_fin c7 U7)) in E. lia. }
  cbn [snd level_finish] in H. fold l5 in H.
  assert (Hem : emits (match lv_upvalues l5 with
                       | [] => write_op_u16 op_CreateFunction (N.of_nat o) sp
                       | us => write_op_u16 op_CreateClosure (N.of_nat o) sp ;; write_upvalues us sp
                       end) (bytes_of [make_fun o (lv_upvalues l5)])).
  { destruct (lv_upvalues l5) as [|u us] eqn:Eus.
    - apply emits_op_u16.
    - cbn [make_fun bytes_of flat_map item_bytes enc]. rewrite app_nil_r.
      apply emits_bind; [apply emits_op_u16|intros _]. apply (caps_emits (u :: us)). }
  destruct (Hem _ _ _ H) as [E8 O8].
  pose proof (R_ext0 _ _ _ _ I7 B7 E8) as (I8 & B8 & X8).
  assert (L8 : length (loc cz) = length (loc c7)) by (destruct E8 as [? ->]; reflexivity).
  assert (Hcaps : Forall (fun c => (fst c < 65536)%N) (lv_upvalues l5)).
  { pose proof (chain_len _ _ _ _ J1') as Hlen. destruct B53 as (_ & B5a & B5b).
    eapply caps_fits; [exact J1| |].
    - unfold view. rewrite map_length. lia.
    - cbn [x_ups]. lia. }
  exists [make_fun o (lv_upvalues l5)], U7. split; [|split; [|split; [|split]]].
  - split; [exact I8|]. split; [eapply bnd_mono; eauto; lia|].
    eapply ext_trans; [exact X6|]. eapply ext_trans; eauto.
  - rewrite O8, O7, O6, app_nil_r. reflexivity.
  - constructor; [|constructor]. unfold make_fun. destruct (lv_upvalues l5) as [|u us] eqn:Eus.
    + cbn. split; [lia|discriminate].
    + cbn [item_fits]. split; [lia|]. exact Hcaps.
  - congruence.
  - intros X L F.
    pose proof (fin_backE _ _ _ _ _ _ X8 L8 F) as F7'.
    pose proof (fin_backE _ _ _ _ _ _ X7 L7 F7') as F6'.
    destruct (G7 _ _ F7') as (_ & _ & o' & Eo1 & Eo2 & Eo3).
    apply Nat2N.inj in Eo1. subst o'.
    exists o, fn, (lv_upvalues l5). split; [exact Eo3|]. split; [|reflexivity].
    apply CF. exact F6'.
Qed.
End Naming.
