(** The disassembler walks from instruction to instruction (C39). *)
From Coq Require Import Sorted.
From Verif Require Import Base RleVec Pool Vecc Float NumText Bytecode Chunk Value Ast Arith VmOps
                          Compiler Vm Items CodeRel CodeSize SpecReady ProofHeight ProofHeight2
                          ProofCode ProofCode7 Disasm SpecDisasm.

Ltac Zify.zify_post_hook ::= Z.div_mod_to_equations.

(** ** Backward jumps stay inside *)
Fixpoint nb (k : nat) (c : list item) : Prop :=
  match c with
  | [] => True
  | x :: t => match x with It (IJumpBackward off) => N.to_nat off <= k + 3 | _ => True end /\ nb (k + ilen x) t
  end.
Lemma nb_app k a b : nb k (a ++ b) <-> nb k a /\ nb (k + size a) b.
Proof.
  revert k. induction a as [|x a IH]; intros k; cbn [app nb]; [rewrite size_nil, Nat.add_0_r; tauto|].
  rewrite IH, size_cons. unfold ilen. rewrite Nat.add_assoc. tauto.
Qed.
Lemma nb_mono k k' c : k <= k' -> nb k c -> nb k' c.
Proof.
  revert k k'. induction c as [|x c IH]; intros k k' H; cbn [nb]; [auto|]. intros [H1 H2]. split.
  - destruct x as [[]|]; auto. lia.
  - eapply IH; [|exact H2]. lia.
Qed.

(** ** Code whose constants are as it needs them *)
Inductive fun_wk : function -> Prop :=
| fw_fun f bc :
    ck_ops (fn_chunk f) = bytes_of bc -> Forall item_fits bc -> nb 0 bc ->
    (forall off, In (It (ILoadConst off)) bc -> nth_error (ck_consts (fn_chunk f)) (N.to_nat off) <> None) ->
    (forall off, In (It (ICreateFunction off)) bc -> exists g,
       nth_error (ck_consts (fn_chunk f)) (N.to_nat off) = Some (VFn (MFun g)) /\ fun_wk g) ->
    (forall off caps, In (ItClo off caps) bc -> exists g,
       nth_error (ck_consts (fn_chunk f)) (N.to_nat off) = Some (VFn (MFun g)) /\
       fn_upcount g = len caps /\ fun_wk g) ->
    fun_wk f.
Definition iw (X : ctx) (x : item) : Prop :=
  match x with
  | It (ILoadConst off) => nth_error (x_consts X) (N.to_nat off) <> None
  | It (ICreateFunction off) => exists g, nth_error (x_consts X) (N.to_nat off) = Some (VFn (MFun g)) /\ fun_wk g
  | ItClo off caps => exists g, nth_error (x_consts X) (N.to_nat off) = Some (VFn (MFun g)) /\
      fn_upcount g = len caps /\ fun_wk g
  | _ => True
  end.
Lemma fun_wk_intro f bc X :
  ck_ops (fn_chunk f) = bytes_of bc -> Forall item_fits bc -> nb 0 bc -> x_consts X = ck_consts (fn_chunk f) ->
  Forall (iw X) bc -> fun_wk f.
Proof.
  intros H1 H2 H3 H4 H5. rewrite Forall_forall in H5. econstructor; eauto; intros; rewrite <- H4; apply (H5 _ H).
Qed.

Definition wk (X : ctx) (c : list item) : Prop := Forall (iw X) c /\ nb 0 c.
Lemma wk_app X a b : wk X a -> wk X b -> wk X (a ++ b).
Proof.
  intros [A1 A2] [B1 B2]. split; [apply Forall_app; auto|]. apply nb_app. split; [auto|].
  eapply nb_mono; [|exact B2]. lia.
Qed.
Lemma wk_nil X : wk X []. Proof. split; [constructor|exact I]. Qed.
Lemma wk_cons X x c : iw X x -> (forall off, x <> It (IJumpBackward off)) -> wk X c -> wk X (x :: c).
Proof.
  intros H1 H2 H3. change (x :: c) with ([x] ++ c). apply wk_app; [|exact H3].
  split; [constructor; [auto|constructor]|]. cbn. split; [|exact I]. destruct x as [[]|]; auto. exfalso. eapply H2; reflexivity.
Qed.
Lemma wk_flush X q : wk X (flush q).
Proof. destruct q as [|[|q]]; cbn; [apply wk_nil| |]; apply wk_cons; cbn; auto using wk_nil; discriminate. Qed.
Lemma wk_pops X fl q : wk X (pops fl q).
Proof.
  revert q. induction fl as [|[] fl IH]; intros q; cbn [pops]; auto using wk_flush.
  apply wk_app; [apply wk_flush|]. apply wk_cons; cbn; auto; discriminate.
Qed.
Lemma wk_exit X fl : wk X (exit_code fl).
Proof.
  unfold exit_code. destruct fl; [apply wk_nil|]. apply wk_cons; [exact I|discriminate|].
  apply wk_app; [apply wk_pops|]. apply wk_cons; [exact I|discriminate|apply wk_nil].
Qed.
Lemma wk_loop X a off b : wk X a -> N.to_nat off <= size a + 3 -> wk X b -> wk X (a ++ It (IJumpBackward off) :: b).
Proof.
  intros [A1 A2] H [B1 B2]. split.
  - apply Forall_app. split; [auto|]. constructor; [exact I|auto].
  - apply nb_app. split; [auto|]. cbn [nb]. split; [lia|]. eapply nb_mono; [|exact B2]. lia.
Qed.
Lemma wk_get X r : wk X [It (get_instr r)].
Proof. destruct r; apply wk_cons; cbn; auto using wk_nil; discriminate. Qed.
Lemma wk_set X r : wk X [It (set_instr r)].
Proof. destruct r; apply wk_cons; cbn; auto using wk_nil; discriminate. Qed.
Lemma wk_var X L v c L1 : code_var L v c L1 -> wk X c.
Proof. destruct 1; apply wk_cons; cbn; auto using wk_nil; discriminate. Qed.
Definition fw (X : ctx) (f : function) (caps : list (N * bool)) : Prop := fun_wk f /\ fn_upcount f = len caps.
Lemma wk_make (X : ctx) off f caps : nth_error (x_consts X) off = Some (VFn (MFun f)) -> fw X f caps -> wk X [make_fun off caps].
Proof.
  intros H [F1 F2]. unfold make_fun. destruct caps; apply wk_cons; try discriminate; try apply wk_nil; cbn; exists f; rewrite Nat2N.id; auto.
Qed.
Lemma szN_nat c : N.to_nat (szN c) = size c.
Proof. unfold szN. lia. Qed.
Lemma wk_for X ci pre cb new b1 b2 : wk X ci -> wk X pre -> wk X cb -> wk X (for_code ci pre cb new b1 b2).
Proof.
  intros H1 H2 H3. unfold for_code.
  set (body := pre ++ cb ++ exit_code (map snd new)).
  assert (Hb : wk X body) by (unfold body; auto using wk_app, wk_exit).
  set (j := szN (body ++ _)). set (k := (szN _ + 3)%N).
  change (wk X (It INewLoopCtx :: ci ++ ([It ILoadNone; It (IIterNext j)] ++ body ++ It (IJumpBackward k) :: exit_code [b2; b1]))).
  apply wk_cons; [exact I|discriminate|]. apply wk_app; [auto|]. rewrite app_assoc. apply wk_loop.
  - apply wk_app; [|auto]. repeat (apply wk_cons; [exact I|discriminate|]). apply wk_nil.
  - unfold k. rewrite N2Nat.inj_add, szN_nat. rewrite size_app, !size_cons, size_nil. cbn [item_bytes enc u16b length]. change (N.to_nat 3) with 3. lia.
  - apply wk_exit.
Qed.

Ltac wks := repeat first
  [ assumption | apply wk_nil | apply wk_exit | apply wk_get | apply wk_set | apply wk_for
  | apply wk_app | (apply wk_cons; [exact I|discriminate|]) ].

Theorem code_wk (m : mode) {Nm : naming} :
  (forall X L n c, code_expr m X L n c -> wk X c) /\
  (forall X L l c, code_list m X L l c -> wk X c) /\
  (forall X g L p n c L', code_stmt m X g L p n c L' -> wk X c) /\
  (forall X g L l c L', code_stmts m X g L l c L' -> wk X c) /\
  (forall X L l c, code_pops m X L l c -> wk X c) /\
  (forall X L l c, code_block m X L l c -> wk X c) /\
  (forall X L o c, code_else m X L o c -> wk X c) /\
  (forall X L cs d c, code_cases m X L cs d c -> wk X c) /\
  (forall X L x args body f caps, code_fun m X L x args body f caps -> fw X f caps).
Proof.
  apply code_mind; intros; try solve [wks].
  - apply wk_cons; [|discriminate|apply wk_nil]. cbn. rewrite Nat2N.id. congruence.
  - wks. eapply wk_var; eauto.
  - set (j := szN (It (IPopMany 2) :: cb ++ _)). set (k := (_ + 3)%N).
    change (wk X (It ILoadNone :: cc ++ ([It (IJumpIfFalse j); It (IPopMany 2)] ++ cb ++ It (IJumpBackward k) :: [It IPop]))).
    apply wk_cons; [exact I|discriminate|]. rewrite !app_assoc. apply wk_loop; [wks| |wks].
    unfold k. rewrite N2Nat.inj_add, szN_nat. rewrite !size_app, !size_cons, !size_nil. cbn [item_bytes enc u16b length]. change (N.to_nat 3) with 3. lia.
  - eapply wk_make; eauto.
  - apply wk_cons; [|discriminate|apply wk_nil]. cbn. rewrite Nat2N.id. congruence.
  - change [make_fun off caps; It (IDefineGlobal (N.of_nat g))] with ([make_fun off caps] ++ [It (IDefineGlobal (N.of_nat g))]).
    apply wk_app; [eapply wk_make; eauto|wks].
  - change [make_fun off caps; It (ISetLocal (len L))] with ([make_fun off caps] ++ [It (ISetLocal (len L))]).
    apply wk_app; [eapply wk_make; eauto|wks].
  - wks. clear. induction gs; cbn; wks.
  - wks. destruct p; wks.
  - match goal with H : wk _ bc |- _ => destruct H as [W1 W2] end. split; [|auto]. eapply fun_wk_intro; eauto. reflexivity.
Qed.

Lemma compile_wk m ast s : compile m ast = COk s -> weights ast <= u16max -> fun_wk (sc_function s).
Proof.
  intros H Hw. destruct (compile_code m ast s H Hw) as [code [S1 S2 S3 S4 S5 S6 S7 S8]].
  apply (code_wk m) in S6. destruct (wk_app _ _ _ S6 (wk_cons _ (It IReturn) [] I ltac:(discriminate) (wk_nil _))) as [W1 W2].
  eapply fun_wk_intro; eauto. reflexivity.
Qed.

(** ** One instruction *)
Lemma size_pos' x : item_fits x -> 0 < ilen x.
Proof.
  intros H. unfold ilen. destruct x as [i|i caps]; cbn [item_bytes]; [|cbn; lia].
  destruct H as [H _]. destruct i; cbn [enc fits] in *; try (cbn; lia).
  - destruct (unary_opcode o); [cbn; lia|congruence].
  - destruct (binary_opcode o); [cbn; lia|congruence].
Qed.
Section Fn.
Context (f : function) (bc : list item).
Context (Hops : ck_ops (fn_chunk f) = bytes_of bc) (Hfit : Forall item_fits bc).
Context (Hclo : forall off caps, In (ItClo off caps) bc -> exists g,
       nth_error (ck_consts (fn_chunk f)) (N.to_nat off) = Some (VFn (MFun g)) /\
       fn_upcount g = len caps /\ fun_wk g).

Lemma dec pre x post : bc = pre ++ x :: post ->
  decode (ck_ops (fn_chunk f)) (size pre) = Ok (item_instr x, size pre + length (enc (item_instr x))) /\
  size pre < length (ck_ops (fn_chunk f)) /\
  length (enc (item_instr x)) + trailer (fn_chunk f) (item_instr x) = ilen x.
Proof using Hops Hfit Hclo.
  intros E. rewrite Hops. assert (Hf := Hfit). rewrite E in Hf.
  replace (bytes_of bc) with (bytes_of (pre ++ x :: post)) by (rewrite E; reflexivity).
  assert (Hi : item_fits x) by (rewrite Forall_forall in Hf; apply Hf, in_or_app; right; left; auto).
  split; [apply item_decode; auto|]. split.
  - change (length (bytes_of (pre ++ x :: post))) with (size (pre ++ x :: post)). rewrite size_app, size_cons.
    pose proof (size_pos' _ Hi). unfold ilen in *. lia.
  - destruct x as [i|off caps]; unfold ilen; cbn [item_instr item_bytes].
    + destruct i; cbn [trailer]; try lia. destruct Hi as [_ Hi]. exfalso. apply (Hi i). reflexivity.
    + destruct (Hclo off caps) as (g & Hg & Hu & _); [rewrite E; apply in_or_app; right; left; auto|].
      cbn [trailer]. rewrite Hg, Hu, app_length, length_caps. unfold len. lia.
Qed.
Lemma bound pre post : bc = pre ++ post -> boundary (fn_chunk f) (size pre).
Proof using Hops Hfit Hclo.
  revert post. induction pre as [|x pre IH] using rev_ind; intros post E; [constructor|].
  rewrite <- app_assoc in E. destruct (dec pre x post E) as (D1 & D2 & D3).
  replace (size (pre ++ [x])) with (size pre + length (enc (item_instr x)) + trailer (fn_chunk f) (item_instr x)).
  - econstructor; eauto.
  - rewrite size_app, size_cons, size_nil. unfold ilen in D3. lia.
Qed.
Lemma bound_split p : boundary (fn_chunk f) p -> exists pre post, bc = pre ++ post /\ p = size pre.
Proof using Hops Hfit Hclo.
  induction 1 as [|p i next Hb IH Hlt Hd]; [exists [], bc; auto|].
  destruct IH as (pre & post & E & ->). destruct post as [|x post].
  - exfalso. rewrite app_nil_r in E. subst pre. rewrite Hops in Hlt. unfold size in Hlt. lia.
  - destruct (dec pre x post E) as (D1 & D2 & D3). rewrite D1 in Hd. injection Hd as <- <-.
    exists (pre ++ [x]), post. split; [rewrite <- app_assoc; exact E|]. rewrite size_app, size_cons, size_nil. unfold ilen in D3. lia.
Qed.
End Fn.

Lemma at_pre pre x post k : nth_error (bytes_of (pre ++ x :: post)) (size pre + k) = nth_error (item_bytes x ++ bytes_of post) k.
Proof. rewrite bytes_of_app. unfold size. rewrite nth_app_r. reflexivity. Qed.
Lemma u16_at pre x post a v b k : item_bytes x = a ++ u16b v ++ b -> length a = k -> (v < 65536)%N ->
  bc_read_u16 (bytes_of (pre ++ x :: post)) (size pre + k) = Ok v.
Proof.
  intros E Hk Hv. unfold bc_read_u16. rewrite <- Nat.add_assoc, !at_pre, E, <- !app_assoc, <- Hk.
  rewrite nth_app_0, nth_app_r. cbn [nth_error u16b app]. rewrite le_u16_back by auto. reflexivity.
Qed.
Lemma u8_at pre x post a v b k : item_bytes x = a ++ v :: b -> length a = k ->
  bc_read_u8 (bytes_of (pre ++ x :: post)) (size pre + k) = Ok v.
Proof.
  intros E Hk. unfold bc_read_u8. rewrite at_pre, E, <- app_assoc, <- Hk. cbn [app]. rewrite nth_app_0. reflexivity.
Qed.

(** Captures. *)
Definition cap_args (caps : list (N * bool)) : list N := flat_map (fun c : N * bool => [(if snd c then 1 else 0)%N; fst c]) caps.
Lemma captures_at ops a caps b : ops = a ++ flat_map cap_bytes caps ++ b -> Forall (fun c => (fst c < 65536)%N) caps ->
  dis_captures ops (length caps) (length a) = Ok (cap_args caps, length a + 3 * length caps).
Proof.
  revert a. induction caps as [|c caps IH]; intros a E H; cbn [length dis_captures].
  - cbn. rewrite Nat.add_0_r. reflexivity.
  - inversion H as [|? ? H1 H2]. cbn [flat_map] in E. rewrite <- app_assoc in E.
    assert (N0 : forall k, nth_error ops (length a + k) = nth_error (cap_bytes c ++ flat_map cap_bytes caps ++ b) k).
    { intros k. rewrite E. apply nth_app_r. }
    assert (A0 := N0 0). assert (A1 := N0 1). assert (A2 := N0 2). cbn [cap_bytes u16b app nth_error] in A0, A1, A2.
    rewrite Nat.add_0_r in A0. unfold bc_read_u8, bc_read_u16. rewrite A0. cbn [rbind]. rewrite A1, <- Nat.add_assoc. cbn [Nat.add].
    rewrite A2. cbn [rbind]. rewrite le_u16_back by auto.
    specialize (IH (a ++ cap_bytes c)). rewrite app_length in IH. cbn [cap_bytes u16b length] in IH.
    rewrite IH; [|rewrite <- app_assoc; exact E|auto]. cbn [rbind fst snd]. do 2 f_equal. lia.
Qed.

Ltac red_op :=
  cbv [dis_op is_op existsb orb];
  repeat match goal with |- context [N.eqb ?a ?b] =>
    let r := eval vm_compute in (N.eqb a b) in change (N.eqb a b) with r; cbv iota end.
Ltac red_text :=
  match goal with |- context [alookup N.eqb ?o op_texts] =>
    let r := eval vm_compute in (alookup N.eqb o op_texts) in change (alookup N.eqb o op_texts) with r; cbv iota end.

Definition line_with n b p op (d : dis) : line := mkLine n b p op (d_oparg d) (d_hint d) (d_args d).
Ltac showing R0 :=
  intros; constructor; cbn [line_with ln_offset ln_opcode ln_args ln_hint ln_oparg d_args d_hint d_oparg];
  [ reflexivity | eapply R0; reflexivity | exists []; split; [reflexivity|reflexivity]
  | cbn [jump_target]; try discriminate; intros t [= <-]; cbn [length u16b]; do 2 f_equal; lia
  | cbn [jump_target]; try discriminate; intros t [= <-]; cbn [length u16b]; f_equal; lia
  | try discriminate
  | cbn [global_of_instr]; try discriminate; intros k0 n1 [= <-] Hn; unfold global_symbol; rewrite Hn; reflexivity
  | cbn [called_by]; try discriminate; intros k0 n1 [= <-] Hn; unfold global_symbol; rewrite Hn; reflexivity
  | intros o0 [Ho|Ho]; try discriminate Ho ].

Section Item.
Context (s : script) (f : function) (bc : list item).
Context (Hops : ck_ops (fn_chunk f) = bytes_of bc) (Hfit : Forall item_fits bc) (Hnb : nb 0 bc).
Context (Hcst : forall off, In (It (ILoadConst off)) bc -> nth_error (ck_consts (fn_chunk f)) (N.to_nat off) <> None).
Context (Hfun : forall off, In (It (ICreateFunction off)) bc -> exists g,
       nth_error (ck_consts (fn_chunk f)) (N.to_nat off) = Some (VFn (MFun g)) /\ fun_wk g).
Context (Hclo : forall off caps, In (ItClo off caps) bc -> exists g,
       nth_error (ck_consts (fn_chunk f)) (N.to_nat off) = Some (VFn (MFun g)) /\
       fn_upcount g = len caps /\ fun_wk g).

Lemma dis_item pre x post : bc = pre ++ x :: post -> exists op d,
  bc_read_u8 (ck_ops (fn_chunk f)) (size pre) = Ok op /\
  dis_op (sc_globals s) op (fn_chunk f) (size pre + 1) = Ok d /\
  d_next d = size pre + ilen x /\
  forall n b, shows s (fn_chunk f) (size pre) (item_instr x) (size pre + length (enc (item_instr x))) (line_with n b (size pre) op d).
Proof using Hops Hfit Hnb Hcst Hfun Hclo.
  intros E. assert (Hin : In x bc) by (rewrite E; apply in_or_app; right; left; auto).
  assert (Hf : item_fits x) by (rewrite Forall_forall in Hfit; auto).
  assert (Hb : ck_ops (fn_chunk f) = bytes_of (pre ++ x :: post)) by (rewrite Hops, E; reflexivity).
  assert (R8 : forall a v b k, item_bytes x = a ++ v :: b -> length a = k ->
               bc_read_u8 (ck_ops (fn_chunk f)) (size pre + k) = Ok v) by (intros; rewrite Hb; eapply u8_at; eauto).
  assert (R16 : forall a v b k, item_bytes x = a ++ u16b v ++ b -> length a = k -> (v < 65536)%N ->
               bc_read_u16 (ck_ops (fn_chunk f)) (size pre + k) = Ok v) by (intros; rewrite Hb; eapply u16_at; eauto).
  assert (R0 : forall v b, item_bytes x = v :: b -> bc_read_u8 (ck_ops (fn_chunk f)) (size pre) = Ok v).
  { intros v b Ex. rewrite <- (Nat.add_0_r (size pre)). apply (R8 [] v b 0 Ex eq_refl). }
  destruct x as [i|off caps].
  - destruct i; cbn [item_bytes enc item_instr] in *; destruct Hf as [Hf Hk]; cbn [fits] in Hf;
      try (eexists; eexists; split; [eapply R0; reflexivity|]; split;
           [red_op; first [red_text; reflexivity|reflexivity]|]; split; [cbn; lia|showing R0]; fail).
    (* one operand *)
    all: try (eexists; eexists; split; [eapply R0; reflexivity|]; split;
      [red_op; first [rewrite (R16 [_] _ [] 1 eq_refl eq_refl Hf)|rewrite (R8 [_] _ [] 1 eq_refl eq_refl)]; cbn [rbind]; reflexivity|]; split;
      [cbn; lia|showing R0]; fail).
    + (* LoadConst *) destruct (nth_error (ck_consts (fn_chunk f)) (N.to_nat i)) as [v|] eqn:Ev; [|destruct (Hcst i Hin Ev)].
      eexists; eexists; split; [eapply R0; reflexivity|]; split.
      { red_op. rewrite (R16 [_] _ [] 1 eq_refl eq_refl Hf). cbn [rbind]. unfold chunk_get_constant. rewrite Ev. cbn [rbind]. reflexivity. }
      split; [cbn; lia|]. showing R0. intros k v' [= <-] Hv. congruence.
    + (* CreateFunction *) destruct (Hfun i Hin) as (g & Ev & _).
      eexists; eexists; split; [eapply R0; reflexivity|]; split.
      { red_op. rewrite (R16 [_] _ [] 1 eq_refl eq_refl Hf). cbn [rbind]. unfold chunk_get_constant. rewrite Ev. cbn [rbind]. reflexivity. }
      split; [cbn; lia|showing R0].
    + exfalso. apply (Hk i). reflexivity.
    + (* CallBuiltin *) destruct Hf as [Hf1 Hf2]. eexists; eexists; split; [eapply R0; reflexivity|]; split.
      { red_op. rewrite (R16 [_] _ [argc] 1 eq_refl eq_refl Hf1). cbn [rbind]. rewrite <- Nat.add_assoc. cbn [Nat.add].
        rewrite (R8 (op_CallBuiltin :: u16b b) argc [] 3 eq_refl eq_refl). cbn [rbind]. reflexivity. }
      split; [cbn; lia|showing R0].
    + (* EnterContext *) destruct Hf as [Hf1 Hf2]. eexists; eexists; split; [eapply R0; reflexivity|]; split.
      { red_op. rewrite (R16 [_] _ [argc] 1 eq_refl eq_refl Hf1). cbn [rbind]. rewrite <- Nat.add_assoc. cbn [Nat.add].
        rewrite (R8 (op_EnterContext :: u16b b) argc [] 3 eq_refl eq_refl). cbn [rbind]. reflexivity. }
      split; [cbn; lia|showing R0].
    + (* JumpBackward *) assert (Hle : N.to_nat off <= size pre + 3).
      { rewrite E in Hnb. apply nb_app in Hnb. destruct Hnb as [_ Hn]. cbn [nb] in Hn. destruct Hn as [Hn _]. exact Hn. }
      eexists; eexists; split; [eapply R0; reflexivity|]; split.
      { red_op. rewrite (R16 [_] _ [] 1 eq_refl eq_refl Hf). cbn [rbind].
        destruct (Nat.ltb_spec (size pre + 1 + 2) (N.to_nat off)); [lia|]. reflexivity. }
      split; [cbn; lia|].
      intros; constructor; cbn [line_with ln_offset ln_opcode ln_args ln_hint ln_oparg d_args d_hint d_oparg]; try discriminate; try (intros o0 [Ho|Ho]; discriminate Ho);
        [reflexivity|eapply R0; reflexivity|exists []; split; reflexivity| |];
        cbn [jump_target length u16b]; destruct (Nat.ltb_spec (size pre + 3) (N.to_nat off)); try lia; intros t [= <-]; first [f_equal; lia|do 2 f_equal; lia].
    + (* operators *) destruct o; cbn [unary_opcode] in *; try congruence;
        (eexists; eexists; split; [eapply R0; reflexivity|]; split; [red_op; red_text; reflexivity|]; split; [cbn; lia|showing R0; injection Ho as <-; reflexivity]).
    + destruct o; cbn [binary_opcode] in *; try congruence;
        (eexists; eexists; split; [eapply R0; reflexivity|]; split; [red_op; red_text; reflexivity|]; split; [cbn; lia|showing R0; injection Ho as <-; reflexivity]).
  - destruct Hf as [Hf1 Hf2]. destruct (Hclo off caps Hin) as (g & Ev & Hu & _). cbn [item_bytes enc item_instr] in *.
    eexists; eexists; split; [eapply R0; reflexivity|]; split.
    { red_op. rewrite (R16 [_] off (flat_map cap_bytes caps) 1 eq_refl eq_refl Hf1). cbn [rbind]. unfold chunk_get_constant. rewrite Ev. cbn [rbind].
      rewrite Hu. unfold len. rewrite Nat2N.id.
      pose proof (captures_at (ck_ops (fn_chunk f)) (bytes_of pre ++ op_CreateClosure :: u16b off) caps (bytes_of post)) as C.
      rewrite app_length in C. cbn [length u16b] in C. unfold size. replace (length (bytes_of pre) + 1 + 2) with (length (bytes_of pre) + 3) by lia.
      rewrite C; [cbn [rbind fst snd]; reflexivity| |auto].
      rewrite Hb, bytes_of_app. cbn [bytes_of flat_map item_bytes enc]. rewrite <- !app_assoc. reflexivity. }
    split; [cbn [d_next]; unfold ilen; cbn [item_bytes enc]; rewrite app_length, length_caps; cbn [length u16b]; unfold size; lia|].
    intros n0 b0. constructor; cbn [line_with ln_offset ln_opcode ln_args ln_hint ln_oparg d_args d_hint d_oparg]; try discriminate; try (intros o0 [Ho|Ho]; discriminate Ho).
    + reflexivity.
    + eapply R0; reflexivity.
    + exists (cap_args caps). split; [reflexivity|]. cbn [trailer]. rewrite Ev, Hu. unfold len. rewrite Nat2N.id.
      unfold cap_args. clear. induction caps as [|c caps IH]; [reflexivity|]. cbn [flat_map length app]. lia.
Qed.

(** ** The walk *)
Context (lineno : span -> option nat) (Hln : has_lines lineno (fn_chunk f)).

(** The lines of the items of [post], which begin at [k]. *)
Inductive shown : nat -> list item -> list line -> Prop :=
| sn_nil k : shown k [] []
| sn_cons k x post ln lines :
    shows s (fn_chunk f) k (item_instr x) (k + length (enc (item_instr x))) ln ->
    shown (k + ilen x) post lines -> shown k (x :: post) (ln :: lines).

Lemma walk_ok post : forall pre fuel js, bc = pre ++ post -> length post <= fuel ->
  exists lines js', walk lineno (sc_globals s) fuel (fn_chunk f) (size pre) js = Ok (lines, js', size bc) /\
  shown (size pre) post lines.
Proof using Hops Hfit Hnb Hcst Hfun Hclo Hln.
  induction post as [|x post IH]; intros pre fuel js E Hfu.
  - rewrite app_nil_r in E. subst pre. exists [], js. split; [|constructor].
    destruct fuel; cbn [walk]; [reflexivity|]. rewrite Hops. unfold size. rewrite Nat.ltb_irrefl. reflexivity.
  - destruct fuel as [|fuel]; [cbn in Hfu; lia|].
    destruct (dec f bc Hops Hfit Hclo pre x post E) as (_ & Hlt & _).
    destruct (dis_item pre x post E) as (op & d & E1 & E2 & E3 & E4).
    cbn [walk]. apply Nat.ltb_lt in Hlt as Hlt'. rewrite Hlt'.
    destruct (lineno _) as [n|] eqn:En; [|destruct (Hln _ Hlt En)].
    destruct (take_jump (size pre) js) as [b js1]. rewrite E1. cbn [rbind]. rewrite E2. cbn [rbind].
    set (js2 := match d_push d with Some t => js1 ++ [t] | None => js1 end).
    destruct (IH (pre ++ [x]) fuel js2) as (lines & js' & W1 & W2); [rewrite <- app_assoc; exact E|cbn in Hfu; lia|].
    rewrite size_app, size_cons, size_nil in W1, W2. rewrite E3. unfold ilen.
    replace (length (item_bytes x) + 0) with (length (item_bytes x)) in W1, W2 by lia. rewrite W1. cbn [rbind fst snd].
    exists (line_with n b (size pre) op d :: lines), js'. split; [reflexivity|]. constructor; [apply E4|exact W2].
Qed.

Lemma shown_offsets k post lines : shown k post lines -> Forall item_fits post ->
  StronglySorted lt (map ln_offset lines) /\ Forall (le k) (map ln_offset lines).
Proof using.
  intros H Hi. induction H as [k|k x post ln lines H1 H2 IH]; [split; constructor|].
  inversion Hi as [|? ? I1 I2]. destruct (IH I2) as [S1 S2]. cbn [map]. rewrite (sh_offset _ _ _ _ _ _ H1).
  pose proof (size_pos' x I1). split.
  - constructor; [exact S1|]. eapply Forall_impl; [|exact S2]. intros a Ha. lia.
  - constructor; [lia|]. eapply Forall_impl; [|exact S2]. intros a Ha. lia.
Qed.
Lemma shown_in k post lines p : shown k post lines ->
  In p (map ln_offset lines) <-> exists a x b, post = a ++ x :: b /\ p = k + size a.
Proof using.
  intros H. revert p. induction H as [k|k x post ln lines H1 H2 IH]; intros p; cbn [map In].
  - split; [tauto|]. intros (a & x & b & E & _). destruct a; discriminate.
  - rewrite (sh_offset _ _ _ _ _ _ H1), IH. split.
    + intros [<-|(a & y & b & -> & ->)].
      * exists [], x, post. split; [reflexivity|]. rewrite size_nil. lia.
      * exists (x :: a), y, b. split; [reflexivity|]. rewrite size_cons. unfold ilen. lia.
    + intros (a & y & b & E & ->). destruct a as [|z a]; injection E as -> ->.
      * left. rewrite size_nil. lia.
      * right. exists a, y, b. split; [reflexivity|]. rewrite size_cons. unfold ilen. lia.
Qed.
Lemma shown_line k post lines ln : shown k post lines -> In ln lines ->
  exists a x b, post = a ++ x :: b /\ shows s (fn_chunk f) (k + size a) (item_instr x) (k + size a + length (enc (item_instr x))) ln.
Proof using.
  intros H Hin. induction H as [k|k x post ln' lines H1 H2 IH]; [destruct Hin|].
  destruct Hin as [->|Hin].
  - exists [], x, post. split; [reflexivity|]. rewrite size_nil, !Nat.add_0_r. exact H1.
  - destruct (IH Hin) as (a & y & b & -> & S). exists (x :: a), y, b. split; [reflexivity|].
    rewrite size_cons. unfold ilen in S. rewrite Nat.add_assoc. exact S.
Qed.

Lemma fuel_enough : length bc <= length (ck_ops (fn_chunk f)).
Proof using Hops Hfit.
  rewrite Hops. change (length bc <= size bc). revert Hfit. clear. intros Hf. induction Hf as [|x l H1 H2 IH]; [auto|].
  rewrite size_cons. pose proof (size_pos' x H1). unfold ilen in *. cbn [length]. lia.
Qed.

Lemma chunk_ok js : exists lines js', dis_chunk lineno (sc_globals s) (fn_chunk f) js = Ok (lines, js', length (ck_ops (fn_chunk f))) /\
  right_listing s (fn_chunk f) lines (length (ck_ops (fn_chunk f))).
Proof using Hops Hfit Hnb Hcst Hfun Hclo Hln.
  destruct (walk_ok bc [] _ js eq_refl fuel_enough) as (lines & js' & W1 & W2).
  assert (Hsz : size bc = length (ck_ops (fn_chunk f))) by (rewrite Hops; reflexivity).
  rewrite Hsz in W1. exists lines, js'. split; [exact W1|]. rewrite size_nil in W2. constructor.
  - reflexivity.
  - apply (shown_offsets _ _ _ W2 Hfit).
  - intros p. rewrite (shown_in _ _ _ p W2). cbn [Nat.add]. split.
    + intros (a & x & b & E & ->). split; [eapply bound; eauto|]. eapply dec; eauto.
    + intros [Hb Hlt]. destruct (bound_split f bc Hops Hfit Hclo p Hb) as (pre & post & E & ->).
      destruct post as [|x post]; [|exists pre, x, post; auto]. rewrite app_nil_r in E. subst pre. lia.
  - intros ln Hin. destruct (shown_line _ _ _ _ W2 Hin) as (a & x & b & E & S). cbn [Nat.add] in S.
    destruct (dec f bc Hops Hfit Hclo a x b E) as (D1 & _). rewrite (sh_offset _ _ _ _ _ _ S). eexists; eexists; split; [exact D1|exact S].
Qed.
End Item.

Lemma used_wk m ast s f : compile m ast = COk s -> weights ast <= u16max -> used s f -> fun_wk f.
Proof.
  intros H Hw. induction 1 as [|f p i next k g Hu IH Hb Hd Hc Hn]; [eapply compile_wk; eauto|].
  destruct IH as [f bc F1 F2 F3 F4 F5 F6].
  destruct (bound_split f bc F1 F2 F6 p Hb) as (pre & post & E & ->). destruct post as [|x post].
  - exfalso. rewrite app_nil_r in E. subst pre. rewrite F1 in Hd. unfold decode, bc_read_u8 in Hd.
    assert (K : nth_error (bytes_of bc) (size bc) = None) by (apply nth_error_None; unfold size; lia). rewrite K in Hd. discriminate.
  - destruct (dec f bc F1 F2 F6 pre x post E) as (D1 & _). rewrite D1 in Hd. injection Hd as <- <-.
    assert (Hin : In x bc) by (rewrite E; apply in_or_app; right; left; auto).
    destruct x as [j|off caps]; cbn [item_instr] in Hc.
    + destruct j; cbn [creates] in Hc; try discriminate; injection Hc as ->.
      * destruct (F5 _ Hin) as (g' & G1 & G2). congruence.
      * rewrite Forall_forall in F2. destruct (F2 _ Hin) as [_ K]. exfalso. eapply K; reflexivity.
    + injection Hc as ->. destruct (F6 _ _ Hin) as (g' & G1 & _ & G2). congruence.
Qed.

Theorem listing_right m ast s f lineno js : compile m ast = COk s -> weights ast <= u16max -> used s f ->
  has_lines lineno (fn_chunk f) ->
  exists lines js' stop, dis_chunk lineno (sc_globals s) (fn_chunk f) js = Ok (lines, js', stop) /\
    right_listing s (fn_chunk f) lines stop.
Proof.
  intros H Hw Hu Hl. pose proof (used_wk m ast s f H Hw Hu) as F. destruct F as [f bc F1 F2 F3 F4 F5 F6].
  destruct (chunk_ok s f bc F1 F2 F3 F4 F5 F6 lineno Hl js) as (lines & js' & C1 & C2). eauto 6.
Qed.
