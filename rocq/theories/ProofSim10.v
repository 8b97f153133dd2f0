(** Compiled code does what the direct evaluation says: branches, loops, contexts,
    statements; the induction over the syntax tree. *)
From Verif Require Import Base RleVec Pool Vecc Float NumText Bytecode Chunk Value Ast Arith VmOps
                          Compiler Vm Items CodeRel SpecParse SpecReady SpecRel SpecEval ProofVars ProofRel ProofCode6 ProofHeight2 ProofSim1
                          ProofSim2 ProofSim3 ProofSim4 ProofSim5 ProofSim6 ProofSim7 ProofSim8 ProofSim9.

Section Sim.
Context {D : Type} (m : mode) (hst : host D) (opts : options) (gs : pool rstring)
        (bs : list (N * builtin D)) (G : list rstring).
Notation goes := (goes m hst opts gs bs).
Notation failing := (failing m hst opts gs bs).
Notation finishes := (finishes m hst opts gs bs).
Notation lasts := (lasts m hst opts gs bs).
Notation leads := (leads m hst opts gs bs).
Notation "ip '+>' i" := (ip + length (item_bytes (It i))) (at level 50).
Notation vr := (vr m G).
Notation mem := (mem m G).
Notation sst := (@sst D).
Notation Inv := (Inv m gs G).
Notation here := (here m gs G).
Notation pushed := (pushed m G).
Notation tops := (tops m G).
Notation sim := (sim m hst opts gs bs G).
Notation globs := (globs m gs G).
Implicit Types (F : @fixed D) (w : @world D).
Context (builtins : rstring -> option (sbuiltin (D:=D))).
Context (call : sfn -> list sval -> sst -> out (D:=D) sval) (n : nat).
Notation orc := (h_oracle hst).
Notation ev := (ev m orc opts builtins call n).
Notation ex := (ex m orc opts builtins call n).
Notation Pexpr := (Pexpr m hst opts gs bs G orc builtins call n).
Notation Plist := (Plist m hst opts gs bs G orc builtins call n).
Notation Pstmt := (Pstmt m hst opts gs bs G orc builtins call n).
Notation Pstmts := (Pstmts m hst opts gs bs G orc builtins call n).
Notation Ppops := (Ppops m hst opts gs bs G orc builtins call n).
Notation Pblock := (Pblock m hst opts gs bs G orc builtins call n).
Notation Pelse := (Pelse m hst opts gs bs G orc builtins call n).
Notation Pcases := (Pcases m hst opts gs bs G orc builtins call n).
Notation post := (post m gs G).
Notation block := (block_with (ev false)).
Notation named := (@named ordinary_name).

Hypothesis HG : forall g x, nth_error G g = Some x -> pool_id seqb gs x = Some (N.of_nat g).
Hypothesis HP : forall g x, pool_id seqb gs x = Some g -> pool_get gs g = Some x.
Hypothesis HB : forall g x, nth_error G g = Some x -> same_builtin (builtins x) (alookup N.eqb (N.of_nat g) bs).
Hypothesis Hcall : call_ok m hst opts gs bs G n call.


Ltac sz := repeat rewrite ?size_app, ?size_cons, ?size_nil, ?Nat.add_assoc, ?Nat.add_0_r.
Ltac hin := cbn [children opt_list flat_map]; repeat first [progress cbn [In] | rewrite in_app_iff]; auto 6.
Ltac nmd := match goal with
  | H : named ?nd |- named (fst ?e) => eapply (named_child nd e H); hin
  | H : named ?nd |- Forall _ ?l => rewrite Forall_forall; intros ? ?; eapply (named_child nd _ H); hin
  end.


Notation named_body l := (Forall (fun e => named (fst e)) l).

Lemma s_cond X L c t o cc ct co : Pexpr X L (fst c) cc -> Pblock X L t ct -> Pelse X L o co ->
  Pexpr X L (NConditional c t o)
      (It ILoadNone :: cc
       ++ It (IJumpIfFalse (szN (It (IPopMany 2) :: ct ++ [It (IJumpForward (szN co))])))
       :: It (IPopMany 2) :: ct ++ It (IJumpForward (szN co)) :: co).
Proof using HG HP HB Hcall.
  intros Hcc Hct Hco F P ip w r al Hc H Hp Hn Hal. rewrite ex_cond. pose proof (hr_inv _ _ _ _ _ _ _ _ _ H) as I0.
  cbn [placed] in Hp. apply andb_prop in Hp as [Hp Hpo]. apply andb_prop in Hp as [Hpc Hpt].
  apply code_cons in Hc as [C0 Hc]. apply code_app in Hc as [C1 Hc]. apply code_cons in Hc as [C2 Hc].
  pose proof (code_app _ _ (It (IPopMany 2) :: ct) (It (IJumpForward (szN co)) :: co) Hc) as [C3 Hc'].
  apply code_cons in Hc' as [C4 C5]. clear Hc.
  destruct (push_none m hst opts gs bs G X L F P ip w r H C0) as (w1 & Hg & E1 & I1 & P1).
  eapply sim_goes; [exact Hg|]. rewrite <- E1.
  eapply sim_seq; [eapply (sim_expr m hst opts gs bs G builtins call n X L (fst c) cc F P _ w w1 r [VNone]); eauto; nmd|].
  intros x w2 (I2 & P2). cbn [app] in P2.
  eapply (sim_test m hst opts gs bs G P L F _ w w2 [VNone] x); [exact I0|exact I2|exact P2|exact C2|]. intros [|].
  - rewrite Nat.add_0_r. rewrite <- (seq_ret (block t r (w_st w2))).
    eapply sim_seq; [eapply (drop_block m hst opts gs bs G builtins call n X L t ct F P _ w w2 r al VNone x); eauto; nmd|]. intros y w3 (I3 & P3).
    eapply sim_step; [eapply goes_ip; [| |eapply i_jump; exact C4]|reflexivity|auto].
    + sz. cbn. lia.
    + unfold szN. rewrite Nat2N.id. sz. cbn. lia.
  - eapply sim_ip; [| |eapply (Hco F P _ w w2 r al x C5); eauto].
    + unfold szN. rewrite Nat2N.id. sz. cbn. lia.
    + sz. cbn. lia.
    + intros l ->. nmd.
Qed.
Lemma s_switch X L v cs d cv cc : Pexpr X L (fst v) cv -> Pcases X L cs d cc ->
  Pexpr X L (NSwitch v cs d) (It ILoadNone :: cv ++ cc).
Proof using HG HP HB Hcall.
  intros Hv Hcs F P ip w r al Hc H Hp Hn Hal. rewrite ex_switch. pose proof (hr_inv _ _ _ _ _ _ _ _ _ H) as I0.
  cbn [placed] in Hp. apply andb_prop in Hp as [Hp Hpd]. apply andb_prop in Hp as [Hpv Hpc].
  apply code_cons in Hc as [C0 Hc]. apply code_app in Hc as [C1 C2].
  destruct (push_none m hst opts gs bs G X L F P ip w r H C0) as (w1 & Hg & E1 & I1 & P1).
  eapply sim_goes; [exact Hg|]. rewrite <- E1.
  eapply sim_seq; [eapply (sim_expr m hst opts gs bs G builtins call n X L (fst v) cv F P _ w w1 r [VNone]); eauto; nmd|].
  intros x w2 (I2 & P2). cbn [app] in P2. eapply sim_ip; [| |eapply (Hcs F P _ w w2 r al x C2); eauto].
  - reflexivity.
  - sz. reflexivity.
  - rewrite Forall_forall. intros [e b] Hin. cbn [fst snd]. split.
    + eapply named_child; [exact Hn|]. right. apply in_or_app. left. apply in_flat_map. exists (e, b). split; [auto|left; auto].
    + rewrite Forall_forall. intros e' He. eapply named_child; [exact Hn|]. right. apply in_or_app. left.
      apply in_flat_map. exists (e, b). split; [auto|right; auto].
  - intros l ->. nmd.
Qed.
Lemma s_while X L c body cc cb : Pexpr X L (fst c) cc -> Pblock X L body cb ->
  Pexpr X L (NWhile c body)
      (It ILoadNone :: cc
       ++ It (IJumpIfFalse (szN (It (IPopMany 2) :: cb ++ [It (IJumpBackward 0)])))
       :: It (IPopMany 2) :: cb
       ++ It (IJumpBackward (szN (cc ++ It (IJumpIfFalse 0) :: It (IPopMany 2) :: cb) + 3))
       :: [It IPop]).
Proof using HG HP HB Hcall.
  intros Hcc Hcb F P ip w r al Hc H Hp Hn Hal. rewrite ex_while.
  cbn [placed] in Hp. apply andb_prop in Hp as [Hpc Hpb]. apply code_cons in Hc as [C0 Hc].
  destruct (push_none m hst opts gs bs G X L F P ip w r H C0) as (w1 & Hg & E1 & I1 & P1).
  eapply sim_goes; [exact Hg|]. rewrite <- E1. rewrite size_cons, Nat.add_assoc.
  eapply (sim_while m hst opts gs bs G orc builtins call n X F P L r w al (fst c) body cc cb _ Hcc Hcb H Hpc); auto; nmd.
Qed.

(** ** Loops over the items of a value *)
Lemma s_loop X L (it : nodeS) ci L1 b1 b2 body cb new pre F P ip w r (bind : sval -> sst -> out env) L2 :
  L1 = (temp_name (S (length L)), b2) :: (temp_name (length L), b1) :: L ->
  Pexpr X L1 (fst it) ci -> Pstmts X false L2 body cb (new ++ L1) ->
  code_at (k_fn F) ip (for_code ci (It ISwapPop :: pre) cb new b1 b2) -> here X F P L r w ->
  placed false (fst it) = true -> named (fst it) -> forallb (fun e => placed true (fst e)) body = true -> named_body body ->
  aligned P L w ->
  (forall v ip wb w', code_at (k_fn F) ip pre -> here X F P L1 r wb -> aligned P L1 wb -> Inv P L1 w' -> pushed wb [v] w' ->
     sim P n F ip w' (ip + size pre) (bind v (w_st w'))
       (fun r' w' => here X F P L2 r' w' /\ exists locs, length L2 = length L1 + length locs /\ grown wb w' (map Some locs))) ->
  sim P n F ip w (ip + size (for_code ci (It ISwapPop :: pre) cb new b1 b2))
    (seq (ex (fst it) r (w_st w)) (fun iv s =>
       for_ m n iv (fun v s => seq (bind v s) (fun r' s => block body r' s)) 0 VNone s))
    (fun v w' => Inv P L w' /\ pushed w [v] w').
Proof using HG HP HB Hcall.
  intros E1 Hit Hbody Hc H Hpi Hni Hpb Hnb Hal Hbind. pose proof (hr_inv _ _ _ _ _ _ _ _ _ H) as I0.
  assert (H1 : here X F P L1 r w) by (subst L1; apply here_temps; auto).
  pose proof (hr_inv _ _ _ _ _ _ _ _ _ H1) as J0.
  unfold for_code in Hc |- *. cbv zeta in Hc |- *.
  set (bd := (It ISwapPop :: pre) ++ cb ++ exit_code (map snd new)) in *.
  set (off := szN (bd ++ [It (IJumpBackward 0)])) in *.
  set (back := (szN (It (IIterNext 0) :: bd) + 3)%N) in *.
  apply code_cons in Hc as [C0 Hc]. apply code_app in Hc as [C1 Hc]. apply code_cons in Hc as [C2 Hc].
  apply code_cons in Hc as [C3 Hc]. apply code_app in Hc as [C4 Hc]. apply code_cons in Hc as [C5 C6].
  destruct (push_loop m hst opts gs bs G P L1 F ip w J0 C0) as (w1 & Hg1 & Es1 & J1 & P1).
  eapply sim_goes; [exact Hg1|]. rewrite <- Es1.
  eapply sim_seq; [eapply (sim_expr m hst opts gs bs G builtins call n X L1 (fst it) ci F P _ w w1 r [VLoopCtx 0]); eauto|].
  intros iv w2 (J2 & P2). cbn [app] in P2.
  destruct (push_none m hst opts gs bs G X L1 F P _ w2 r (here_pushed m gs G X F P L1 r w w2 _ H1 J2 P2) C2) as (w3 & Hg3 & Es3 & J3 & P3).
  eapply sim_goes; [exact Hg3|]. rewrite <- Es3.
  pose proof (pushed_trans m gs G P L1 P L1 w w2 w3 [VLoopCtx 0; iv] [VNone] J2 J3 P2 P3) as P03. cbn [app] in P03.
  unfold bd in C4. cbn [app] in C4. apply code_cons in C4 as [C7 C8]. apply code_app in C8 as [C8 C9].
  set (ip1 := ip +> INewLoopCtx + size ci +> ILoadNone) in *.
  rewrite <- (seq_ret (for_ m n iv _ 0 VNone (w_st w3))).
  eapply (sim_seq m hst opts gs bs G P n F ip1 w3 (ip1 +> IIterNext off + N.to_nat off)).
  - eapply (sim_for m hst opts gs bs G n P L1 F w iv _ ip1 (ip1 +> IIterNext off + size bd) off); eauto.
    + intros v wb w' Jb J' Gb Pb.
      assert (Hb : here X F P L1 r wb) by (eapply here_grown; eauto).
      assert (Ab : aligned P L1 wb).
      { unfold aligned in *. rewrite (grown_length m gs G _ _ _ _ _ _ _ J0 Jb Gb). subst L1. cbn. lia. }
      eapply sim_seq; [apply (Hbind v _ wb w' C8 Hb Ab J' Pb)|].
      intros r' w4 (H4 & locs & El & G4).
      eapply sim_ip; [reflexivity| |eapply (sim_body m hst opts gs bs G builtins call n X L1 L2 body cb new F P _ wb w4 r' true locs Hbody C9 Jb H4 G4 El Hpb Hnb)].
      * unfold bd. sz. lia.
      * auto.
      * discriminate.
    + intros M. eapply goes_ip; [reflexivity| |eapply i_jump_back; [exact C5|]].
      * unfold back, szN. rewrite N2Nat.inj_add, Nat2N.id, size_cons. change (N.to_nat 3) with 3. cbn. lia.
      * unfold back, szN. rewrite N2Nat.inj_add, Nat2N.id, size_cons. change (N.to_nat 3) with 3. cbn. lia.
  - intros v w4 (J4 & i & P4).
    assert (C6' : code_at (k_fn F) (ip1 +> IIterNext off + N.to_nat off)
       (exit_code (map snd [(temp_name (S (length L)), b2); (temp_name (length L), b1)]))).
    { match type of C6 with code_at _ ?a _ => replace (ip1 +> IIterNext off + N.to_nat off) with a; [exact C6|] end.
      unfold off, szN. rewrite Nat2N.id, size_app. cbn. lia. }
    destruct P4 as [G4 (t4 & ws4 & Et4 & Hf4)].
    inversion Hf4 as [|? y1 ? ? F1 K1]; subst. inversion K1 as [|? y2 ? ? F2 K2]; subst. inversion K2 as [|? y3 ? ? F3 K3]; subst. inversion K3; subst.
    assert (T4 : tops w4 [v]).
    { exists (t4 ++ [y1; y2]), [y3]. rewrite <- app_assoc. split; auto. }
    destruct (sim_exit m hst opts gs bs G P L [(temp_name (S (length L)), b2); (temp_name (length L), b1)] F _ w w4 [None; None] v P L I0
                (iv_base _ _ _ _ _ _ I0) (hr_base _ _ _ _ _ _ _ _ _ H) C6') as (j & w5 & Hg5 & Es5 & I5 & P5); auto.
    rewrite <- Es5. exists j, w5. split; [|auto].
    eapply goes_ip; [reflexivity| |exact Hg5]. unfold ip1, off, szN. rewrite Nat2N.id. cbn [map snd]. sz. cbn [item_bytes enc length app]. reflexivity.
Qed.
Lemma s_for X L x it body L1 b1 b2 b ci cb new :
  L1 = (temp_name (S (length L)), b2) :: (temp_name (length L), b1) :: L ->
  Pexpr X L1 (fst it) ci -> Pstmts X false ((fst x, b) :: L1) body cb (new ++ L1) ->
  Pexpr X L (NFor x it body) (for_code ci [It ISwapPop] cb new b1 b2).
Proof using HG HP HB Hcall.
  intros E1 Hit Hb F P ip w r al Hc H Hp Hn Hal. rewrite ex_for. cbn [placed] in Hp. apply andb_prop in Hp as [Ea Hp].
  apply andb_prop in Hp as [Hpi Hpb].
  eapply (s_loop X L it ci L1 b1 b2 body cb new [] F P ip w r (fun v s => bind_var (VarDecl x) v r s) ((fst x, b) :: L1)); eauto; try nmd.
  intros v ip0 wb w' _ Hh Ha I' Pw. cbn [bind_var]. rewrite size_nil, Nat.add_0_r.
  destruct (bind_top m gs G X F P L1 r wb w' [(fst x, v)] [(fst x, b)] Hh I' Pw Ha eq_refl) as (w2 & locs & K1 & K2 & K3 & K4 & K5).
  destruct (bind_all [(fst x, v)] r (w_st w')) as [r' s'] eqn:Eb. cbn [fst snd] in *.
  exists 0, w2. rewrite K2. split; [apply goes_0|]. split; [auto|]. split; [exact K1|]. exists locs. split; auto. cbn in *. lia.
Qed.
Lemma s_mfor X L xs it body L1 b1 b2 ci cb new0 new :
  L1 = (temp_name (S (length L)), b2) :: (temp_name (length L), b1) :: L -> length xs <= 255 ->
  Pexpr X L1 (fst it) ci -> map fst new0 = map fst xs -> Pstmts X false (new0 ++ L1) body cb (new ++ L1) ->
  Pexpr X L (NMultiFor xs it body) (for_code ci [It ISwapPop; It (IUnpack (len xs))] cb new b1 b2).
Proof using HG HP HB Hcall.
  intros E1 Hl Hit Hm Hb F P ip w r al Hc H Hp Hn Hal. rewrite ex_mfor. cbn [placed] in Hp. apply andb_prop in Hp as [Ea Hp].
  apply andb_prop in Hp as [Hpi Hpb].
  eapply (s_loop X L it ci L1 b1 b2 body cb new [It (IUnpack (len xs))] F P ip w r (fun v s => bind_var (VarMulti xs) v r s) (new0 ++ L1)); eauto; try nmd.
  intros v ip0 wb w' C Hh Ha I' Pw. eapply (sim_bind m hst opts gs bs G X F P L1 r wb w' ip0 n v (VarMulti xs)); eauto. constructor; auto.
Qed.

(** ** Contexts *)
Lemma bind_var_not v x r s v' s' : bind_var (D:=D) v x r s <> Returned v' s'.
Proof using HG HP HB Hcall.
  destruct v; cbn [bind_var]; [destruct (bind_all _ r s); discriminate|].
  destruct (v_unpack sfi (N.of_nat (length names)) x); cbn [lift seq]; try discriminate. destruct (bind_all _ r s). discriminate.
Qed.
Lemma run_sbfn_not f vs s v' s' : run_sbfn (D:=D) opts f vs s <> Returned v' s'.
Proof using HG HP HB Hcall. unfold run_sbfn. destruct (f _ _ _) as [d [| |]]; discriminate. Qed.

Lemma sim_entry P L F ip w0 w vs f f' x x' b k : Inv P L w0 -> Inv P L w -> pushed w0 vs w -> same_fn f f' ->
  alookup N.eqb b bs = Some (BContext f' x') -> (forall d, x d = x' d) -> N.to_nat k = length vs -> code_at (k_fn F) ip [It (IEnterContext b k)] ->
  simx m hst opts gs bs G n F ip w (with_exits F (x' :: k_exits F)) (ip +> IEnterContext b k) (run_sbfn opts f vs (w_st w)) (fun v w' => Inv P L w' /\ pushed w0 [v] w').
Proof using HG HP HB Hcall.
  intros I0 I1 Hp Hs Hb _ Hk Hc. destruct (pushed_split m gs G _ _ _ _ _ _ _ I0 I1 Hp) as (t & ws & Et & Hf & Lt & Lt').
  destruct (run_same m opts gs G f f' _ vs ws P L w Hs I1 eq_refl Hf) as (d & r & r' & E1 & E2 & Hr). unfold run_sbfn. rewrite E1.
  rewrite (f2_length _ _ _ Hf) in Hk.
  pose proof (i_enter m hst opts gs bs F ip t (m_gl (w_mov w)) (m_heap (w_mov w)) (m_data (w_mov w)) b k ws f' x' Hc Hk Hb) as Hi.
  rewrite E2, <- (mov_top w t ws Et) in Hi.
  destruct r as [v|e|]; cbn [lift]; [| |exact Logic.I]; destruct r' as [y|e'|]; cbn in Hr; try contradiction.
  - destruct (replace_top m gs G P L P L w0 w vs t ws [v] [y] d I0) as [I' P']; auto.
    { apply (iv_base _ _ _ _ _ _ I0). }
    exists 1, (retop w0 w t [y] d). split; [exact Hi|]. auto.
  - subst e'. exists (m_gl (w_mov w)), (w_cv w). split; [exact Hi|]. apply (iv_glob _ _ _ _ _ _ I1).
Qed.
Lemma sim_leave P L F ip w0 w vs x x' : Inv P L w -> pushed w0 vs w -> (forall d, x d = x' d) -> code_at (k_fn F) ip [It IExitContext] ->
  simx m hst opts gs bs G n (with_exits F (x' :: k_exits F)) ip w F (ip +> IExitContext) (run_exit x (w_st w)) (fun _ w' => Inv P L w' /\ pushed w0 vs w').
Proof using HG HP HB Hcall.
  intros I1 Hp Hx Hc. unfold run_exit. rewrite Hx, (iv_data _ _ _ _ _ _ I1).
  pose proof (i_exit m hst opts gs bs (with_exits F (x' :: k_exits F)) ip (stk w) (m_gl (w_mov w)) (m_heap (w_mov w)) (m_data (w_mov w)) x' (k_exits F) Hc eq_refl) as Hi.
  rewrite mov_eta in Hi. destruct (x' (m_data (w_mov w))) as [d [[]|e|]]; cbn [lift]; [| |exact Logic.I].
  - pose proof (inv_data m gs G P L w d I1) as I2. match type of I2 with ProofSim5.Inv _ _ _ _ _ ?z => exists 1, z end.
    split; [|split; [reflexivity|split; [exact I2|eapply pushed_same; [| | |exact Hp]; reflexivity]]].
    replace F with (with_exits (with_exits F (x' :: k_exits F)) (k_exits F)) at 2 by (destruct F; reflexivity). exact Hi.
  - exists (m_gl (w_mov w)), (w_cv w). split; [exact Hi|]. apply (iv_glob _ _ _ _ _ _ I1).
Qed.

Lemma s_context X L x args v body ca g cv L1 cb new :
  Plist X L args ca -> nth_error (x_globals X) g = Some (fst x) -> code_var L v cv L1 -> Pstmts X false L1 body cb (new ++ L) ->
  Pexpr X L (NContext x args v body)
      (ca ++ [It (IEnterContext (N.of_nat g) (len args))] ++ cv ++ cb ++ exit_code (map snd new) ++ [It IExitContext]).
Proof using HG HP HB Hcall.
  intros Ha Hx Hv Hb F P ip w r al Hc H Hp Hn Hal. rewrite ex_context.
  pose proof (hr_inv _ _ _ _ _ _ _ _ _ H) as I0. rewrite (hr_globals _ _ _ _ _ _ _ _ _ H) in Hx.
  cbn [placed] in Hp. apply andb_prop in Hp as [Hp Hpv]. apply andb_prop in Hp as [Hpa Hpb].
  apply code_app in Hc as [C1 Hc]. apply code_app in Hc as [C2 Hc]. apply code_app in Hc as [C3 Hc]. rewrite app_assoc in Hc. apply code_app in Hc as [C4 C5].
  eapply sim_seq; [apply (Ha F P ip w r al C1 H Hpa); [nmd|exact Hal]|]. intros vs w1 (I1 & P1 & Lv).
  pose proof (HB g (fst x) Hx) as Hsb. pose proof (glob_get gs G HG HP (fst x) g Hx) as Hpg.
  destruct (builtins (fst x)) as [[f|en exi]|] eqn:E1; [exact Logic.I| |].
  2: { destruct (alookup N.eqb (N.of_nat g) bs) eqn:E2; [contradiction|]. eapply sim_err; [exact I1|]. eapply i_enter_none; eauto. }
  destruct (alookup N.eqb (N.of_nat g) bs) as [[f'|en' exi']|] eqn:E2; cbn in Hsb; try contradiction. destruct Hsb as [Hs1 Hs2].
  set (F1 := with_exits F (exi' :: k_exits F)).
  assert (HF1 : here X F1 P L r w) by (apply here_exits; auto).
  apply simx_sim. eapply simx_seq.
  { eapply (sim_entry P L F _ w w1 vs en en' exi exi'); eauto. unfold len. rewrite Nat2N.id. auto. }
  intros y w2 (I2 & P2). fold F1.
  assert (Hbind : simx m hst opts gs bs G n F1 (ip + size ca +> IEnterContext (N.of_nat g) (len args)) w2 F1
     (ip + size ca +> IEnterContext (N.of_nat g) (len args) + size cv)
     (match v with Some v => bind_var v y r (w_st w2) | None => Got r (w_st w2) end)
     (fun r' w' => here X F1 P L1 r' w' /\ exists locs, length L1 = length L + length locs /\ grown w w' (map Some locs) /\ (al = false -> locs = []))).
  { rewrite size_cons, size_nil, Nat.add_0_r in C3. destruct v as [v|].
    - assert (Ea : al = true) by auto.
      eapply sim_simx; [eapply sim_post; [eapply (sim_bind m hst opts gs bs G X F1 P L r w w2 _ n y v cv L1); eauto|]|apply bind_var_not].
      intros r' w' (K1 & locs & K2 & K3). split; auto. exists locs. split; auto. split; auto. rewrite Ea. discriminate.
    - inversion Hv; subst. rewrite size_cons, size_nil, Nat.add_0_r.
      destruct (sim_pop m hst opts gs bs G P L1 F1 _ w w2 [] y I0 I2 P2 C3) as (w3 & Hg3 & E3 & I3 & P3).
      exists 1, w3. split; [exact Hg3|]. split; [auto|]. split; [exact (here_pushed m gs G X F1 P L1 r w w3 [] HF1 I3 P3)|].
      exists []. split; [cbn; lia|]. split; [apply P3|auto]. }
  eapply simx_seq; [exact Hbind|]. intros r' w3 (H3 & locs & K1 & K2 & K3).
  rewrite size_cons, size_nil, Nat.add_0_r in C4, C5.
  assert (Hbody := sim_body m hst opts gs bs G builtins call n X L L1 body cb new F1 P _ w w3 r' al locs Hb C4 I0 H3 K2 K1 Hpb ltac:(nmd) Hal K3).
  apply sim_guard in Hbody.
  assert (Hend : simx m hst opts gs bs G n F1 (ip + size ca +> IEnterContext (N.of_nat g) (len args) + size cv) w3 F
     (ip + size ca +> IEnterContext (N.of_nat g) (len args) + size cv + size (cb ++ exit_code (map snd new)) +> IExitContext)
     (seq (guard (block body r' (w_st w3))) (fun res s => seq (run_exit exi s) (fun _ s => Got res s)))
     (fun v w' => Inv P L w' /\ pushed w [v] w')).
  { eapply simx_seq; [exact Hbody|]. intros res w4 (I4 & P4). eapply simx_seq; [eapply (sim_leave P L F _ w w4 [res] exi exi'); eauto|].
    intros _ w5 (I5 & P5). exists 0, w5. split; [apply goes_0|auto]. }
  match goal with |- simx _ _ _ _ _ _ _ _ _ _ _ ?a ?o _ => match type of Hend with simx _ _ _ _ _ _ _ _ _ _ _ ?b _ _ => replace a with b end end.
  - destruct (block body r' (w_st w3)); exact Hend.
  - sz. cbn [app]. sz. reflexivity.
Qed.
End Sim.
