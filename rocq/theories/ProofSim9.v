(** Compiled code does what the direct evaluation says: the parts of the proof that
    concern one construct each. *)
From Verif Require Import Base RleVec Pool Vecc Float NumText Bytecode Chunk Value Ast Arith VmOps
                          Compiler Vm Items CodeRel SpecParse SpecReady SpecRel SpecEval ProofVars ProofRel ProofCode6 ProofSim1
                          ProofSim2 ProofSim3 ProofSim4 ProofSim5 ProofSim6 ProofSim7 ProofSim8.

Definition noerr {A} (r : res A) : Prop := match r with Err _ => False | _ => True end.
Lemma noerr_bind {A B} (r : res A) (k : A -> res B) : noerr r -> (forall a, noerr (k a)) -> noerr (rbind r k).
Proof. destruct r; cbn; auto. Qed.
Lemma noerr_geqb : forall a b, noerr (geqb sfn_eq a b).
Proof.
  intros a. induction a using gvalue_rect'; intros w; destruct w; cbn [geqb]; try exact Logic.I.
  - destruct (length l =? length data); [|exact Logic.I].
    revert data. induction H as [|x l Hx Hl IH]; intros [|y data]; try exact Logic.I.
    apply noerr_bind; auto. intros [|]; [apply IH|exact Logic.I].
  - apply noerr_bind; auto. intros [|]; auto. exact Logic.I.
Qed.
Lemma geqb_noerr a b e : geqb sfn_eq a b <> Err e.
Proof. intros E. pose proof (noerr_geqb a b) as H. rewrite E in H. exact H. Qed.

Lemma fold_value m (fi : fn_info sfn) o nd lit : fold_unary m o nd = Some (Ok lit) ->
  exists l f, nd = NLiteral l /\ unary_fn m fi o = Some f /\ f (lit_value l) = Ok (lit_value lit).
Proof.
  destruct o; cbn [fold_unary]; try discriminate; destruct nd; try discriminate;
    match goal with |- context [NLiteral ?x] => destruct x end; try discriminate.
  all: try (intros [= <-]; eexists _, _; split; [reflexivity|]; split; reflexivity).
  match goal with |- context [ov64 m (- ?z)] => destruct (ov64 m (- z)) as [y| |] eqn:E end; try discriminate. intros [= <-].
  eexists _, _. split; [reflexivity|]. split; [reflexivity|]. cbn. rewrite E. reflexivity.
Qed.

Lemma seq_ret {D A} (x : out (D:=D) A) : seq x (fun v s => Got v s) = x.
Proof. destruct x; reflexivity. Qed.

Section Sim.
Context {D : Type} (m : mode) (hst : host D) (opts : options) (gs : pool rstring)
        (bs : list (N * builtin D)) (G : list rstring).
Notation goes := (goes m hst opts gs bs).
Notation failing := (failing m hst opts gs bs).
Notation finishes := (finishes m hst opts gs bs).
Notation lasts := (lasts m hst opts gs bs).
Notation leads := (leads m hst opts gs bs).
Notation "ip '+>' i" := (ip + length (item_bytes (It i))) (at level 50).
Notation vr := (vr m G).
Notation mem := (mem m G).
Notation sst := (@sst D).
Notation Inv := (Inv m gs G).
Notation here := (here m gs G).
Notation pushed := (pushed m G).
Notation tops := (tops m G).
Notation sim := (sim m hst opts gs bs G).
Notation globs := (globs m gs G).
Implicit Types (F : @fixed D) (w : @world D).
Context (builtins : rstring -> option (sbuiltin (D:=D))).
Context (call : sfn -> list sval -> sst -> out (D:=D) sval) (n : nat).
Notation orc := (h_oracle hst).
Notation ev := (ev m orc opts builtins call n).
Notation ex := (ex m orc opts builtins call n).
Notation Pexpr := (Pexpr m hst opts gs bs G orc builtins call n).
Notation Plist := (Plist m hst opts gs bs G orc builtins call n).
Notation Pstmt := (Pstmt m hst opts gs bs G orc builtins call n).
Notation Pstmts := (Pstmts m hst opts gs bs G orc builtins call n).
Notation Ppops := (Ppops m hst opts gs bs G orc builtins call n).
Notation Pblock := (Pblock m hst opts gs bs G orc builtins call n).
Notation Pelse := (Pelse m hst opts gs bs G orc builtins call n).
Notation Pcases := (Pcases m hst opts gs bs G orc builtins call n).
Notation post := (post m gs G).
Notation block := (block_with (ev false)).
Notation named := (@named ordinary_name).

(** ** Code that changes what else is fixed *)
Definition simx {A} F (ip : nat) w F' (ip' : nat) (o : out (D:=D) A) (Q : A -> world -> Prop) : Prop :=
  match o with
  | Got a s => exists k w', goes k (F, ip, w_mov w) (F', ip', w_mov w') /\ w_st w' = s /\ Q a w'
  | Returned v s => False
  | Failed e s => exists gl cv, failing (F, ip, w_mov w) e (ss_data s) gl /\ globs cv s gl
  | Unspecified => True
  | More => lasts n (F, ip, w_mov w)
  end.
Lemma simx_sim {A} P F ip w ip' (o : out A) Q : simx F ip w F ip' o Q -> sim P n F ip w ip' o Q.
Proof using. destruct o; cbn; auto. contradiction. Qed.
Lemma sim_simx {A} P F ip w ip' (o : out A) Q : sim P n F ip w ip' o Q -> (forall v s, o <> Returned v s) -> simx F ip w F ip' o Q.
Proof using. destruct o; cbn; auto. intros _ H. exact (H _ _ eq_refl). Qed.
Lemma simx_goes {A} k F ip w F1 ip1 w1 F' ip' (o : out A) Q :
  goes k (F, ip, w_mov w) (F1, ip1, w_mov w1) -> simx F1 ip1 w1 F' ip' o Q -> simx F ip w F' ip' o Q.
Proof using.
  intros Hg. destruct o; cbn; auto.
  - intros (j & w' & H & R). exists (k + j), w'. split; auto. eapply goes_trans; eauto.
  - intros (gl & cv & H & R). exists gl, cv. split; auto. eapply goes_fails; eauto.
  - intros H. eapply lasts_le; [|eapply goes_lasts; eauto]. lia.
Qed.
Lemma simx_seq {A B} F ip w F1 ip1 F' ip' (x : out A) (k : A -> sst -> out B) Q1 Q :
  simx F ip w F1 ip1 x Q1 -> (forall a w1, Q1 a w1 -> simx F1 ip1 w1 F' ip' (k a (w_st w1)) Q) ->
  simx F ip w F' ip' (seq x k) Q.
Proof using.
  destruct x; cbn [seq]; auto. intros (j & w' & H & <- & HQ) Hk. eapply simx_goes; eauto.
Qed.
Definition guard (o : out (D:=D) sval) : out sval :=
  match o with Returned _ _ => Unspecified | x => x end.
Lemma sim_guard P F ip w ip' o Q : sim P n F ip w ip' o Q -> simx F ip w F ip' (guard o) Q.
Proof using. destruct o; cbn; auto. Qed.

(** ** Parts *)
Lemma sim_expr X L a ca F P ip w0 w r vs : Pexpr X L a ca -> code_at (k_fn F) ip ca ->
  here X F P L r w0 -> Inv P L w -> pushed w0 vs w -> placed false a = true -> named a ->
  sim P n F ip w (ip + size ca) (ex a r (w_st w)) (fun v w' => Inv P L w' /\ pushed w0 (vs ++ [v]) w').
Proof using.
  intros H Hc H0 I1 Hp Hpl Hn. eapply sim_post; [apply (H F P ip w r false Hc); auto|].
  - exact (here_pushed m gs G X F P L r w0 w vs H0 I1 Hp).
  - discriminate.
  - intros v w' (I2 & P2). split; auto. exact (pushed_trans m gs G P L P L w0 w w' vs [v] I1 I2 Hp P2).
Qed.
Lemma sim_two {A} X L a b ca cb F P ip w r al ip' (k : sval -> sval -> sst -> out A) Q :
  Pexpr X L a ca -> Pexpr X L b cb -> code_at (k_fn F) ip ca -> code_at (k_fn F) (ip + size ca) cb ->
  here X F P L r w -> placed al a && placed false b = true -> named a -> named b -> (al = true -> aligned P L w) ->
  (forall x y w', Inv P L w' -> pushed w [x; y] w' ->
     sim P n F (ip + size ca + size cb) w' ip' (k x y (w_st w')) Q) ->
  sim P n F ip w ip' (seq (ex a r (w_st w)) (fun x s => seq (ex b r s) (fun y s => k x y s))) Q.
Proof using.
  intros Ha Hb C1 C2 H Hpl Na Nb Hal K. apply andb_prop in Hpl as [Pa Pb].
  eapply sim_seq; [apply (Ha F P ip w r al); auto|]. intros x w1 (I1 & P1).
  eapply sim_seq; [eapply (sim_expr X L b cb F P _ w w1 r [x]); eauto|]. intros y w2 (I2 & P2). apply K; auto.
Qed.

Lemma grown_length P L P' L' w w' add : Inv P L w -> Inv P' L' w' -> grown w w' add ->
  length (stk w') = length (stk w) + length add.
Proof using.
  intros I I' Hg. rewrite <- (iv_len _ _ _ _ _ _ I), <- (iv_len _ _ _ _ _ _ I'), (gw_sh _ _ _ Hg), app_length. auto.
Qed.

(** The statements of a body and the end of its scope. *)
Lemma sim_body X L L1 body cb new F P ip w0 w1 r al locs : Pstmts X false L1 body cb (new ++ L) ->
  code_at (k_fn F) ip (cb ++ exit_code (map snd new)) -> Inv P L w0 -> here X F P L1 r w1 ->
  grown w0 w1 (map Some locs) -> length L1 = length L + length locs ->
  forallb (fun e => placed al (fst e)) body = true -> Forall (fun e => named (fst e)) body ->
  (al = true -> aligned P L w0) -> (al = false -> locs = []) ->
  sim P n F ip w1 (ip + size (cb ++ exit_code (map snd new))) (block body r (w_st w1))
      (fun v w' => Inv P L w' /\ pushed w0 [v] w').
Proof using.
  intros H Hc I0 H1 Hg Hl Hp Hn Hal Hlo. apply code_app in Hc as [C1 C2].
  pose proof (hr_inv _ _ _ _ _ _ _ _ _ H1) as I1. unfold block_with. rewrite size_app, Nat.add_assoc.
  eapply sim_seq; [apply (H F P ip w1 r al); auto|].
  { intros Ea. specialize (Hal Ea). unfold aligned in *. rewrite (grown_length _ _ _ _ _ _ _ I0 I1 Hg), map_length. lia. }
  intros [[v|] r'] w2 (K1 & locs2 & K2 & K3 & K4); [|exact Logic.I]. cbn [fst snd the_value] in *.
  destruct K4 as [K4 K5]. pose proof (hr_inv _ _ _ _ _ _ _ _ _ K1) as I2.
  pose proof (grown_trans _ _ _ _ _ Hg K4) as G02. rewrite app_assoc, <- map_app in G02.
  rewrite app_length in K2.
  destruct (sim_exit m hst opts gs bs G P L new F _ w0 w2 (map Some (locs ++ locs2)) v P L I0 (iv_base _ _ _ _ _ _ I0)
              (hr_base _ _ _ _ _ _ _ _ _ H1) C2 I2 G02) as (j & w3 & Hgo & E3 & I3 & P3); auto.
  { rewrite map_length, app_length. lia. }
  { intros Hnew. destruct al; [apply Hal; auto|]. rewrite K3 in K2 by auto. rewrite Hlo in Hl by auto. cbn in K2, Hl.
    destruct new; [contradiction|]. cbn in K2. lia. }
  rewrite <- E3. exists j, w3. auto.
Qed.

Section Names.
Hypothesis HG : forall g x, nth_error G g = Some x -> pool_id seqb gs x = Some (N.of_nat g).
Hypothesis HP : forall g x, pool_id seqb gs x = Some g -> pool_get gs g = Some x.
Hypothesis HB : forall g x, nth_error G g = Some x -> same_builtin (builtins x) (alookup N.eqb (N.of_nat g) bs).
Hypothesis Hcall : call_ok m hst opts gs bs G n call.

Ltac sz := repeat rewrite ?size_app, ?size_cons, ?size_nil, ?Nat.add_assoc, ?Nat.add_0_r.
Ltac hin := cbn [children opt_list flat_map]; repeat first [progress cbn [In] | rewrite in_app_iff]; auto 6.
Ltac nmd := match goal with
  | H : named ?nd |- named (fst ?e) => eapply (named_child nd e H); hin
  | H : named ?nd |- Forall _ ?l => rewrite Forall_forall; intros ? ?; eapply (named_child nd _ H); hin
  end.

(** ** Plain expressions *)
Lemma e_const X L F P ip w r l off : here X F P L r w -> code_at (k_fn F) ip [It (ILoadConst (N.of_nat off))] ->
  nth_error (x_consts X) off = Some (literal_to_value l) ->
  sim P n F ip w (ip + size [It (ILoadConst (N.of_nat off))]) (Got (lit_value l) (w_st w))
      (fun v w' => Inv P L w' /\ pushed w [v] w').
Proof using.
  intros H Hc Hn. sz. eapply (sim_push m hst opts gs bs G P L F ip w _ n _ (literal_to_value l)).
  - apply (hr_inv _ _ _ _ _ _ _ _ _ H).
  - apply lit_rel. intros []; reflexivity.
  - apply i_const; auto. rewrite Nat2N.id, <- (hr_consts _ _ _ _ _ _ _ _ _ H). auto.
Qed.
Lemma s_literal X L l off : nth_error (x_consts X) off = Some (literal_to_value l) ->
  Pexpr X L (NLiteral l) [It (ILoadConst (N.of_nat off))].
Proof using. intros Hn F P ip w r al Hc H _ _ _. rewrite ex_literal. eapply e_const; eauto. Qed.
Lemma s_fold X L o a lit off : fold_unary m o (fst a) = Some (Ok lit) ->
  nth_error (x_consts X) off = Some (literal_to_value lit) -> Pexpr X L (NUnary o a) [It (ILoadConst (N.of_nat off))].
Proof using.
  intros Hf Hn F P ip w r al Hc H _ _ _. rewrite ex_unary. destruct (fold_value m sfi o (fst a) lit Hf) as (l & f & E1 & E2 & E3).
  rewrite E1, ex_literal. cbn [seq]. rewrite E2, E3. cbn [lift]. eapply e_const; eauto.
Qed.
Lemma s_none X L : Pexpr X L (NLiteral LNone) [It ILoadNone].
Proof using.
  intros F P ip w r al Hc H _ _ _. rewrite ex_literal. sz.
  eapply (sim_push m hst opts gs bs G P L F ip w _ n _ VNone).
  - apply (hr_inv _ _ _ _ _ _ _ _ _ H).
  - constructor.
  - apply i_none; auto.
Qed.
(** A value pushed by one instruction. *)
Lemma push_none X L F P ip w r : here X F P L r w -> code_at (k_fn F) ip [It ILoadNone] ->
  exists w', goes 1 (F, ip, w_mov w) (F, ip +> ILoadNone, w_mov w') /\ w_st w' = w_st w /\ Inv P L w' /\ pushed w [VNone] w'.
Proof using.
  intros H Hc. pose proof (hr_inv _ _ _ _ _ _ _ _ _ H) as I0.
  destruct (push_world m gs G P L w VNone VNone I0 (gr_none _)) as [I1 P1]. exists (pushw w VNone). split; [|auto].
  pose proof (i_none m hst opts gs bs F ip (stk w) (m_gl (w_mov w)) (m_heap (w_mov w)) (m_data (w_mov w)) Hc) as Hi.
  rewrite mov_eta in Hi. exact Hi.
Qed.
Lemma push_loop P L F ip w : Inv P L w -> code_at (k_fn F) ip [It INewLoopCtx] ->
  exists w', goes 1 (F, ip, w_mov w) (F, ip +> INewLoopCtx, w_mov w') /\ w_st w' = w_st w /\ Inv P L w' /\ pushed w [VLoopCtx 0] w'.
Proof using.
  intros I0 Hc.
  destruct (push_world m gs G P L w (VLoopCtx 0) (VLoopCtx 0) I0 (gr_loop _ 0)) as [I1 P1]. exists (pushw w (VLoopCtx 0)). split; [|auto].
  pose proof (i_loop m hst opts gs bs F ip (stk w) (m_gl (w_mov w)) (m_heap (w_mov w)) (m_data (w_mov w)) Hc) as Hi.
  rewrite mov_eta in Hi. exact Hi.
Qed.

Lemma s_pair X L a b ca cb : Pexpr X L (fst a) ca -> Pexpr X L (fst b) cb ->
  Pexpr X L (NPair a b) (ca ++ cb ++ [It ICreatePair]).
Proof using.
  intros Ha Hb F P ip w r al Hc H Hp Hn Hal. rewrite ex_pair. sz. apply code_app in Hc as [C1 Hc]. apply code_app in Hc as [C2 C3].
  pose proof (hr_inv _ _ _ _ _ _ _ _ _ H) as I0.
  eapply sim_two; [exact Ha|exact Hb|exact C1|exact C2|exact H|exact Hp|nmd|nmd|exact Hal|].
  intros x y w' I1 P1. apply (sim_top m hst opts gs bs G P L F _ w w' _ n [x; y] (Ok (VPair x y)) I0 I1 P1).
  intros t ws Hf. inversion Hf as [|? x' ? ? Hx Hf1]; subst. inversion Hf1 as [|? y' ? ? Hy Hf2]; subst. inversion Hf2; subst.
  exists (Ok (VPair x' y')). split; [constructor; auto|]. apply i_pair. auto.
Qed.
Lemma s_range X L a b ca cb : Pexpr X L (fst a) ca -> Pexpr X L (fst b) cb ->
  Pexpr X L (NRange a b) (ca ++ cb ++ [It ICreateRange]).
Proof using.
  intros Ha Hb F P ip w r al Hc H Hp Hn Hal. rewrite ex_range. sz. apply code_app in Hc as [C1 Hc]. apply code_app in Hc as [C2 C3].
  pose proof (hr_inv _ _ _ _ _ _ _ _ _ H) as I0.
  eapply sim_two; [exact Ha|exact Hb|exact C1|exact C2|exact H|exact Hp|nmd|nmd|exact Hal|].
  intros x y w' I1 P1. apply (sim_top m hst opts gs bs G P L F _ w w' _ n [x; y] _ I0 I1 P1).
  intros t ws Hf. inversion Hf as [|? x' ? ? Hx Hf1]; subst. inversion Hf1 as [|? y' ? ? Hy Hf2]; subst. inversion Hf2; subst.
  exists (v_range mfi x' y'). split; [apply range_rel; auto; apply info|]. apply i_range. auto.
Qed.
Lemma s_index X L t i ct ci : Pexpr X L (fst i) ci -> Pexpr X L (fst t) ct ->
  Pexpr X L (NIndexGet t i) (ci ++ ct ++ [It IIndexGet]).
Proof using.
  intros Ha Hb F P ip w r al Hc H Hp Hn Hal. rewrite ex_index. sz. apply code_app in Hc as [C1 Hc]. apply code_app in Hc as [C2 C3].
  pose proof (hr_inv _ _ _ _ _ _ _ _ _ H) as I0.
  eapply sim_two; [exact Ha|exact Hb|exact C1|exact C2|exact H|exact Hp|nmd|nmd|exact Hal|].
  intros x y w' I1 P1. apply (sim_top m hst opts gs bs G P L F _ w w' _ n [x; y] _ I0 I1 P1).
  intros t0 ws Hf. inversion Hf as [|? x' ? ? Hx Hf1]; subst. inversion Hf1 as [|? y' ? ? Hy Hf2]; subst. inversion Hf2; subst.
  exists (v_index m mfi x' y'). split; [apply index_rel; auto; apply info|]. apply i_index. auto.
Qed.
Lemma s_binary X L o a b ca cb : Pexpr X L (fst a) ca -> Pexpr X L (fst b) cb ->
  Pexpr X L (NBinary o a b) (ca ++ cb ++ [It (IBinary o)]).
Proof using.
  intros Ha Hb F P ip w r al Hc H Hp Hn Hal. rewrite ex_binary. sz. apply code_app in Hc as [C1 Hc]. apply code_app in Hc as [C2 C3].
  pose proof (hr_inv _ _ _ _ _ _ _ _ _ H) as I0.
  eapply sim_two; [exact Ha|exact Hb|exact C1|exact C2|exact H|exact Hp|nmd|nmd|exact Hal|].
  intros x y w' I1 P1.
  destruct (binary_fn m orc sfi sfn_eq (o_string_max opts) (o_array_max opts) o) as [f|] eqn:Ef; [|exact Logic.I].
  apply (sim_top m hst opts gs bs G P L F _ w w' _ n [x; y] _ I0 I1 P1).
  intros t ws Hf. inversion Hf as [|? x' ? ? Hx Hf1]; subst. inversion Hf1 as [|? y' ? ? Hy Hf2]; subst. inversion Hf2; subst.
  destruct (binary_rel (fn_rel m G (w_cv w')) m orc sfi mfi sfn_eq (fn_eq (h_depth hst) (m_heap (w_mov w'))) (o_string_max opts) (o_array_max opts)
              (info m G _) (eq_open m G _ _) o f Ef) as (g & Eg & Hr).
  exists (g x' y'). split; [apply Hr; auto|]. apply i_binary; auto.
Qed.
Lemma s_unary X L o a ca : Pexpr X L (fst a) ca -> Pexpr X L (NUnary o a) (ca ++ [It (IUnary o)]).
Proof using.
  intros Ha F P ip w r al Hc H Hp Hn Hal. rewrite ex_unary. sz. apply code_app in Hc as [C1 C2].
  pose proof (hr_inv _ _ _ _ _ _ _ _ _ H) as I0.
  eapply sim_seq; [apply (Ha F P ip w r al C1 H Hp); [nmd|exact Hal]|]. intros x w' (I1 & P1).
  destruct (unary_fn m sfi o) as [f|] eqn:Ef; [|exact Logic.I].
  apply (sim_top m hst opts gs bs G P L F _ w w' _ n [x] _ I0 I1 P1).
  intros t ws Hf. inversion Hf as [|? x' ? ? Hx Hf1]; subst. inversion Hf1; subst.
  destruct (unary_rel (fn_rel m G (w_cv w')) m sfi mfi (info m G _) o f Ef) as (g & Eg & Hr).
  exists (g x'). split; [apply Hr; auto|]. apply i_unary; auto.
Qed.
Lemma s_array X L items c : Plist X L (rev items) c -> Pexpr X L (NArray items) (c ++ [It (ICreateArray (len items))]).
Proof using.
  intros Ha F P ip w r al Hc H Hp Hn Hal. rewrite ex_array. sz. apply code_app in Hc as [C1 C2].
  pose proof (hr_inv _ _ _ _ _ _ _ _ _ H) as I0. rewrite placed_array in Hp.
  eapply sim_seq; [apply (Ha F P ip w r al C1 H Hp); [|exact Hal]|].
  { rewrite Forall_forall. intros e He. eapply named_child; [exact Hn|]. apply in_rev. auto. }
  intros vs w' (I1 & P1 & Lv).
  apply (sim_top m hst opts gs bs G P L F _ w w' _ n vs _ I0 I1 P1).
  intros t ws Hf. exists (v_array (o_array_max opts) (rev ws)). split; [apply array_rel; apply f2_rev; auto|].
  rewrite <- (rev_involutive ws) at 1. apply i_array; auto.
  rewrite rev_length, <- (f2_length _ _ _ Hf), Lv, rev_length. unfold len. rewrite Nat2N.id. auto.
Qed.
Lemma s_ident X L x rf : resolves X L x rf -> Pexpr X L (NIdentifier x) [It (get_instr rf)].
Proof using HG HP.
  intros Hr F P ip w r al Hc H Hp Hn Hal. rewrite ex_ident. sz. eapply sim_read; eauto. exact (named_self _ Hn).
Qed.
Lemma s_assign X L x v c rf : Pexpr X L (fst v) c -> resolves X L (fst x) rf ->
  Pexpr X L (NAssignment x v) (c ++ [It (set_instr rf)]).
Proof using HG HP.
  intros Ha Hr F P ip w r al Hc H Hp Hn Hal. rewrite ex_assign. sz. apply code_app in Hc as [C1 C2].
  pose proof (hr_inv _ _ _ _ _ _ _ _ _ H) as I0.
  eapply sim_seq; [apply (Ha F P ip w r al C1 H Hp); [nmd|exact Hal]|]. intros y w' (I1 & P1).
  eapply (sim_write m hst opts gs bs G HG HP X F P L r w w'); eauto.
  - apply (iv_base _ _ _ _ _ _ I0).
  - eapply here_pushed; eauto.
  - exact (named_self _ Hn).
Qed.
Lemma s_lambda X L args body off f caps : nth_error (x_consts X) off = Some (VFn (MFun f)) ->
  @code_fun m ordinary_name X L lambda_name (map fst args) body f caps -> Pexpr X L (NLambda args body) [make_fun off caps].
Proof using.
  intros Ho Hf F P ip w r al Hc H Hp Hn Hal. rewrite ex_lambda. sz.
  destruct (sim_fun m hst opts gs bs G X F P L r w ip off f lambda_name (map fst args) body caps H Ho Hf Hc Hp) as (w' & Hg & E & I1 & P1); [nmd|].
  exists 1, w'. auto.
Qed.

(** ** Lists *)
Lemma s_nil X L : Plist X L [] [].
Proof using.
  intros F P ip w r al Hc H Hp Hn Hal. sz. apply sim_got. split; [apply (hr_inv _ _ _ _ _ _ _ _ _ H)|].
  split; [apply pushed_nil|auto].
Qed.
Lemma s_cons X L e t ce ct : Pexpr X L (fst e) ce -> Plist X L t ct -> Plist X L (e :: t) (ce ++ ct).
Proof using.
  intros He Ht F P ip w r al Hc H Hp Hn Hal. rewrite list_cons. sz. apply code_app in Hc as [C1 C2].
  cbn [first_ok] in Hp. apply andb_prop in Hp as [Hp1 Hp2]. inversion Hn as [|? ? N1 N2]; subst.
  eapply sim_seq; [apply (He F P ip w r al C1 H Hp1 N1 Hal)|]. intros v w1 (I1 & P1).
  eapply sim_seq; [apply (Ht F P _ w1 r false C2)|].
  - eapply here_pushed; eauto.
  - rewrite first_false. auto.
  - auto.
  - discriminate.
  - intros vs w2 (I2 & P2 & Lv). apply sim_got. split; [auto|]. split; [|cbn; auto].
    exact (pushed_trans m gs G P L P L w w1 w2 [v] vs I1 I2 P1 P2).
Qed.

(** ** Calls *)
Lemma s_call X L f args cf ca : Pexpr X L (fst f) cf -> Plist X L args ca ->
  Pexpr X L (NCall f args) (cf ++ ca ++ [It (ICallFunction (len args))]).
Proof using HG HP HB Hcall.
  intros Hf Ha F P ip w r al Hc H Hp Hn Hal. rewrite ex_call. sz. apply code_app in Hc as [C1 Hc]. apply code_app in Hc as [C2 C3].
  pose proof (hr_inv _ _ _ _ _ _ _ _ _ H) as I0. cbn [placed] in Hp. apply andb_prop in Hp as [Hp1 Hp2].
  eapply sim_seq; [apply (Hf F P ip w r al C1 H Hp1); [nmd|exact Hal]|]. intros c w1 (I1 & P1).
  eapply sim_seq; [apply (Ha F P _ w1 r false C2)|].
  { eapply here_pushed; eauto. }
  { rewrite first_false. auto. }
  { nmd. }
  { discriminate. }
  intros vs w2 (I2 & P2 & Lv). pose proof (pushed_trans m gs G P L P L w w1 w2 [c] vs I1 I2 P1 P2) as P02. cbn [app] in P02.
  assert (Lk : N.to_nat (len args) = length vs) by (unfold len; rewrite Nat2N.id; auto).
  destruct (pushed_split m gs G _ _ _ _ _ _ _ I0 I2 P02) as (t & ws & Et & Hfa & Lt & Lt').
  inversion Hfa as [|? c' ? ws' Hcr Hws]; subst.
  pose proof (i_call m hst opts gs bs F _ t (m_gl (w_mov w2)) (m_heap (w_mov w2)) (m_data (w_mov w2)) (len args) ws' c' C3) as Hi.
  rewrite (f2_length _ _ _ Hws) in Lk. specialize (Hi Lk). rewrite <- (mov_top w2 t _ Et) in Hi.
  pose proof (grel_ntype (fn_rel m G (w_cv w2)) sfi mfi (info m G _) c c' Hcr) as En.
  destruct c as [| | | | | | | | | | |c].
  12: { inversion Hcr as [| | | | | | | | | | |c0 g Hg]; subst.
    inversion Hg as [c1 fm cells Lp U outer bc L' B1 B2 B3 B4 B5 B6 B7 B8 B9 B10]; subst. cbn [mfn_function] in Hi.
    destruct (Nat.eqb_spec (length vs) (length (sf_params c))) as [El|El].
    - apply (Hcall F _ (len args) c vs P L w w2); auto.
      + rewrite Lk, (f2_length _ _ _ Hws). auto.
      + apply (hr_base _ _ _ _ _ _ _ _ _ H).
    - replace (len args =? fn_arity fm)%N with false in Hi.
      + rewrite B1, B2 in Hi. eapply sim_err; [exact I2|].
        replace (N.of_nat (length (sf_params c))) with (len (sf_params c)) by reflexivity.
        replace (N.of_nat (length vs)) with (len args); [exact Hi|]. unfold len. rewrite Lv. auto.
      + symmetry. apply N.eqb_neq. rewrite B2. unfold len. lia. }
  all: inversion Hcr; subst; eapply sim_err; [exact I2|]; exact Hi.
Qed.

Lemma first_args al (args : list nodeS) :
  (match args with [] => true | e :: t => placed al (fst e) && forallb (fun e => placed false (fst e)) t end) = first_ok al args.
Proof using. reflexivity. Qed.

Lemma s_builtin X L x args ca g : Plist X L args ca -> nth_error (x_globals X) g = Some (fst x) ->
  Pexpr X L (NBuiltinCall x args) (ca ++ [It (ICallBuiltin (N.of_nat g) (len args))]).
Proof using HB HG HP.
  intros Ha Hx F P ip w r al Hc H Hp Hn Hal. rewrite ex_builtin. sz. apply code_app in Hc as [C1 C2].
  pose proof (hr_inv _ _ _ _ _ _ _ _ _ H) as I0. rewrite (hr_globals _ _ _ _ _ _ _ _ _ H) in Hx.
  eapply sim_seq; [apply (Ha F P ip w r al C1 H Hp); [nmd|exact Hal]|]. intros vs w1 (I1 & P1 & Lv).
  pose proof (HB g (fst x) Hx) as Hsb. pose proof (glob_get gs G HG HP (fst x) g Hx) as Hpg.
  destruct (builtins (fst x)) as [[f|en exi]|] eqn:E1, (alookup N.eqb (N.of_nat g) bs) as [[f'|en' exi']|] eqn:E2; cbn in Hsb; try contradiction.
  - eapply sim_builtin; eauto. unfold len. rewrite Nat2N.id. auto.
  - eapply sim_err; [exact I1|]. eapply i_builtin_ctx; eauto.
  - eapply sim_err; [exact I1|]. eapply i_builtin_none; eauto.
Qed.

(** ** Blocks and branches *)
Lemma s_block X L body c new : Pstmts X false L body c (new ++ L) -> Pblock X L body (c ++ exit_code (map snd new)).
Proof using.
  intros H F P ip w r al Hc Hh Hp Hn Hal.
  eapply (sim_body X L L body c new F P ip w w r al []); eauto.
  - apply (hr_inv _ _ _ _ _ _ _ _ _ Hh).
  - apply grown_refl.
Qed.
Lemma s_blocke X L body c : Pblock X L body c -> Pexpr X L (NBlock body) c.
Proof using. intros H F P ip w r al Hc Hh Hp Hn Hal. rewrite ex_block. apply (H F P ip w r al); auto. nmd. Qed.

Lemma drop_block X L body cb F P ip w0 w r al a v : Pblock X L body cb ->
  code_at (k_fn F) ip (It (IPopMany 2) :: cb) -> here X F P L r w0 -> Inv P L w -> pushed w0 [a; v] w ->
  forallb (fun e => placed al (fst e)) body = true -> Forall (fun e => named (fst e)) body -> (al = true -> aligned P L w0) ->
  sim P n F ip w (ip +> IPopMany 2 + size cb) (block body r (w_st w)) (fun v w' => Inv P L w' /\ pushed w0 [v] w').
Proof using.
  intros H Hc Hh I1 P1 Hp Hn Hal. apply code_cons in Hc as [C1 C2]. pose proof (hr_inv _ _ _ _ _ _ _ _ _ Hh) as I0.
  destruct (sim_pop2 m hst opts gs bs G P L F ip w0 w a v I0 I1 P1 C1) as (w2 & Hg & E2 & I2 & P2).
  eapply sim_goes; [exact Hg|]. rewrite <- E2. eapply sim_post; [apply (H F P _ w2 r al C2)|]; auto.
  - eapply here_pushed; eauto.
  - intros Ea. eapply aligned_nil; [exact I0|exact I2|exact P2|auto].
  - intros x w3 (I3 & P3). split; auto. exact (pushed_trans m gs G P L P L w0 w2 w3 [] [x] I2 I3 P2 P3).
Qed.
Lemma s_else_none X L : Pelse X L None [It IPop].
Proof using.
  intros F P ip w0 w r al v Hc H I1 P1 Hp Hn Hal. sz. cbn [else_with].
  destruct (sim_pop m hst opts gs bs G P L F ip w0 w [VNone] v (hr_inv _ _ _ _ _ _ _ _ _ H) I1 P1 Hc) as (w2 & Hg & E2 & I2 & P2).
  exists 1, w2. auto.
Qed.
Lemma s_else_some X L b c : Pblock X L b c -> Pelse X L (Some b) (It (IPopMany 2) :: c).
Proof using.
  intros Hb F P ip w0 w r al v Hc H I1 P1 Hp Hn Hal. sz. cbn [else_with]. eapply drop_block; eauto.
Qed.
Lemma s_cases_nil X L d c : Pelse X L d c -> Pcases X L [] d c.
Proof using. intros Hd F P ip w0 w r al v Hc H I1 P1 _ Hp _ Hn Hal. cbn [cases_with]. eapply Hd; eauto. Qed.
Lemma s_cases_cons X L e body t d ce cb ct : Pexpr X L (fst e) ce -> Pblock X L body cb -> Pcases X L t d ct ->
  Pcases X L ((e, body) :: t) d
    (ce ++ It (IJumpIfNotEq (szN (It (IPopMany 2) :: cb ++ [It (IJumpForward (szN ct))])))
       :: It (IPopMany 2) :: cb ++ It (IJumpForward (szN ct)) :: ct).
Proof using HG HB.
  intros He Hb Ht F P ip w0 w r al v Hc H I1 P1 Hp Hpd Hn Hnd Hal. rewrite cases_cons. cbn [fst snd].
  pose proof (hr_inv _ _ _ _ _ _ _ _ _ H) as I0.
  cbn [forallb fst snd] in Hp. apply andb_prop in Hp as [Hp1 Hp2]. apply andb_prop in Hp1 as [Hpe Hpb].
  inversion Hn as [|? ? [N1 N2] N3]; subst. cbn [fst snd] in *.
  apply code_app in Hc as [C1 Hc]. apply code_cons in Hc as [C2 Hc].
  assert (C3 : code_at (k_fn F) (ip + size ce +> IJumpIfNotEq (szN (It (IPopMany 2) :: cb ++ [It (IJumpForward (szN ct))]))) (It (IPopMany 2) :: cb)).
  { change (It (IPopMany 2) :: cb ++ It (IJumpForward (szN ct)) :: ct) with ((It (IPopMany 2) :: cb) ++ It (IJumpForward (szN ct)) :: ct) in Hc.
    apply code_app in Hc as [Hc _]. exact Hc. }
  apply code_cons in Hc as [_ Hc]. apply code_app in Hc as [_ Hc]. apply code_cons in Hc as [C4 C5].
  eapply sim_seq; [eapply (sim_expr X L (fst e) ce F P ip w0 w r); eauto|]. intros x w1 (I2 & P2). cbn [app] in P2.
  eapply (sim_case m hst opts gs bs G P L F _ w0 w1 VNone v x); [exact I0|exact I2|exact P2|exact C2| |apply geqb_noerr].
  intros [|] w2 E2 I3 P3.
  - rewrite Nat.add_0_r. rewrite <- (seq_ret (block body r (w_st w2))).
    eapply sim_seq; [eapply drop_block; eauto|]. intros y w3 (I4 & P4).
    eapply sim_step; [eapply goes_ip; [reflexivity| |eapply i_jump; exact C4]|reflexivity|auto].
    unfold szN. rewrite Nat2N.id. sz. cbn. lia.
  - eapply sim_ip; [| |eapply (Ht F P _ w0 w2 r al v C5); eauto].
    + unfold szN. rewrite Nat2N.id. sz. cbn. lia.
    + sz. cbn. lia.
Qed.
End Names.
End Sim.
