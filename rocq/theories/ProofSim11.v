(** Compiled code does what the direct evaluation says: statements, and the induction
    over the syntax tree. *)
From Verif Require Import Base RleVec Pool Vecc Float NumText Bytecode Chunk Value Ast Arith VmOps
                          Compiler Vm Items CodeRel SpecParse SpecReady SpecRel SpecEval ProofVars ProofRel ProofCode6 ProofHeight2 ProofSim1
                          ProofSim2 ProofSim3 ProofSim4 ProofSim5 ProofSim6 ProofSim7 ProofSim8 ProofSim9 ProofSim10.

Section Sim.
Context {D : Type} (m : mode) (hst : host D) (opts : options) (gs : pool rstring)
        (bs : list (N * builtin D)) (G : list rstring).
Notation goes := (goes m hst opts gs bs).
Notation failing := (failing m hst opts gs bs).
Notation finishes := (finishes m hst opts gs bs).
Notation lasts := (lasts m hst opts gs bs).
Notation leads := (leads m hst opts gs bs).
Notation "ip '+>' i" := (ip + length (item_bytes (It i))) (at level 50).
Notation vr := (vr m G).
Notation mem := (mem m G).
Notation sst := (@sst D).
Notation Inv := (Inv m gs G).
Notation here := (here m gs G).
Notation pushed := (pushed m G).
Notation tops := (tops m G).
Notation sim := (sim m hst opts gs bs G).
Notation globs := (globs m gs G).
Implicit Types (F : @fixed D) (w : @world D).
Context (builtins : rstring -> option (sbuiltin (D:=D))).
Context (call : sfn -> list sval -> sst -> out (D:=D) sval) (n : nat).
Notation orc := (h_oracle hst).
Notation ev := (ev m orc opts builtins call n).
Notation ex := (ex m orc opts builtins call n).
Notation Pexpr := (Pexpr m hst opts gs bs G orc builtins call n).
Notation Plist := (Plist m hst opts gs bs G orc builtins call n).
Notation Pstmt := (Pstmt m hst opts gs bs G orc builtins call n).
Notation Pstmts := (Pstmts m hst opts gs bs G orc builtins call n).
Notation Ppops := (Ppops m hst opts gs bs G orc builtins call n).
Notation Pblock := (Pblock m hst opts gs bs G orc builtins call n).
Notation Pelse := (Pelse m hst opts gs bs G orc builtins call n).
Notation Pcases := (Pcases m hst opts gs bs G orc builtins call n).
Notation post := (post m gs G).
Notation block := (block_with (ev false)).
Notation named := (@named ordinary_name).

Hypothesis HG : forall g x, nth_error G g = Some x -> pool_id seqb gs x = Some (N.of_nat g).
Hypothesis HP : forall g x, pool_id seqb gs x = Some g -> pool_get gs g = Some x.
Hypothesis HB : forall g x, nth_error G g = Some x -> same_builtin (builtins x) (alookup N.eqb (N.of_nat g) bs).
Hypothesis Hcall : call_ok m hst opts gs bs G n call.


Ltac sz := repeat rewrite ?size_app, ?size_cons, ?size_nil, ?Nat.add_assoc, ?Nat.add_0_r.
Ltac hin := cbn [children opt_list flat_map]; repeat first [progress cbn [In] | rewrite in_app_iff]; auto 6.
Ltac nmd := match goal with
  | H : named ?nd |- named (fst ?e) => eapply (named_child nd e H); hin
  | H : named ?nd |- Forall _ ?l => rewrite Forall_forall; intros ? ?; eapply (named_child nd _ H); hin
  end.


Notation named_body l := (Forall (fun e => named (fst e)) l).


Lemma s_return X L p e c : Pexpr X L (fst e) c -> Pstmt X false L p (NReturn (Some e)) (c ++ [It IReturn]) L.
Proof using HG HP HB Hcall.
  intros He F P ip w r al Hc H Hp Hn Hal. apply code_app in Hc as [C1 C2]. pose proof (hr_inv _ _ _ _ _ _ _ _ _ H) as I0.
  change (ev false (NReturn (Some e)) r (w_st w)) with (seq (ex (fst e) r (w_st w)) (fun v s => Returned (A:=option sval * env) v s)).
  eapply sim_seq; [apply (He F P ip w r al C1 H Hp); [nmd|exact Hal]|]. intros v w1 (I1 & P1).
  exists 0, (ip + size c), w1. split; [apply goes_0|]. split; [auto|]. split; [exact C2|].
  destruct (pushed_split m gs G _ _ _ _ _ _ _ I0 I1 P1) as (t & ws & Et & Hf & Lt & Lt').
  inversion Hf as [|? y ? ? Hy Hn']; subst. inversion Hn'; subst.
  exists L, (w_sh w), t, y. split; [exact I1|]. split; [apply (gw_sh _ _ _ (proj1 P1))|]. split; [exact Et|]. split; [exact Hy|].
  rewrite Lt'. apply (iv_base _ _ _ _ _ _ I0).
Qed.
Lemma s_return_none X L p : Pstmt X false L p (NReturn None) [It ILoadNone; It IReturn] L.
Proof using HG HP HB Hcall.
  intros F P ip w r al Hc H Hp Hn Hal. apply code_cons in Hc as [C1 C2]. pose proof (hr_inv _ _ _ _ _ _ _ _ _ H) as I0.
  destruct (push_none m hst opts gs bs G X L F P ip w r H C1) as (w1 & Hg & E1 & I1 & P1).
  exists 1, (ip +> ILoadNone), w1. split; [exact Hg|]. split; [auto|]. split; [exact C2|].
  destruct (pushed_split m gs G _ _ _ _ _ _ _ I0 I1 P1) as (t & ws & Et & Hf & Lt & Lt').
  inversion Hf as [|? y ? ? Hy Hn']; subst. inversion Hn'; subst.
  exists L, (w_sh w), t, y. split; [exact I1|]. split; [apply (gw_sh _ _ _ (proj1 P1))|]. split; [exact Et|]. split; [exact Hy|].
  rewrite Lt'. apply (iv_base _ _ _ _ _ _ I0).
Qed.

(** Nothing left behind, no new variable. *)
Lemma post_none al p X F P L r w w' : here X F P L r w -> Inv P L w' -> pushed w [] w' -> post al p X F P L L w (None, r) w'.
Proof using HG HP HB Hcall.
  intros H I1 P1. split; [exact (here_pushed m gs G X F P L r w w' [] H I1 P1)|]. exists []. split; [cbn; lia|]. split; [auto|].
  destruct p; apply P1.
Qed.
Lemma post_new al p X F P L L' w r' w' locs : al = true -> here X F P L' r' w' -> length L' = length L + length locs ->
  grown w w' (map Some locs) -> post al p X F P L L' w (None, r') w'.
Proof using HG HP HB Hcall.
  intros Ea H1 H2 H3. split; [exact H1|]. exists locs. split; [auto|]. split; [rewrite Ea; discriminate|]. destruct p; exact H3.
Qed.

Lemma s_function_global X L p x args body off f caps g : nth_error (x_consts X) off = Some (VFn (MFun f)) ->
  @code_fun m ordinary_name X L (fst x) (map fst args) body f caps -> nth_error (x_globals X) g = Some (fst x) ->
  Pstmt X true L p (NFunction x args body) [make_fun off caps; It (IDefineGlobal (N.of_nat g))] L.
Proof using HG HP HB Hcall.
  intros Ho Hf Hx F P ip w r al Hc H Hp Hn Hal. apply code_cons in Hc as [C1 C2]. pose proof (hr_inv _ _ _ _ _ _ _ _ _ H) as I0.
  rewrite (hr_globals _ _ _ _ _ _ _ _ _ H) in Hx. cbn [placed] in Hp. apply andb_prop in Hp as [Ea Hp].
  destruct (sim_fun m hst opts gs bs G X F P L r w ip off f (fst x) (map fst args) body caps H Ho Hf C1 Hp ltac:(nmd)) as (w1 & Hg & E & I1 & P1).
  destruct (sim_define m hst opts gs bs G HG HP P L F _ w w1 [] _ g (fst x) I0 I1 P1 Hx C2) as (w2 & Hg2 & E2 & I2 & P2).
  exists (1 + 1), w2. split; [|split].
  - eapply goes_trans; [exact Hg|]. sz. exact Hg2.
  - rewrite E2, E. reflexivity.
  - apply post_none; auto.
Qed.
Lemma s_function X L p x args body off f caps b : nth_error (x_consts X) off = Some (VFn (MFun f)) ->
  @code_fun m ordinary_name X L (fst x) (map fst args) body f caps ->
  Pstmt X false L p (NFunction x args body) [make_fun off caps; It (ISetLocal (len L))] ((fst x, b) :: L).
Proof using HG HP HB Hcall.
  intros Ho Hf F P ip w r al Hc H Hp Hn Hal. apply code_cons in Hc as [C1 C2]. pose proof (hr_inv _ _ _ _ _ _ _ _ _ H) as I0.
  cbn [placed] in Hp. apply andb_prop in Hp as [Ea Hp].
  destruct (sim_fun m hst opts gs bs G X F P L r w ip off f (fst x) (map fst args) body caps H Ho Hf C1 Hp ltac:(nmd)) as (w1 & Hg & E & I1 & P1).
  eapply sim_goes; [exact Hg|].
  change (ev false (NFunction x args body) r (w_st w)) with
    (seq (bind_var (VarDecl x) (VFn (mkSfn (fst x) (map fst args) body r)) r (w_st w)) (fun r' s => Got (None : option sval, r') s)).
  rewrite <- E. rewrite size_cons, Nat.add_assoc.
  eapply sim_seq; [eapply (sim_bind m hst opts gs bs G X F P L r w w1 _ n _ (VarDecl x)); eauto; apply cv_one|].
  intros r' w2 (H2 & locs & El & Hgr). apply sim_got. eapply post_new; eauto.
Qed.
Lemma s_let_global X L p x v c g : Pexpr X L (fst v) c -> nth_error (x_globals X) g = Some (fst x) ->
  Pstmt X true L p (NDeclaration (VarDecl x) v) (c ++ [It (IDefineGlobal (N.of_nat g))]) L.
Proof using HG HP HB Hcall.
  intros He Hx F P ip w r al Hc H Hp Hn Hal. apply code_app in Hc as [C1 C2]. pose proof (hr_inv _ _ _ _ _ _ _ _ _ H) as I0.
  rewrite (hr_globals _ _ _ _ _ _ _ _ _ H) in Hx. cbn [placed] in Hp. apply andb_prop in Hp as [Ea Hp].
  change (ev true (NDeclaration (VarDecl x) v) r (w_st w)) with
    (seq (ex (fst v) r (w_st w)) (fun y s => seq (define_var (VarDecl x) y s) (fun _ s => Got (None : option sval, r) s))). sz.
  eapply sim_seq; [apply (He F P ip w r al C1 H Hp); [nmd|exact Hal]|]. intros y w1 (I1 & P1).
  destruct (sim_define m hst opts gs bs G HG HP P L F _ w w1 [] _ g (fst x) I0 I1 P1 Hx C2) as (w2 & Hg2 & E2 & I2 & P2).
  exists 1, w2. split; [exact Hg2|]. split; [rewrite E2; reflexivity|]. apply post_none; auto.
Qed.
Lemma s_let X L p x v c b : Pexpr X L (fst v) c ->
  Pstmt X false L p (NDeclaration (VarDecl x) v) (c ++ [It (ISetLocal (len L))]) ((fst x, b) :: L).
Proof using HG HP HB Hcall.
  intros He F P ip w r al Hc H Hp Hn Hal. apply code_app in Hc as [C1 C2]. pose proof (hr_inv _ _ _ _ _ _ _ _ _ H) as I0.
  cbn [placed] in Hp. apply andb_prop in Hp as [Ea Hp].
  change (ev false (NDeclaration (VarDecl x) v) r (w_st w)) with
    (seq (ex (fst v) r (w_st w)) (fun y s => seq (bind_var (VarDecl x) y r s) (fun r' s => Got (None : option sval, r') s))).
  rewrite size_app, Nat.add_assoc.
  eapply sim_seq; [apply (He F P ip w r al C1 H Hp); [nmd|exact Hal]|]. intros y w1 (I1 & P1).
  eapply sim_seq; [eapply (sim_bind m hst opts gs bs G X F P L r w w1 _ n _ (VarDecl x)); eauto; apply cv_one|].
  intros r' w2 (H2 & locs & El & Hgr). apply sim_got. eapply post_new; eauto.
Qed.
Lemma s_multi_global X L p xs v c gl : length xs <= 255 -> Pexpr X L (fst v) c ->
  Forall2 (fun x g => nth_error (x_globals X) g = Some x) (map fst xs) gl ->
  Pstmt X true L p (NDeclaration (VarMulti xs) v) (c ++ It (IUnpack (len xs)) :: map (fun g => It (IDefineGlobal (N.of_nat g))) gl) L.
Proof using HG HP HB Hcall.
  intros Hl He Hx F P ip w r al Hc H Hp Hn Hal. apply code_app in Hc as [C1 C2]. pose proof (hr_inv _ _ _ _ _ _ _ _ _ H) as I0.
  apply code_cons in C2 as [C2 C3]. rewrite (hr_globals _ _ _ _ _ _ _ _ _ H) in Hx. cbn [placed] in Hp. apply andb_prop in Hp as [Ea Hp].
  change (ev true (NDeclaration (VarMulti xs) v) r (w_st w)) with
    (seq (ex (fst v) r (w_st w)) (fun y s => seq (define_var (VarMulti xs) y s) (fun _ s => Got (None : option sval, r) s))). sz.
  eapply sim_seq; [apply (He F P ip w r al C1 H Hp); [nmd|exact Hal]|]. intros y w1 (I1 & P1).
  cbn [define_var]. rewrite seq_seq.
  eapply sim_seq; [eapply (sim_unpack m hst opts gs bs G X F P L r w w1 _ (len xs) n y); eauto|].
  intros parts w2 (I2 & P2 & Lp).
  assert (Ll : length parts = length (map fst xs)) by (rewrite map_length, Lp; unfold len; rewrite Nat2N.id; auto).
  destruct (sim_defines m hst opts gs bs G HG HP P L F w (map fst xs) gl Hx _ w2 parts I0 I2 P2 Ll C3) as (k & w3 & Hg3 & E3 & I3 & P3).
  exists k, w3. split; [exact Hg3|]. split; [rewrite E3; reflexivity|]. apply post_none; auto.
Qed.
Lemma s_multi X L p xs v c new : length xs <= 255 -> Pexpr X L (fst v) c -> map fst new = map fst xs ->
  Pstmt X false L p (NDeclaration (VarMulti xs) v) (c ++ [It (IUnpack (len xs))]) (new ++ L).
Proof using HG HP HB Hcall.
  intros Hl He Hm F P ip w r al Hc H Hp Hn Hal. apply code_app in Hc as [C1 C2]. pose proof (hr_inv _ _ _ _ _ _ _ _ _ H) as I0.
  cbn [placed] in Hp. apply andb_prop in Hp as [Ea Hp].
  change (ev false (NDeclaration (VarMulti xs) v) r (w_st w)) with
    (seq (ex (fst v) r (w_st w)) (fun y s => seq (bind_var (VarMulti xs) y r s) (fun r' s => Got (None : option sval, r') s))).
  rewrite size_app, Nat.add_assoc.
  eapply sim_seq; [apply (He F P ip w r al C1 H Hp); [nmd|exact Hal]|]. intros y w1 (I1 & P1).
  eapply sim_seq; [eapply (sim_bind m hst opts gs bs G X F P L r w w1 _ n _ (VarMulti xs) _ (new ++ L) H (Hal Ea) I1 P1 (cv_multi _ _ _ Hl Hm) C2)|].
  intros r' w2 (H2 & locs & El & Hgr). apply sim_got. eapply post_new; eauto.
Qed.
Lemma s_external X L p x v c g : Pexpr X L (fst v) c -> nth_error (x_globals X) g = Some (fst x) ->
  Pstmt X true L p (NExternal x v) (c ++ [It (IDefineGlobalDefaulted (N.of_nat g))]) L.
Proof using HG HP HB Hcall.
  intros He Hx F P ip w r al Hc H Hp Hn Hal. apply code_app in Hc as [C1 C2]. pose proof (hr_inv _ _ _ _ _ _ _ _ _ H) as I0.
  rewrite (hr_globals _ _ _ _ _ _ _ _ _ H) in Hx.
  change (ev true (NExternal x v) r (w_st w)) with
    (seq (ex (fst v) r (w_st w)) (fun y s => Got (None : option sval, r)
       (match global (fst x) s with Some _ => s | None => put_globals (ainsert (fst x) y (ss_globals s)) s end))). sz.
  eapply sim_seq; [apply (He F P ip w r al C1 H Hp); [nmd|exact Hal]|]. intros y w1 (I1 & P1).
  destruct (sim_default m hst opts gs bs G HG HP P L F _ w w1 y g (fst x) I0 I1 P1 Hx C2) as (w2 & Hg2 & E2 & I2 & P2).
  exists 1, w2. split; [exact Hg2|]. split; [rewrite E2; reflexivity|]. apply post_none; auto.
Qed.
Lemma s_include X L p x body c : Ppops X L body c -> Pstmt X true L p (NInclude x (Some body)) c L.
Proof using HG HP HB Hcall.
  intros Hb F P ip w r al Hc H Hp Hn Hal. pose proof (hr_inv _ _ _ _ _ _ _ _ _ H) as I0.
  change (ev true (NInclude x (Some body)) r (w_st w)) with
    (seq (stmts_with (ev true) body r (w_st w)) (fun _ s => Got (None : option sval, r) s)).
  eapply sim_seq; [apply (Hb F P ip w r al Hc H Hp); [nmd|exact Hal]|]. intros y w1 (I1 & P1).
  apply sim_got. apply post_none; auto. apply grown_nil. auto.
Qed.
Lemma s_expr X g L p nd c : is_expression nd = true -> Pexpr X L nd c ->
  Pstmt X g L p nd (c ++ (if p then [It IPop] else [])) L.
Proof using HG HP HB Hcall.
  intros Hx He F P ip w r al Hc H Hp Hn Hal. apply code_app in Hc as [C1 C2]. pose proof (hr_inv _ _ _ _ _ _ _ _ _ H) as I0.
  rewrite ev_expr by auto. rewrite size_app, Nat.add_assoc.
  eapply sim_seq; [apply (He F P ip w r al C1 H Hp Hn Hal)|]. intros v w1 (I1 & P1). destruct p.
  - destruct (sim_pop m hst opts gs bs G P L F _ w w1 [] v I0 I1 P1 C2) as (w2 & Hg & E2 & I2 & P2). sz.
    exists 1, w2. split; [exact Hg|]. split; [auto|]. split; [exact (here_pushed m gs G X F P L r w w2 [] H I2 P2)|].
    exists []. split; [cbn; lia|]. split; [auto|apply P2].
  - sz. apply sim_got. split; [exact (here_pushed m gs G X F P L r w w1 [v] H I1 P1)|].
    exists []. split; [cbn; lia|]. split; [auto|]. exact P1.
Qed.

(** ** Sequences of statements *)
Lemma s_stmts_nil X g L : Pstmts X g L [] [] L.
Proof using HG HP HB Hcall.
  intros F P ip w r al Hc H Hp Hn Hal. sz. apply sim_got. apply post_none; auto.
  - apply (hr_inv _ _ _ _ _ _ _ _ _ H).
  - apply pushed_nil.
Qed.
Lemma s_stmts_last X g L e c L' : Pstmt X g L false (fst e) c L' -> Pstmts X g L [e] c L'.
Proof using HG HP HB Hcall.
  intros He F P ip w r al Hc H Hp Hn Hal. rewrite stmts_one, seq_ret.
  cbn [forallb] in Hp. apply andb_prop in Hp as [Hp _]. inversion Hn; subst. apply (He F P ip w r al); auto.
Qed.
Lemma post_aligned al p X F P L L' w vr w' : Inv P L w -> post al p X F P L L' w vr w' -> (if p then None else fst vr) = None ->
  aligned P L w -> aligned P L' w'.
Proof using HG HP HB Hcall.
  intros I0 (H1 & locs & K1 & K2 & K3) E Ha. rewrite E in K3. unfold aligned in *.
  rewrite (grown_length m gs G _ _ _ _ _ _ _ I0 (hr_inv _ _ _ _ _ _ _ _ _ H1) K3), map_length. lia.
Qed.
Lemma s_stmts_cons X g L e e' t c L1 ct L' : Pstmt X g L true (fst e) c L1 -> Pstmts X g L1 (e' :: t) ct L' ->
  Pstmts X g L (e :: e' :: t) (c ++ ct) L'.
Proof using HG HP HB Hcall.
  intros He Ht F P ip w r al Hc H Hp Hn Hal. rewrite stmts_cons. apply code_app in Hc as [C1 C2]. rewrite size_app, Nat.add_assoc.
  pose proof (hr_inv _ _ _ _ _ _ _ _ _ H) as I0.
  cbn [forallb] in Hp. apply andb_prop in Hp as [Hp1 Hp2]. inversion Hn as [|? ? N1 N2]; subst.
  eapply sim_seq; [apply (He F P ip w r al C1 H Hp1 N1 Hal)|]. intros vr w1 Hpost.
  pose proof Hpost as (H1 & locs1 & K1 & K2 & K3). cbn beta iota in K3.
  eapply sim_post; [apply (Ht F P _ w1 (snd vr) al C2 H1 Hp2 N2)|].
  - intros Ea. eapply post_aligned; eauto.
  - intros vr2 w2 (H2 & locs2 & M1 & M2 & M3). split; [exact H2|]. exists (locs1 ++ locs2). split; [rewrite app_length; lia|].
    split; [intros Ea; rewrite K2, M2; auto|]. rewrite map_app. cbn beta iota in M3 |- *.
    destruct (fst vr2); [destruct M3 as [M3 M4]; rewrite <- app_assoc; split; auto|]; eapply grown_trans; eauto.
Qed.
Lemma s_pops_nil X L : Ppops X L [] [].
Proof using HG HP HB Hcall.
  intros F P ip w r al Hc H Hp Hn Hal. sz. apply sim_got. split; [apply (hr_inv _ _ _ _ _ _ _ _ _ H)|apply grown_refl].
Qed.
Lemma s_pops_cons X L e t c ct : @code_pops m ordinary_name X L t ct -> Pstmt X true L true (fst e) c L -> Ppops X L t ct ->
  Ppops X L (e :: t) (c ++ ct).
Proof using HG HP HB Hcall.
  intros Hct He Ht F P ip w r al Hc H Hp Hn Hal. apply code_app in Hc as [C1 C2]. rewrite size_app, Nat.add_assoc.
  pose proof (hr_inv _ _ _ _ _ _ _ _ _ H) as I0.
  cbn [forallb] in Hp. apply andb_prop in Hp as [Hp1 Hp2]. inversion Hn as [|? ? N1 N2]; subst.
  assert (K : forall vr w1, post al true X F P L L w vr w1 -> here X F P L (snd vr) w1 /\ Inv P L w1 /\ grown w w1 []).
  { intros vr w1 (H1 & locs1 & K1 & K2 & K3). destruct locs1; [|cbn in K1; lia]. split; [exact H1|].
    split; [apply (hr_inv _ _ _ _ _ _ _ _ _ H1)|exact K3]. }
  destruct t as [|e' t].
  - inversion Hct; subst. rewrite stmts_one, seq_ret. sz.
    eapply sim_post; [apply (He F P ip w r al C1 H Hp1 N1 Hal)|]. intros vr w1 Hpost. apply (K _ _ Hpost).
  - rewrite stmts_cons. eapply sim_seq; [apply (He F P ip w r al C1 H Hp1 N1 Hal)|]. intros vr w1 Hpost.
    destruct (K _ _ Hpost) as (H1 & I1 & G1).
    eapply sim_post; [apply (Ht F P _ w1 (snd vr) al C2 H1 Hp2 N2)|].
    + intros Ea. exact (post_aligned al true X F P L L w vr w1 I0 Hpost eq_refl (Hal Ea)).
    + intros _ w2 (I2 & G2). split; auto. exact (grown_trans _ _ _ _ _ G1 G2).
Qed.

Lemma main :
  (forall X L nd c, @code_expr m ordinary_name X L nd c -> Pexpr X L nd c) /\
  (forall X L l c, @code_list m ordinary_name X L l c -> Plist X L l c) /\
  (forall X g L p nd c L', @code_stmt m ordinary_name X g L p nd c L' -> Pstmt X g L p nd c L') /\
  (forall X g L l c L', @code_stmts m ordinary_name X g L l c L' -> Pstmts X g L l c L') /\
  (forall X L l c, @code_pops m ordinary_name X L l c -> Ppops X L l c) /\
  (forall X L l c, @code_block m ordinary_name X L l c -> Pblock X L l c) /\
  (forall X L o c, @code_else m ordinary_name X L o c -> Pelse X L o c) /\
  (forall X L cs d c, @code_cases m ordinary_name X L cs d c -> Pcases X L cs d c) /\
  (forall X L x args body f caps, @code_fun m ordinary_name X L x args body f caps -> True).
Proof using HG HP HB Hcall.
  apply code_mind; intros.
  - apply s_none.
  - apply s_literal; auto.
  - apply s_pair; auto.
  - apply s_array; auto.
  - apply s_range; auto.
  - apply s_ident; auto.
  - apply s_blocke; auto.
  - apply s_assign; auto.
  - apply s_call; auto.
  - apply s_index; auto.
  - apply s_builtin; auto.
  - eapply s_context; eauto.
  - apply s_cond; auto.
  - apply s_switch; auto.
  - apply s_while; auto.
  - eapply s_for; eauto.
  - eapply s_mfor; eauto.
  - eapply s_lambda; eauto.
  - apply s_binary; auto.
  - eapply s_fold; eauto.
  - apply s_unary; auto.
  - apply s_nil.
  - apply s_cons; auto.
  - apply s_return; auto.
  - apply s_return_none.
  - eapply s_function_global; eauto.
  - eapply s_function; eauto.
  - apply s_let_global; auto.
  - apply s_let; auto.
  - apply s_multi_global; auto.
  - apply s_multi; auto.
  - apply s_external; auto.
  - apply s_include; auto.
  - apply s_expr; auto.
  - apply s_stmts_nil.
  - apply s_stmts_last; auto.
  - eapply s_stmts_cons; eauto.
  - apply s_pops_nil.
  - apply s_pops_cons; auto.
  - apply s_block; auto.
  - apply s_else_none.
  - apply s_else_some; auto.
  - apply s_cases_nil; auto.
  - apply s_cases_cons; auto.
  - exact Logic.I.
Qed.
End Sim.
