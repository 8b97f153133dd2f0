(** Compiled code does what the direct evaluation says: calls to any depth, and the whole
    program. *)
From Verif Require Import Base RleVec Pool Vecc Float NumText Bytecode Chunk Value Ast Arith VmOps
                          Compiler Vm Items CodeRel CodeSize SpecParse SpecReady SpecRel SpecVm SpecEval SpecContainers ContainerHist
                          ProofContainers ProofVm5 ProofVars ProofRel ProofCode ProofCode6 ProofCode7 ProofHeight2 ProofSim1
                          ProofSim2 ProofSim3 ProofSim4 ProofSim5 ProofSim6 ProofSim7 ProofSim8 ProofSim9 ProofSim10 ProofSim11.

Section Whole.
Context {D : Type} (m : mode) (hst : host D) (opts : options) (gs : pool rstring)
        (bs : list (N * builtin D)) (G : list rstring) (builtins : rstring -> option (sbuiltin (D:=D))).
Notation orc := (h_oracle hst).
Notation call_at := (SpecEval.call_at m orc opts (h_enter hst) (h_leave hst) builtins).
Notation finishes := (finishes m hst opts gs bs).
Notation failing := (failing m hst opts gs bs).
Notation lasts := (lasts m hst opts gs bs).
Hypothesis HG : forall g x, nth_error G g = Some x -> pool_id seqb gs x = Some (N.of_nat g).
Hypothesis HP : forall g x, pool_id seqb gs x = Some g -> pool_get gs g = Some x.
Hypothesis HB : forall g x, nth_error G g = Some x ->
  same_builtin (builtins x) (alookup N.eqb (N.of_nat g) bs).

Lemma body_all n : call_ok m hst opts gs bs G n (call_at n) -> body_ok m hst opts gs bs G orc builtins n.
Proof using HG HP HB.
  intros Hc X L body c L' H F P ip w r H1 H2 H3 H4 H5.
  pose proof (main m hst opts gs bs G builtins (call_at n) n HG HP HB Hc) as (_ & _ & _ & M & _).
  eapply sim_post; [exact (M X false L body c L' H F P ip w r true H1 H2 H3 H4 (fun _ => H5))|]. auto.
Qed.
Lemma call_all n : call_ok m hst opts gs bs G n (call_at n).
Proof using HG HP HB.
  induction n as [|n IH]; [apply call_0|]. apply call_S. apply body_all. exact IH.
Qed.

(** The top level of a script. *)
Definition start_fixed (f : function) : fixed := mkFx f [] 0 [] [] ([] : list (xfn D)).
Definition start_level : level := mkLv 0 [] [] [] (fun _ => False).

Lemma top_level ast f code st gl d fuel :
  ck_ops (fn_chunk f) = bytes_of (code ++ [It IReturn]) -> Forall item_fits (code ++ [It IReturn]) ->
  @code_stmts m ordinary_name (mkCtx G (ck_consts (fn_chunk f)) [] []) true [] ast code [] ->
  forallb (fun e => placed true (fst e)) ast = true -> Forall (fun e => @named ordinary_name (fst e)) ast ->
  ss_store st = [] -> ss_data st = d -> globs m gs G [] st gl ->
  let c0 := (start_fixed f, 0, mkM [] gl [] d) in
  match eval m orc opts (h_enter hst) (h_leave hst) builtins fuel ast st with
  | Got v st' => exists x cv gl', finishes c0 x (ss_data st') gl' /\ vr m G cv v x /\ globs m gs G cv st' gl'
  | Failed e st' => exists cv gl', failing c0 e (ss_data st') gl' /\ globs m gs G cv st' gl'
  | More => lasts fuel c0
  | Unspecified => True
  | Returned _ _ => False
  end.
Proof using HG HP HB.
  intros Ho Hf Hc Hp Hn Es Ed Hg c0.
  pose proof (main m hst opts gs bs G builtins (call_at fuel) fuel HG HP HB (call_all fuel)) as (_ & _ & _ & M & _).
  set (w := mkW (mkM ([] : list value) gl [] d) [] [] st).
  assert (K : code_at (k_fn (start_fixed f)) 0 (code ++ [It IReturn])).
  { exists [], []. rewrite app_nil_r. auto. }
  assert (I0 : Inv m gs G start_level [] w).
  { constructor; cbn; auto; try apply ext_refl; try lia.
    - constructor; cbn; auto; try constructor; intros;
        match goal with H : nth_error [] ?i = _ |- _ => destruct i; discriminate end.
    - intros c j H. destruct c; discriminate. }
  assert (H0 : here m gs G (mkCtx G (ck_consts (fn_chunk f)) [] []) (start_fixed f) start_level [] [] w).
  { constructor; auto. intros x _. cbn. split; [tauto|]. intros k Hk. destruct k; discriminate. }
  specialize (M _ _ _ _ _ _ Hc (start_fixed f) start_level 0 w [] true (proj1 (code_app _ _ _ _ K)) H0 Hp Hn (fun _ => eq_refl)).
  unfold eval. change st with (w_st w). change c0 with (start_fixed f, 0, w_mov w).
  apply code_app in K as [_ K]. cbn [Nat.add] in K.
  destruct (stmts_with (SpecEval.ev m orc opts builtins (call_at fuel) fuel true) ast [] (w_st w)) as [[[v|] r'] s'|v s'|e s'| |];
    cbn [sim Nat.add] in M; auto.
  - destruct M as (k & w' & Hk & E & (H1 & locs & E1 & _ & Hgr & t & ws & Et & Hv)). cbn [fst snd] in *.
    destruct locs; [|discriminate]. cbn [map app] in Hgr.
    inversion Hv as [|? x ? ? Hx Hnil]; subst. inversion Hnil; subst.
    pose proof (gw_sh _ _ _ Hgr) as Es'. cbn in Es'.
    pose proof (iv_len m gs G _ _ _ (hr_inv _ _ _ _ _ _ _ _ _ H1)) as El. rewrite Es', Et, app_length in El. cbn in El.
    destruct t; [|cbn in El; lia].
    exists x, (w_cv w'), (m_gl (w_mov w')). split; [|split; [exact Hx|exact (iv_glob _ _ _ _ _ _ (hr_inv _ _ _ _ _ _ _ _ _ H1))]].
    eapply goes_finishes; [exact Hk|]. rewrite (iv_data _ _ _ _ _ _ (hr_inv _ _ _ _ _ _ _ _ _ H1)).
    pose proof (i_finish m hst opts gs bs (start_fixed f) (size code) [] (m_gl (w_mov w')) (m_heap (w_mov w')) (m_data (w_mov w')) x K eq_refl eq_refl (fun _ => eq_refl)) as Hi.
    replace (w_mov w') with (mkM ([] ++ [x]) (m_gl (w_mov w')) (m_heap (w_mov w')) (m_data (w_mov w'))) at 1;
      [|unfold stk in Et; destruct (w_mov w'); cbn in *; congruence].
    apply Hi. intros c l Hcell. exfalso.
    pose proof (iv_mem _ _ _ _ _ _ (hr_inv _ _ _ _ _ _ _ _ _ H1)) as Hm.
    assert (Hc2 : c < length (w_cv w')) by (rewrite (me_heap _ _ _ _ _ _ _ Hm); eapply nth_some_lt; eauto).
    apply nth_error_Some in Hc2. destruct (nth_error (w_cv w') c) as [l0|] eqn:Ec; [|congruence].
    pose proof (me_cell _ _ _ _ _ _ _ Hm c l0 _ Ec Hcell) as Hx2. cbn in Hx2. rewrite Es' in Hx2.
    destruct l as [|[|]]; discriminate.
  - destruct M as (k & ip1 & w' & Hk & E & K1 & L & sh & t & x & I1 & Es' & Et & Hx & _).
    destruct m eqn:Em; [trivial|]. subst s'.
    exists x, (w_cv w'), (m_gl (w_mov w')). split; [|split; [exact Hx|exact (iv_glob _ _ _ _ _ _ I1)]].
    eapply goes_finishes; [exact Hk|]. rewrite (iv_data _ _ _ _ _ _ I1).
    pose proof (i_finish Release hst opts gs bs (start_fixed f) ip1 t (m_gl (w_mov w')) (m_heap (w_mov w')) (m_data (w_mov w')) x K1 eq_refl eq_refl) as Hi.
    replace (w_mov w') with (mkM (t ++ [x]) (m_gl (w_mov w')) (m_heap (w_mov w')) (m_data (w_mov w'))) at 1;
      [|unfold stk in Et; destruct (w_mov w'); cbn in *; congruence].
    apply Hi; [discriminate|]. intros c l Hcell.
    pose proof (iv_mem _ _ _ _ _ _ I1) as Hm.
    assert (Hc2 : c < length (w_cv w')) by (rewrite (me_heap _ _ _ _ _ _ _ Hm); eapply nth_some_lt; eauto).
    apply nth_error_Some in Hc2. destruct (nth_error (w_cv w') c) as [l0|] eqn:Ec; [|congruence].
    pose proof (me_cell _ _ _ _ _ _ _ Hm c l0 _ Ec Hcell) as Hx2. cbn in Hx2.
    pose proof (iv_len Release gs G _ _ _ I1) as El. rewrite Es', Et, !app_length in El. cbn in El.
    rewrite Es' in Hx2. pose proof (nth_some_lt _ _ _ Hx2) as Hl. rewrite app_length in Hl. cbn in Hl.
    destruct (Nat.eq_dec l (length sh)) as [->|]; [|lia].
    rewrite nth_error_app2, Nat.sub_diag in Hx2 by lia. discriminate.
  - destruct M as (gl' & cv & H1 & H2). exists cv, gl'. auto.
Qed.
End Whole.
