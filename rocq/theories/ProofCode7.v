(** What [compile] returns, in terms of CodeRel.v. *)
From Verif Require Import Base RleVec Pool Vecc Float NumText Bytecode Chunk Value Ast Arith VmOps
                          Compiler Vm Items CodeRel CodeSize SpecContainers ContainerHist ProofContainers
                          ProofValue ProofCompiler ProofCode ProofCode2 ProofCode3 ProofCode4 ProofCode5 ProofCode6 SpecParse.

Ltac Zify.zify_post_hook ::= Z.div_mod_to_equations.

Section Naming.
Context {P : naming}.

Definition all_named (l : list nodeS) : Prop := Forall (fun e => named (fst e)) l.
Lemma all_nodes m l : all_named l -> LP m l.
Proof. induction 1; constructor; auto. apply main_lemma. assumption. Qed.

Lemma pool_new_inv : pool_inv seqb pool_new.
Proof. split; cbn; auto; intros; constructor. Qed.
Lemma inv_start l g x : lev_ok l -> lv_upvalues l = [] -> pool_inv seqb g -> inv (mkCompiler l [] g x) [[]].
Proof. intros. constructor; auto. - cbn; auto. - constructor; [auto|constructor]. Qed.

(** The main function of a script. *)
Record script_code (m : mode) (ast : list nodeS) (s : script) (code : list item) : Prop := {
  sc_name : fn_name (sc_function s) = main_name;
  sc_arity : fn_arity (sc_function s) = 0%N;
  sc_ups : fn_upcount (sc_function s) = 0%N;
  sc_ops : ck_ops (fn_chunk (sc_function s)) = bytes_of (code ++ [It IReturn]);
  sc_fits : Forall item_fits (code ++ [It IReturn]);
  sc_code : code_stmts m (mkCtx (p_entries (sc_globals s)) (ck_consts (fn_chunk (sc_function s))) [] [])
                       true [] ast code [];
  sc_glob : pool_inv seqb (sc_globals s);
  sc_globs : length (p_entries (sc_globals s)) <= u16max }.

Lemma stmts_true m X L l k L' : code_stmts m X true L l k L' -> L' = L.
Proof.
  revert L k. induction l as [|e t IH]; intros L k H; inversion H; subst; auto.
  - eapply stmt_true; eauto.
  - match goal with H1 : code_stmt _ _ _ _ _ _ _ _, H2 : code_stmts _ _ _ _ _ _ _ |- _ =>
      apply stmt_true in H1; subst; apply IH in H2; exact H2 end.
Qed.

Theorem compile_code_made m ast s : compile m ast = COk s -> weights ast <= u16max -> all_named ast ->
  (exists code, script_code m ast s code) /\
  forall g, In (VFn (MFun g)) (ck_consts (fn_chunk (sc_function s))) -> made g.
Proof.
  intros H Hw Hn. unfold compile in H.
  destruct ((set_main_span ast ;; compile_stmnts m ast) (compiler_new main_name)) as [[a|e sp|] c] eqn:E; try discriminate.
  injection H as <-. mbi E as u c1 H1.
  assert (K : inv c1 [[]] /\ bnd 0 c1 /\ opsof c1 = [] /\ loc c1 = [] /\ lv_depth (c_level c1) = 0 /\
              fst (lv_name (c_level c1)) = main_name /\ lv_arity (c_level c1) = 0%N /\ c_enclosing c1 = [] /\
              p_entries (lv_consts (c_level c1)) = []).
  { destruct ast as [|e0 t]; injection H1 as _ <-; (split; [|split; [|cbn; auto 10]]).
    1, 3: apply inv_start; [|reflexivity|apply pool_new_inv]; constructor; cbn; auto; intros v id Hv; discriminate.
    all: split; [cbn; lia|]; constructor; [unfold lev_b; cbn; lia|constructor]. }
  destruct K as (I1 & B1 & O1 & L1 & D1 & N1 & A1 & E1 & Q1).
  destruct (gen_stmts m _ (all_nodes m ast Hn) _ _ _ _ _ E I1 B1 ltac:(lia)) as (code & U & (I2 & B2 & X2) & O2 & F2 & G2).
  pose proof (e_depth _ _ _ _ X2) as D2. rewrite D1 in *.
  pose proof (e_encl _ _ _ _ X2) as Ee. rewrite E1 in Ee. inversion Ee as [Ea Eb|].
  specialize (G2 _ _ (self_fin _ _)). rewrite L1 in G2. cbn [length] in G2. rewrite Nat.sub_0_r, skipn_all in G2.
  cbn [Nat.eqb] in G2. pose proof (stmts_true _ _ _ _ _ _ G2) as Lv. rewrite Lv in G2.
  pose proof (iv_chain _ _ I2) as Hc. unfold levels in Hc. rewrite <- Eb in *.
  destruct U as [|un [|un1 ur]]; try (destruct Hc; fail). cbn in Hc. destruct Hc as [Hu ->].
  pose proof (iv_lev _ _ I2) as Hl. unfold levels in Hl. inversion Hl as [|? ? Hl1 Hl2]; subst.
  assert (Hup : lv_upcount (c_level c) = 0%N) by (rewrite (lk_up _ Hl1), Hu; reflexivity).
  split; [|intros g Hg; cbn [as_script sc_function level_finish fst fn_chunk] in Hg; rewrite D2 in Hg; cbn in Hg;
    destruct (e_fns _ _ _ _ X2 g Hg) as [K|K]; [rewrite Q1 in K; destruct K|exact K]].
  exists code. unfold as_script. constructor; cbn [sc_function sc_globals sc_externals level_finish fst].
  - cbn. rewrite (e_name _ _ _ _ X2). exact N1.
  - cbn. rewrite (e_arity _ _ _ _ X2). exact A1.
  - exact Hup.
  - cbn [level_finish fst]. rewrite D2. cbn. rewrite bytes_of_app. unfold opsof in O2, O1.
    rewrite O2, O1. reflexivity.
  - apply Forall_app. split; auto. repeat constructor; discriminate.
  - cbn [fn_chunk]. rewrite D2. cbn in G2. cbn. exact G2.
  - apply (iv_glob _ _ I2).
  - destruct B2 as [B2 _]. cbn in B2. lia.
Qed.
Theorem compile_code_named m ast s : compile m ast = COk s -> weights ast <= u16max -> all_named ast ->
  exists code, script_code m ast s code.
Proof. intros H1 H2 H3. apply (compile_code_made m ast s H1 H2 H3). Qed.
End Naming.

(** With no condition on names. *)
#[global] Instance any_name : naming := fun _ => True.
Lemma all_any ast : all_named ast.
Proof.
  apply Forall_forall. intros e _ b _.
  destruct b as [| | | | |[|]| | | | | | | | | | | | | | |? ? [[|]|] ?| | |]; exact I.
Qed.
Theorem compile_made m ast s : compile m ast = COk s -> weights ast <= u16max ->
  forall g, In (VFn (MFun g)) (ck_consts (fn_chunk (sc_function s))) -> made g.
Proof. intros H Hw. apply (compile_code_made m ast s H Hw). apply all_any. Qed.
Theorem compile_code m ast s : compile m ast = COk s -> weights ast <= u16max ->
  exists code, script_code m ast s code.
Proof.
  intros H Hw. apply compile_code_named; auto. apply all_any.
Qed.
