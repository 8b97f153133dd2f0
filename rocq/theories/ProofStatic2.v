(** The checks of the compiler, for whole programs. *)
From Verif Require Import Base RleVec Pool SpecContainers ContainerHist ProofContainers Vecc Float NumText Bytecode Chunk
  Value Ast Arith VmOps Compiler Vm SpecParse SpecVm SpecStatic ProofValue ProofCompiler ProofVm5 ProofCode ProofStatic.

Lemma all_nodes m (l : list nodeS) : Forall (fun e => node_ok m (fst e)) l.
Proof. apply Forall_forall. intros e _. apply static_ok. Qed.
Lemma ext_new name : ext (compiler_new name) [].
Proof. split; constructor. Qed.
Lemma tri_main S E ast : tri S E (set_main_span ast) S E tru.
Proof. destruct ast; [eapply tri_imp; [apply tri_ret|constructor]|]. apply tri_mod; auto. Qed.

Lemma compile_ok m ast sc : compile m ast = COk sc ->
  Forall (fun e : nodeS => all_ok Top (fst e)) ast /\
  Forall2 (fun i x => pool_id seqb (sc_globals sc) x = Some i) (sc_externals sc) (rev (externals_of ast)) /\
  NoDup (rev (externals_of ast)).
Proof.
  unfold compile. intros H. destruct ((set_main_span ast;; compile_stmnts m ast) (compiler_new main_name)) as [[a| |] c] eqn:E; try discriminate.
  injection H as <-.
  assert (T : tri [0] [] (set_main_span ast;; compile_stmnts m ast) [0] (rev (externals_of ast) ++ []) (fun _ => Forall (fun e : nodeS => all_ok Top (fst e)) ast)).
  { eapply tri_bind; [apply tri_main|intros ? _]. apply top_ok. apply all_nodes. }
  destruct (T _ _ _ E eq_refl (ext_new _)) as (A1 & [A2 A3] & A4). rewrite app_nil_r in *. auto.
Qed.

Lemma placed_ok ast : Forall (fun e : nodeS => all_ok Top (fst e)) ast -> forall p n, placed ast p n -> all_ok p n.
Proof.
  intros H p n Hp. induction Hp as [n sp Hin|p n q c sp Hp IH Hin].
  - rewrite Forall_forall in H. exact (H _ Hin).
  - intros r d Hd. apply IH. eapply below_part; eauto.
Qed.
Lemma static_all m ast sc p n : compile m ast = COk sc -> placed ast p n -> accepted p n.
Proof. intros H Hp. destruct (compile_ok m ast sc H) as (A & _). exact (placed_ok ast A p n Hp p n (below_self p n)). Qed.

Lemma static_counts m ast sc p n k : compile m ast = COk sc -> placed ast p n -> In k (counts n) -> k <= 255.
Proof. intros H Hp Hk. pose proof (ac_counts _ _ (static_all m ast sc p n H Hp)) as F. rewrite Forall_forall in F. auto. Qed.
Lemma static_return m ast sc v : compile m ast = COk sc -> ~ placed ast Top (NReturn v).
Proof. intros H Hp. exact (ac_return _ _ (static_all _ _ _ _ _ H Hp) eq_refl v eq_refl). Qed.
Lemma static_value m ast sc n : compile m ast = COk sc -> placed ast Value n -> is_statement n = false.
Proof. intros H Hp. exact (ac_value _ _ (static_all _ _ _ _ _ H Hp) eq_refl). Qed.
Lemma static_external m ast sc p x v : compile m ast = COk sc -> placed ast p (NExternal x v) -> p = Top.
Proof. intros H Hp. exact (ac_external _ _ (static_all _ _ _ _ _ H Hp) x v eq_refl). Qed.
Lemma static_include m ast sc p x b : compile m ast = COk sc -> placed ast p (NInclude x b) -> p = Top /\ b <> None.
Proof. intros H Hp. exact (ac_include _ _ (static_all _ _ _ _ _ H Hp) x b eq_refl). Qed.
Lemma static_distinct m ast sc : compile m ast = COk sc -> NoDup (externals_of ast).
Proof.
  intros H. destruct (compile_ok m ast sc H) as (_ & _ & A). apply NoDup_rev in A. rewrite rev_involutive in A. exact A.
Qed.

Lemma f2_in_r {A B} (R : A -> B -> Prop) l l' y : Forall2 R l l' -> In y l' -> exists x, In x l /\ R x y.
Proof. induction 1; intros []; subst; eauto using in_eq. destruct (IHForall2 H1) as (z & ? & ?). eauto using in_cons. Qed.
Lemma f2_in_l {A B} (R : A -> B -> Prop) l l' x : Forall2 R l l' -> In x l -> exists y, In y l' /\ R x y.
Proof. induction 1; intros []; subst; eauto using in_eq. destruct (IHForall2 H1) as (z & ? & ?). eauto using in_cons. Qed.
Lemma static_check m ast sc x : compile m ast = COk sc -> length (p_entries (sc_globals sc)) <= N.to_nat 65536 ->
  (check_external sc x = true <-> In x (externals_of ast)).
Proof.
  intros H Hl. destruct (compile_ok m ast sc H) as (_ & A & _). destruct (compile_names m ast sc H) as [Hp He].
  unfold check_external. split.
  - destruct (pool_id seqb (sc_globals sc) x) as [i|] eqn:Ei; [|discriminate]. intros Hx. apply existsb_exists in Hx as (j & Hj & Ej).
    apply N.eqb_eq in Ej. subst j. destruct (f2_in_l _ _ _ _ A Hj) as (y & Hy & Ey). apply in_rev in Hy.
    rewrite pool_id_index in Ei, Ey by auto.
    destruct (index_of seqb x (p_entries (sc_globals sc))) as [a|] eqn:Ea; [|discriminate].
    destruct (index_of seqb y (p_entries (sc_globals sc))) as [b|] eqn:Eb; [|discriminate].
    cbn in Ei, Ey. pose proof (index_of_lt seqb seqb_eq _ _ _ Ea). pose proof (index_of_lt seqb seqb_eq _ _ _ Eb).
    rewrite pool_id_from_small in Ei, Ey by lia. replace y with x in Hy; auto.
    apply (index_of_nth seqb seqb_eq) in Ea, Eb. assert (a = b) by (injection Ei; injection Ey; lia). congruence.
  - intros Hx. apply in_rev in Hx. destruct (f2_in_r _ _ _ _ A Hx) as (i & Hi & Ei). rewrite Ei. apply existsb_exists.
    exists i. split; auto. apply N.eqb_refl.
Qed.

(** ** Which error is reported *)
Lemma stmnts_app f before rest c : rest <> [] ->
  stmnts_with f (before ++ rest) c = (each_with (f true) before ;; stmnts_with f rest) c.
Proof.
  intros Hr. revert c. induction before as [|e t IH]; intros c; cbn [app each_with]; [reflexivity|].
  change (stmnts_with f (e :: t ++ rest)) with
    (match t ++ rest with [] => f false (fst e) (snd e) ;; ret (snd e) | _ => f true (fst e) (snd e) ;; stmnts_with f (t ++ rest) end).
  destruct (t ++ rest) eqn:Et; [destruct t; [cbn in Et; congruence|discriminate]|]. unfold bind in *.
  destruct (f true (fst e) (snd e) c) as [[a| |] c1]; auto.
Qed.
Lemma compile_cut m before sp n : (exists sc, compile m (before ++ [(n, sp)]) = COk sc) ->
  exists c1 a c2, cnode m (KStmt false) n sp c1 = (COk a, c2) /\ shape c1 = [0] /\ ext c1 (rev (externals_of before)) /\
    forall n' after, compile m (before ++ (n', sp) :: after) =
      match stmnts_with (fun p => cnode m (KStmt p)) ((n', sp) :: after) c1 with
      | (COk _, c) => COk (as_script c) | (CErr e s, _) => CErr e s | (CPanic, _) => CPanic end.
Proof.
  intros [sc H]. unfold compile in *.
  assert (Em : forall n' after, set_main_span (before ++ (n', sp) :: after) = set_main_span (before ++ [(n, sp)])).
  { intros n' after. destruct before as [|e t]; reflexivity. }
  unfold compile_stmnts in *.
  assert (Es : forall n' after c, (set_main_span (before ++ (n', sp) :: after);; stmnts_with (fun p => cnode m (KStmt p)) (before ++ (n', sp) :: after)) c
     = (set_main_span (before ++ [(n, sp)]) ;; each_with (cnode m (KStmt true)) before ;; stmnts_with (fun p => cnode m (KStmt p)) ((n', sp) :: after)) c).
  { intros n' after c. rewrite Em. unfold bind at 1 2. destruct (set_main_span _ c) as [[u| |] c0]; auto.
    rewrite stmnts_app by discriminate. reflexivity. }
  rewrite Es in H. destruct ((set_main_span _ ;; _) _) as [[a| |] c] eqn:E; try discriminate.
  mbi E as u c0 E0. mbi E as u1 c1 E1. cbn [stmnts_with] in E. mbi E as u2 c2 E2. cbn [fst snd] in *.
  assert (T : tri [0] [] (set_main_span (before ++ [(n, sp)]) ;; each_with (fun n sp => cnode m (KStmt true) n sp) before) [0] (rev (externals_of before) ++ []) tru).
  { eapply tri_bind; [apply tri_main|intros ? _]. eapply tri_imp; [apply include_ok, all_nodes|constructor]. }
  destruct (T (compiler_new main_name) u1 c1) as (A1 & A2 & _); auto using ext_new.
  { unfold bind. rewrite E0. exact E1. }
  rewrite app_nil_r in A2.
  exists c1, u2, c2. split; [exact E2|]. split; [auto|]. split; [auto|]. intros n' after. rewrite Es.
  unfold bind at 1. rewrite E0. unfold bind at 1.
  rewrite E1. reflexivity.
Qed.
Lemma stmnts_err (f : bool -> node -> span -> M unit) n sp after c er s : (forall p, fst (f p n sp c) = CErr er s) ->
  fst (stmnts_with f ((n, sp) :: after) c) = CErr er s.
Proof.
  intros H. cbn [stmnts_with]. destruct after; unfold bind; cbn [fst snd]; [specialize (H false)|specialize (H true)];
    destruct (f _ n sp c) as [[]]; cbn in *; try discriminate; congruence.
Qed.

Lemma return_error m before sp v after : (exists sc, compile m (before ++ [(NLiteral LNone, sp)]) = COk sc) ->
  compile m (before ++ (NReturn v, sp) :: after) = CErr EReturnOutsideFunction sp.
Proof.
  intros H. destruct (compile_cut m before sp _ H) as (c1 & a & c2 & _ & Hs & _ & E). rewrite E.
  pose proof (stmnts_err (fun p => cnode m (KStmt p)) (NReturn v) sp after c1 EReturnOutsideFunction sp) as X.
  destruct (stmnts_with _ _ c1) as [r c]. cbn [fst] in X. rewrite X; auto.
  intros p. cbn [cnode]. unfold bind, get_level. injection Hs as Hd _. rewrite Hd. reflexivity.
Qed.
Lemma external_error m before sp x xs v after :
  (exists sc, compile m (before ++ [(NDeclaration (VarDecl (x, xs)) v, sp)]) = COk sc) -> In x (externals_of before) ->
  compile m (before ++ (NExternal (x, xs) v, sp) :: after) = CErr (EExternalRedefined x) xs.
Proof.
  intros H Hx. destruct (compile_cut m before sp _ H) as (c1 & a & c2 & E0 & Hs & He & E). rewrite E.
  pose proof (stmnts_err (fun p => cnode m (KStmt p)) (NExternal (x, xs) v) sp after c1 (EExternalRedefined x) xs) as X.
  destruct (stmnts_with _ _ c1) as [r c]. cbn [fst] in X. rewrite X; auto.
  intros p. cbn [cnode] in *. mbi E0 as u0 c3 E1.
  destruct (expr_ok m (fst v) (static_ok m _) (snd v) 0 [] _ _ _ _ E1 Hs He) as (B1 & [B2 B3] & _).
  unfold bind at 1. rewrite E1. unfold bind at 1, is_global, bind, get_level, ret. injection B1 as Hd _. rewrite Hd. cbn [Nat.eqb negb].
  unfold add_global_symbol. destruct (pool_add seqb (c_globals c3) x) as [pl i] eqn:Ep. unfold add_external. cbn [c_externals].
  apply in_rev in Hx. destruct (f2_in_r _ _ _ _ B2 Hx) as (j & Hj & Ej).
  pose proof (pool_add_keeps (c_globals c3) x x j Ej) as Y1. pose proof (pool_add_id (c_globals c3) x) as Y2. rewrite Ep in *. cbn in *.
  assert (Ex : existsb (N.eqb i) (c_externals c3) = true). { apply existsb_exists. exists j. split; auto. apply N.eqb_eq. congruence. }
  rewrite Ex. reflexivity.
Qed.
Lemma count_rejected m k n sp c : (k = KExpr -> is_statement n = false) ->
  match n with NContext _ _ _ _ | NDeclaration _ _ => False | _ => True end ->
  (exists j, In j (counts n) /\ 255 < j) -> fst (cnode m k n sp c) = CErr (count_error n) sp.
Proof.
  intros Hk Hn (j & Hj & Hlt). apply Nat.ltb_lt in Hlt.
  destruct n; cbn in Hj, Hn; try contradiction; destruct Hj as [<-|[]]; cbn [cnode count_error]; unfold over255; rewrite ?Hlt; try reflexivity.
  - destruct k; [specialize (Hk eq_refl); discriminate|]. unfold bind, function_with, over255. rewrite Hlt. reflexivity.
  - unfold bind, function_with, over255. rewrite Hlt. reflexivity.
  - destruct name. reflexivity.
Qed.
Lemma count_rejected_top m before sp n after : (exists sc, compile m (before ++ [(NLiteral LNone, sp)]) = COk sc) ->
  match n with NContext _ _ _ _ | NDeclaration _ _ => False | _ => True end ->
  (exists j, In j (counts n) /\ 255 < j) -> compile m (before ++ (n, sp) :: after) = CErr (count_error n) sp.
Proof.
  intros H Hn Hj. destruct (compile_cut m before sp _ H) as (c1 & a & c2 & _ & _ & _ & E). rewrite E.
  pose proof (stmnts_err (fun p => cnode m (KStmt p)) n sp after c1 (count_error n) sp) as X.
  destruct (stmnts_with _ _ c1) as [r c]. cbn [fst] in X. rewrite X; auto.
  intros p. apply count_rejected; auto; discriminate.
Qed.
