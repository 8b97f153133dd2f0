(** The code of every syntax tree has consistent stack heights (conclusion). *)
From Verif Require Import Base RleVec Pool Vecc Float NumText Bytecode Chunk Value Ast Arith VmOps
                          Compiler Vm Items CodeRel CodeSize ProofCode ProofCode7 SpecParse SpecReady SpecRel ProofRel ProofHeight ProofHeight2 ProofHeight3.

Ltac Zify.zify_post_hook ::= Z.div_mod_to_equations.

Section Code.
Context (m : mode) (strict : bool).
Notation ftf := (tf strict).
Notation items X := (Forall (iok strict X)).
Notation sc := (sc strict).
Notation tm := (tm strict).

Ltac its := repeat first [ apply Forall_app; split | apply Forall_cons; [exact I|] | assumption | apply Forall_nil
                         | apply one_item; exact I ].
Ltac opt i := apply op_tf; [exact I|cbn [operands]; rewrite ?len_nat; lia|cbn [operands results]; rewrite ?len_nat; lia].

Lemma tame_self n : tm n -> strict = true -> tame n.
Proof. auto. Qed.
Lemma plain_not d : plain d ->
  match d with
  | NDeclaration _ _ | NFunction _ _ _ | NLambda _ _ | NFor _ _ _ | NMultiFor _ _ _
  | NContext _ _ (Some _) _ => False
  | _ => True
  end.
Proof. intros H. apply H. constructor. Qed.

Lemma completes_nil : completes []. Proof. intros a []. Qed.
Lemma completes_cons (e : nodeS) t : completes (e :: t) -> complete (fst e) /\ completes t.
Proof. intros H. split; [apply H; left; auto|intros a Ha; apply H; right; auto]. Qed.
Lemma tms_cons (e : nodeS) t : tms strict (e :: t) -> tm (fst e) /\ tms strict t.
Proof. intros H. split; [apply H; left; auto|intros a Ha; apply H; right; auto]. Qed.
Lemma scs_cons L h (e : nodeS) t : scs strict L h (e :: t) -> sc L h (fst e) /\ scs strict L h t.
Proof. intros H. split; [apply H; left; auto|intros a Ha; apply H; right; auto]. Qed.
Lemma completes_app l l' : completes (l ++ l') -> completes l /\ completes l'.
Proof. intros H. split; intros a Ha; apply H, in_or_app; auto. Qed.
Lemma tms_app l l' : tms strict (l ++ l') -> tms strict l /\ tms strict l'.
Proof. intros H. split; intros a Ha; apply H, in_or_app; auto. Qed.
Lemma scs_app L h l l' : scs strict L h (l ++ l') -> scs strict L h l /\ scs strict L h l'.
Proof. intros H. split; intros a Ha; apply H, in_or_app; auto. Qed.
Lemma sc_up L h h' n : sc L h n -> h <= h' -> sc L h' n.
Proof.
  intros H Hh Hs. destruct (H Hs) as [H1 H2]. split; [|destruct H2; [left; lia|auto]].
  intros x i Hx Hi. specialize (H1 x i Hx Hi). lia.
Qed.
Lemma scs_up L h h' l : scs strict L h l -> h <= h' -> scs strict L h' l.
Proof. intros H Hh a Ha. eapply sc_up; eauto. Qed.
Lemma good_tail f (e e' : nodeS) t : good_body f (e :: e' :: t) -> good_body f (e' :: t).
Proof.
  intros (before & n & sp & H & K). destruct before as [|x b]; [destruct t; discriminate|].
  injection H as -> H. exists b, n, sp. auto.
Qed.
Lemma good_one f (e : nodeS) : good_body f [e] -> if f then exists v, fst e = NReturn v else ~ no_value (fst e).
Proof.
  intros (before & n & sp & H & K). destruct before as [|x [|y b]]; try discriminate.
  injection H as ->. exact K.
Qed.
Lemma good_nil f : ~ good_body f [].
Proof. intros (before & n & sp & H & K). destruct before; discriminate. Qed.

Lemma pops_items X fl n : items X (pops fl n).
Proof.
  assert (F : forall q, items X (flush q)) by (intros q; unfold flush; destruct q as [|[|q]]; its).
  revert n. induction fl as [|b t IH]; intros n; cbn; [apply F|].
  destruct b; [|auto]. its; auto.
Qed.
Lemma exit_items X fl : items X (exit_code fl).
Proof. unfold exit_code. destruct fl; its. apply pops_items. Qed.
Lemma for_items X ci pre cb new b1 b2 : items X ci -> items X pre -> items X cb ->
  items X (for_code ci pre cb new b1 b2).
Proof. intros. unfold for_code. its; first [apply exit_items | apply pops_items]. Qed.

Lemma stmt_kind X g L p n c L' : code_stmt m X g L p n c L' ->
  is_expression n = false -> ~ no_value n -> exists v, n = NReturn v.
Proof. intros H He Hv. destruct H; eauto; try congruence; exfalso; apply Hv; exact I. Qed.

(** The variable of a context. *)
Lemma var_tf L v cv L1 h : code_var L v cv L1 ->
  (strict = true -> v <> None -> length L <= h) ->
  exists k, length L1 = k + length L /\ (forall X, items X cv) /\ ftf cv (h + 1, false) (ends (h + k, false)) /\
            (v = None -> L1 = L).
Proof.
  intros H Hs. destruct H.
  - exists 0. split; [auto|]. split; [intros; its|]. split; [|auto]. opt IPop.
  - exists 1. split; [reflexivity|]. split; [intros; its|]. split; [|discriminate].
    apply tf_plain; [exact I|cbn; lia| |cbn; lia]. intros E. rewrite len_nat. specialize (Hs E ltac:(discriminate)). lia.
  - exists (length xs). split; [rewrite app_length; f_equal; apply (f_equal (@length _)) in H0; rewrite !map_length in H0; auto|].
    split; [intros; its|]. split; [|discriminate]. opt (IUnpack (len xs)).
Qed.

Theorem code_heights :
  (forall X L n c, code_expr m X L n c -> e_spec strict X L n c) /\
  (forall X L l c, code_list m X L l c -> l_spec strict X L l c) /\
  (forall X g L p n c L', code_stmt m X g L p n c L' -> s_spec strict X g L p n c L') /\
  (forall X g L l c L', code_stmts m X g L l c L' -> t_spec strict X g L l c L') /\
  (forall X L l c, code_pops m X L l c -> p_spec strict X L l c) /\
  (forall X L l c, code_block m X L l c -> b_spec strict X L l c) /\
  (forall X L o c, code_else m X L o c -> o_spec strict X L o c) /\
  (forall X L cs d c, code_cases m X L cs d c -> c_spec strict X L cs d c) /\
  (forall X L x args body f caps, code_fun m X L x args body f caps -> f_spec strict X L x args body f caps).
Proof.
  apply code_mind.
  - (* none *) intros X L Hc Ht. split; [its|]. intros h Hs. opt ILoadNone.
  - (* literal *) intros X L l off Hl Hn Hc Ht. destruct (load_const strict X off _ Hn (literal_no_fn l)) as [I1 T1]. auto.
  - (* pair *) intros X L a b ca cb _ IHa _ IHb Hc Ht. useE IHa Hc Ht I1 T1. useE IHb Hc Ht I2 T2.
    split; [its|]. intros h Hs. eapply tf_app; [apply T1; scc|]. eapply tf_app; [apply T2; scc|]. opt ICreatePair.
  - (* array *) intros X L l c Hlen _ IH Hc Ht.
    destruct (IH (completes_of _ (rev l) Hc ltac:(intros a Ha; apply in_rev in Ha; exact Ha))
                 (tms_of _ _ (rev l) Ht ltac:(intros a Ha; apply in_rev in Ha; exact Ha))) as [I1 T1].
    split; [its|]. intros h Hs. eapply tf_app.
    + apply T1. eapply scs_of; [exact Hs|intros a Ha; apply in_rev in Ha; exact Ha|lia].
    + rewrite rev_length. opt (ICreateArray (len l)).
  - (* range *) intros X L a b ca cb _ IHa _ IHb Hc Ht. useE IHa Hc Ht I1 T1. useE IHb Hc Ht I2 T2.
    split; [its|]. intros h Hs. eapply tf_app; [apply T1; scc|]. eapply tf_app; [apply T2; scc|]. opt ICreateRange.
  - (* identifier *) intros X L x r Hr Hc Ht. split; [eapply get_items; eauto|]. intros h Hs.
    eapply get_tf; eauto. intros E. destruct (Hs E). split; auto. apply (Ht E (NIdentifier x)). constructor.
  - (* block *) intros X L body c _ IH Hc Ht.
    destruct (IH (completes_of _ body Hc ltac:(inc)) (tms_of _ _ body Ht ltac:(inc)) (complete_body _ _ _ Hc ltac:(left; reflexivity))) as [I1 T1].
    split; [auto|]. intros h Hs. apply T1. scc.
  - (* assignment *) intros X L x v c r _ IH Hr Hc Ht. useE IH Hc Ht I1 T1.
    split; [its; eapply set_items; eauto|]. intros h Hs. eapply tf_app; [apply T1; scc|].
    eapply set_tf; eauto; [|lia]. intros E. destruct (Hs E) as [H1 _]. split; [intros y i Hy Hi; specialize (H1 y i Hy Hi); lia|].
    apply (Ht E (NAssignment x v)). constructor.
  - (* call *) intros X L f args cf ca Hlen _ IHf _ IHa Hc Ht. useE IHf Hc Ht I1 T1. useL IHa Hc Ht I2 T2.
    split; [its|]. intros h Hs. eapply tf_app; [apply T1; scc|]. eapply tf_app; [apply T2; scc|].
    replace (h + 1) with (h + 1 + length args - N.to_nat (len args)) at 2 by (rewrite len_nat; lia).
    apply tf_callf. rewrite len_nat. lia.
  - (* index *) intros X L t i ct ci _ IHi _ IHt Hc Ht. useE IHi Hc Ht I1 T1. useE IHt Hc Ht I2 T2.
    split; [its|]. intros h Hs. eapply tf_app; [apply T1; scc|]. eapply tf_app; [apply T2; scc|]. opt IIndexGet.
  - (* builtin *) intros X L x args ca g Hlen _ IHa Hg Hc Ht. useL IHa Hc Ht I1 T1.
    split; [its|]. intros h Hs. eapply tf_app; [apply T1; scc|]. opt (ICallBuiltin 0 0).
  - (* context *) intros X L x args v body ca g cv L1 cb new Hlen _ IHa Hg Hv _ IHb Hc Ht.
    useL IHa Hc Ht I1 T1.
    destruct (IHb (completes_of _ body Hc ltac:(inc)) (tms_of _ _ body Ht ltac:(inc))) as [I2 (k & Hk & T2)].
    assert (Hp : forall h, sc L h (NContext x args v body) -> strict = true -> v <> None -> length L <= h).
    { intros h Hs E Hn. destruct (Hs E) as [_ [H|H]]; [auto|]. apply plain_not in H. destruct v; [contradiction|congruence]. }
    split.
    + destruct (var_tf L v cv L1 (length L) Hv ltac:(auto)) as (k1 & _ & Iv & _). its; [apply Iv|apply exit_items].
    + intros h Hs. destruct (var_tf L v cv L1 h Hv (Hp h Hs)) as (k1 & Hk1 & Iv & Tv & Lv).
      eapply tf_app; [apply T1; scc|]. eapply tf_app; [apply (op_tf _ _ _ (h + 1)); [exact I|cbn; rewrite len_nat; lia|cbn; rewrite len_nat; lia]|].
      eapply tf_app; [exact Tv|]. rewrite app_length, Hk1 in Hk.
      assert (S1 : scs strict L1 (h + k1) body).
      { intros a Ha. destruct v as [v|].
        - intros E. apply (sc_len strict); [|exact E]. rewrite Hk1. specialize (Hp h Hs E ltac:(discriminate)). lia.
        - rewrite (Lv eq_refl). eapply sc_child; [exact Hs|cbn; apply in_or_app; right; auto|lia]. }
      destruct (T2 _ S1) as [T3 _].
      eapply tf_app; [apply T3; eapply complete_body; [exact Hc|left; reflexivity]|].
      eapply tf_app; [apply tf_exit; rewrite map_length; lia|].
      rewrite map_length. opt IExitContext.
  - (* if *) intros X L c t o cc ct co _ IHc _ IHt _ IHo Hc Ht. useE IHc Hc Ht I1 T1.
    destruct (IHt (completes_of _ t Hc ltac:(inc)) (tms_of _ _ t Ht ltac:(inc)) (complete_body _ _ _ Hc ltac:(left; reflexivity))) as [I2 T2].
    destruct (IHo (completes_of _ (opt_list (fun b => b) o) Hc ltac:(inc)) (tms_of _ _ (opt_list (fun b => b) o) Ht ltac:(inc))) as [I3 T3].
    { intros b ->. eapply complete_body; [exact Hc|right; left; reflexivity]. }
    split; [its|]. intros h Hs. apply tf_cond.
    + replace (h + 2) with (h + 1 + 1) by lia. apply T1. scc.
    + apply T2. scc.
    + apply T3. scc.
  - (* switch *) intros X L v cs d cv cc _ IHv _ IHc Hc Ht. useE IHv Hc Ht I1 T1.
    destruct (IHc (completes_of _ (case_nodes cs d) Hc ltac:(intros a Ha; right; exact Ha)) (tms_of _ _ (case_nodes cs d) Ht ltac:(intros a Ha; right; exact Ha))) as [I2 T2].
    { intros e b Hin. eapply complete_body; [exact Hc|]. cbn. apply in_or_app. left. apply in_map_iff. exists (e, b). auto. }
    { intros b ->. eapply complete_body; [exact Hc|]. cbn. apply in_or_app. right. left. reflexivity. }
    split; [its|]. intros h Hs. change (It ILoadNone :: cv ++ cc) with ([It ILoadNone] ++ cv ++ cc).
    eapply tf_app; [apply (op_tf _ _ _ (h + 1)); [exact I|cbn; lia|cbn; lia]|].
    eapply tf_app; [apply T1; scc|]. replace (h + 1 + 1) with (h + 2) by lia.
    apply T2. eapply scs_of; [exact Hs|intros a Ha; right; exact Ha|lia].
  - (* while *) intros X L c body cc cb _ IHc _ IHb Hc Ht. useE IHc Hc Ht I1 T1.
    destruct (IHb (completes_of _ body Hc ltac:(inc)) (tms_of _ _ body Ht ltac:(inc)) (complete_body _ _ _ Hc ltac:(left; reflexivity))) as [I2 T2].
    split; [its|]. intros h Hs. apply tf_while.
    + replace (h + 2) with (h + 1 + 1) by lia. apply T1. scc.
    + apply T2. scc.
  - (* for *) intros X L x it body L1 b1 b2 b ci cb new HL1 _ IHi _ IHb Hc Ht. useE IHi Hc Ht I1 T1.
    destruct (IHb (completes_of _ body Hc ltac:(inc)) (tms_of _ _ body Ht ltac:(inc))) as [I2 (k & Hk & T2)].
    split; [apply for_items; its|]. intros h Hs.
    assert (Hl : strict = true -> length L <= h).
    { intros E. destruct (Hs E) as [_ [H|H]]; [auto|]. apply plain_not in H. contradiction. }
    rewrite app_length, HL1 in Hk. cbn [length] in Hk. eapply (tf_for _ _ _ _ _ _ _ _ (h + 3)).
    + replace (h + 2) with (h + 1 + 1) by lia. apply T1. intros E. specialize (Hl E).
      assert (Pl : plain (fst it)) by (apply (Ht E (NFor x it body)); constructor).
      split; [|auto]. intros y i Hy Hi. rewrite HL1 in Hi. cbn [slot_of fst] in Hi.
      assert (Ey : forall n, seqb (temp_name n) y = false).
      { intros n. destruct (seqb (temp_name n) y) eqn:Eq; [|auto]. apply seqb_eq in Eq. subst y. exfalso. apply Hy. reflexivity. }
      rewrite !Ey in Hi. apply slot_lt in Hi. lia.
    + opt ISwapPop.
    + assert (S1 : scs strict ((fst x, b) :: L1) (h + 3) body).
      { intros a Ha E. apply (sc_len strict); [|exact E]. cbn [length]. rewrite HL1. cbn. specialize (Hl E). lia. }
      destruct (T2 _ S1) as [T3 _]. replace (h + 2 + length new + 1) with (h + 3 + k + 1) by lia.
      apply T3. eapply complete_body; [exact Hc|left; reflexivity].
  - (* for, several variables *) intros X L xs it body L1 b1 b2 ci cb new0 new HL1 Hx _ IHi Hn0 _ IHb Hc Ht. useE IHi Hc Ht I1 T1.
    destruct (IHb (completes_of _ body Hc ltac:(inc)) (tms_of _ _ body Ht ltac:(inc))) as [I2 (k & Hk & T2)].
    assert (Hlen0 : length new0 = length xs) by (apply (f_equal (@length _)) in Hn0; rewrite !map_length in Hn0; exact Hn0).
    split; [apply for_items; its|]. intros h Hs.
    assert (Hl : strict = true -> length L <= h).
    { intros E. destruct (Hs E) as [_ [H|H]]; [auto|]. apply plain_not in H. contradiction. }
    rewrite !app_length, HL1 in Hk. cbn [length] in Hk. eapply (tf_for _ _ _ _ _ _ _ _ (h + 2 + length xs)).
    + replace (h + 2) with (h + 1 + 1) by lia. apply T1. intros E. specialize (Hl E).
      assert (Pl : plain (fst it)) by (apply (Ht E (NMultiFor xs it body)); constructor).
      split; [|auto]. intros y i Hy Hi. rewrite HL1 in Hi. cbn [slot_of fst] in Hi.
      assert (Ey : forall n, seqb (temp_name n) y = false).
      { intros n. destruct (seqb (temp_name n) y) eqn:Eq; [|auto]. apply seqb_eq in Eq. subst y. exfalso. apply Hy. reflexivity. }
      rewrite !Ey in Hi. apply slot_lt in Hi. lia.
    + change [It ISwapPop; It (IUnpack (len xs))] with ([It ISwapPop] ++ [It (IUnpack (len xs))]).
      eapply tf_app; [apply (op_tf _ _ _ (h + 3)); [exact I|cbn; lia|cbn; lia]|]. opt (IUnpack (len xs)).
    + assert (S1 : scs strict (new0 ++ L1) (h + 2 + length xs) body).
      { intros a Ha E. apply (sc_len strict); [|exact E]. rewrite app_length, HL1, Hlen0. cbn [length]. specialize (Hl E). lia. }
      destruct (T2 _ S1) as [T3 _]. replace (h + 2 + length new + 1) with (h + 2 + length xs + k + 1) by lia.
      apply T3. eapply complete_body; [exact Hc|left; reflexivity].
  - (* lambda *) intros X L args body off f caps Hn _ IH Hc Ht.
    assert (G1 := completes_of _ body Hc ltac:(inc)). assert (G2 := tms_of _ _ body Ht ltac:(inc)).
    assert (G3 := complete_body _ _ _ Hc ltac:(left; reflexivity)).
    split; [eapply make_fun_tf with (h := length L); eauto|]. intros h Hs. eapply make_fun_tf; eauto.
    intros E. destruct (Hs E) as [_ [H|H]]; [auto|]. apply plain_not in H. contradiction.
  - (* binary *) intros X L o a b ca cb _ IHa _ IHb Ho Hc Ht. useE IHa Hc Ht I1 T1. useE IHb Hc Ht I2 T2.
    split; [its|]. intros h Hs. eapply tf_app; [apply T1; scc|]. eapply tf_app; [apply T2; scc|]. opt (IBinary o).
  - (* folded *) intros X L o a lit off Hf Hn Hc Ht. destruct (load_const strict X off _ Hn (literal_no_fn lit)) as [I1 T1]. auto.
  - (* unary *) intros X L o a ca Hf _ IHa Ho Hc Ht. useE IHa Hc Ht I1 T1.
    split; [its|]. intros h Hs. eapply tf_app; [apply T1; scc|]. opt (IUnary o).
  - (* list *) intros X L Hc Ht. split; [constructor|]. intros h Hs. cbn. rewrite Nat.add_0_r. apply tf_nil.
  - intros X L e t ce ct _ IHe _ IHt Hc Ht. apply completes_cons in Hc as [Hc1 Hc2]. apply tms_cons in Ht as [Ht1 Ht2].
    destruct (IHe Hc1 Ht1) as [I1 T1]. destruct (IHt Hc2 Ht2) as [I2 T2]. split; [its|].
    intros h Hs. apply scs_cons in Hs as [Hs1 Hs2]. eapply tf_app; [apply T1; auto|].
    replace (h + length (e :: t)) with (h + 1 + length t) by (cbn; lia). apply T2. eapply scs_up; eauto; lia.
  - (* return *) intros X L p e c _ IH Hc Ht. useE IH Hc Ht I1 T1. split; [its|]. exists 0. split; [auto|]. split; [auto|].
    intros h Hs. assert (T : ftf (c ++ [It IReturn]) (h, false) nowhere).
    { eapply tf_app; [apply T1; scc|]. apply tf_return. lia. }
    split; [congruence|]. split; [|split; [discriminate|auto]]. intros _. eapply tf_weaken; [exact T|]. intros d z [].
  - (* return nothing *) intros X L p Hc Ht. split; [its|]. exists 0. split; [auto|]. split; [auto|].
    intros h Hs. assert (T : ftf [It ILoadNone; It IReturn] (h, false) nowhere).
    { change [It ILoadNone; It IReturn] with ([It ILoadNone] ++ [It IReturn]).
      eapply tf_app; [apply (op_tf _ _ _ (h + 1)); [exact I|cbn; lia|cbn; lia]|]. apply tf_return. lia. }
    split; [congruence|]. split; [|split; [discriminate|auto]]. intros _. eapply tf_weaken; [exact T|]. intros d z [].
  - (* global function *) intros X L p x args body off f caps g Hn _ IH Hg Hc Ht.
    assert (G1 := completes_of _ body Hc ltac:(inc)). assert (G2 := tms_of _ _ body Ht ltac:(inc)).
    assert (G3 := complete_body _ _ _ Hc ltac:(left; reflexivity)).
    destruct (make_fun_tf strict X L _ _ _ _ _ _ (length L) Hn IH G1 G2 G3 ltac:(auto)) as [I1 _].
    split; [change [make_fun off caps; It (IDefineGlobal (N.of_nat g))] with ([make_fun off caps] ++ [It (IDefineGlobal (N.of_nat g))]); its|].
    exists 0. split; [auto|]. split; [first [auto|discriminate]|]. intros h Hs.
    assert (T : ftf [make_fun off caps; It (IDefineGlobal (N.of_nat g))] (h, false) (ends (h, false))).
    { change [make_fun off caps; It (IDefineGlobal (N.of_nat g))] with ([make_fun off caps] ++ [It (IDefineGlobal (N.of_nat g))]).
      eapply (tf_app _ _ _ _ (h + 1, false)); [|opt IPop]. eapply make_fun_tf; eauto.
      intros E. destruct (Hs E) as [_ [H|H]]; [auto|]. apply plain_not in H. contradiction. }
    rewrite Nat.add_0_r. split; [congruence|]. split; [auto|split; [discriminate|intros [v K]; discriminate]].
  - (* local function *) intros X L p x args body off f caps b Hn _ IH Hc Ht.
    assert (G1 := completes_of _ body Hc ltac:(inc)). assert (G2 := tms_of _ _ body Ht ltac:(inc)).
    assert (G3 := complete_body _ _ _ Hc ltac:(left; reflexivity)).
    destruct (make_fun_tf strict X L _ _ _ _ _ _ (length L) Hn IH G1 G2 G3 ltac:(auto)) as [I1 _].
    split; [change [make_fun off caps; It (ISetLocal (len L))] with ([make_fun off caps] ++ [It (ISetLocal (len L))]); its|].
    exists 1. split; [auto|]. split; [intros K; discriminate K|]. intros h Hs.
    assert (Hl : strict = true -> length L <= h).
    { intros E. destruct (Hs E) as [_ [H|H]]; [auto|]. apply plain_not in H. contradiction. }
    assert (T : ftf [make_fun off caps; It (ISetLocal (len L))] (h, false) (ends (h + 1, false))).
    { change [make_fun off caps; It (ISetLocal (len L))] with ([make_fun off caps] ++ [It (ISetLocal (len L))]).
      eapply tf_app; [eapply make_fun_tf; eauto|].
      apply tf_plain; [exact I|cbn; lia| |cbn; lia]. intros E. rewrite len_nat. specialize (Hl E). lia. }
    split; [auto|]. split; [auto|split; [discriminate|intros [v K]; discriminate]].
  - (* global *) intros X L p x v c g _ IH Hg Hc Ht. useE IH Hc Ht I1 T1. split; [its|]. exists 0. split; [auto|]. split; [auto|].
    intros h Hs. split; [congruence|]. rewrite Nat.add_0_r.
    assert (T : ftf (c ++ [It (IDefineGlobal (N.of_nat g))]) (h, false) (ends (h, false))).
    { eapply tf_app; [apply T1; scc|]. opt IPop. }
    split; [auto|split; [discriminate|intros [w K]; discriminate]].
  - (* local *) intros X L p x v c b _ IH Hc Ht. useE IH Hc Ht I1 T1. split; [its|]. exists 1. split; [auto|]. split; [discriminate|].
    intros h Hs.
    assert (Hl : strict = true -> length L <= h).
    { intros E. destruct (Hs E) as [_ [H|H]]; [auto|]. apply plain_not in H. contradiction. }
    split; [auto|].
    assert (T : ftf (c ++ [It (ISetLocal (len L))]) (h, false) (ends (h + 1, false))).
    { eapply tf_app; [apply T1; scc|].
      apply tf_plain; [exact I|cbn; lia| |cbn; lia]. intros E. rewrite len_nat. specialize (Hl E). lia. }
    split; [auto|split; [discriminate|intros [w K]; discriminate]].
  - (* several globals *) intros X L p xs v c gs Hlen _ IH Hg Hc Ht. useE IH Hc Ht I1 T1.
    assert (Hd : length gs = length xs) by (apply f2_length in Hg; rewrite map_length in Hg; auto).
    split; [its; clear; induction gs; cbn; its|]. exists 0. split; [auto|]. split; [auto|].
    intros h Hs. split; [congruence|]. rewrite Nat.add_0_r.
    assert (T : ftf (c ++ It (IUnpack (len xs)) :: map (fun g => It (IDefineGlobal (N.of_nat g))) gs) (h, false) (ends (h, false))).
    { eapply tf_app; [apply T1; scc|].
      change (It (IUnpack (len xs)) :: map (fun g => It (IDefineGlobal (N.of_nat g))) gs)
        with ([It (IUnpack (len xs))] ++ map (fun g => It (IDefineGlobal (N.of_nat g))) gs).
      eapply tf_app; [apply (op_tf _ _ _ (h + length gs)); [exact I|cbn; lia|cbn; rewrite len_nat; lia]|].
      clear. induction gs as [|g gs IH]; cbn [map length]; [rewrite Nat.add_0_r; apply tf_nil|].
      change (It (IDefineGlobal (N.of_nat g)) :: map (fun g0 => It (IDefineGlobal (N.of_nat g0))) gs)
        with ([It (IDefineGlobal (N.of_nat g))] ++ map (fun g0 => It (IDefineGlobal (N.of_nat g0))) gs).
      eapply tf_app; [|exact IH]. apply op_tf; [exact I|cbn [operands]; lia|cbn [operands results]; lia]. }
    split; [auto|split; [discriminate|intros [w K]; discriminate]].
  - (* several locals *) intros X L p xs v c new Hlen _ IH Hn Hc Ht. useE IH Hc Ht I1 T1. split; [its|].
    assert (Hlen0 : length new = length xs) by (apply (f_equal (@length _)) in Hn; rewrite !map_length in Hn; exact Hn).
    exists (length xs). split; [rewrite app_length; lia|]. split; [intros K; destruct new; [auto|cbn in Hlen0; lia]|]. intros h Hs.
    assert (Hl : strict = true -> length L <= h).
    { intros E. destruct (Hs E) as [_ [H|H]]; [auto|]. apply plain_not in H. contradiction. }
    split; [auto|].
    assert (T : ftf (c ++ [It (IUnpack (len xs))]) (h, false) (ends (h + length xs, false))).
    { eapply tf_app; [apply T1; scc|]. opt IPop. }
    split; [auto|split; [discriminate|intros [w K]; discriminate]].
  - (* external *) intros X L p x v c g _ IH Hg Hc Ht. useE IH Hc Ht I1 T1. split; [its|]. exists 0. split; [auto|]. split; [auto|].
    intros h Hs. split; [congruence|]. rewrite Nat.add_0_r.
    assert (T : ftf (c ++ [It (IDefineGlobalDefaulted (N.of_nat g))]) (h, false) (ends (h, false))).
    { eapply tf_app; [apply T1; scc|]. opt IPop. }
    split; [auto|split; [discriminate|intros [w K]; discriminate]].
  - (* include *) intros X L p x body c _ IH Hc Ht.
    destruct (IH (completes_of _ body Hc ltac:(inc)) (tms_of _ _ body Ht ltac:(inc))) as [I1 T1].
    split; [auto|]. exists 0. split; [auto|]. split; [first [auto|discriminate]|]. intros h Hs. split; [congruence|]. rewrite Nat.add_0_r.
    assert (T : ftf c (h, false) (ends (h, false))) by (apply T1; scc).
    split; [auto|split; [discriminate|intros [w K]; discriminate]].
  - (* expression *) intros X g L p n c He _ IH Hc Ht. destruct (IH Hc Ht) as [I1 T1].
    split; [destruct p; its|]. exists 0. split; [auto|]. split; [first [auto|discriminate]|]. intros h Hs. split; [congruence|]. rewrite Nat.add_0_r.
    assert (Hv : ~ no_value n) by (destruct n; try discriminate; intros []).
    split; [|split].
    + intros [-> | K]; [|contradiction]. eapply tf_app; [apply T1; auto|]. opt IPop.
    + intros -> _. split; [auto|]. rewrite app_nil_r. auto.
    + intros [w ->]. discriminate.
  - (* statements *) intros X g L Hc Ht. split; [constructor|]. exists 0. split; [auto|]. intros h Hs.
    split; intros K; apply good_nil in K; contradiction.
  - (* last *) intros X g L e c L' Hcode IH Hc Ht. apply completes_cons in Hc as [Hc1 _]. apply tms_cons in Ht as [Ht1 _].
    destruct (IH Hc1 Ht1) as [I1 (k & Hk & Hz & T1)]. split; [auto|]. exists k. split; [auto|]. intros h Hs.
    apply scs_cons in Hs as [Hs1 _]. destruct (T1 h Hs1) as (T2 & T3 & T4 & T5). split; intros K; apply good_one in K.
    + destruct (is_expression (fst e)) eqn:Ee; [destruct (T4 eq_refl eq_refl) as [-> T6]; rewrite Nat.add_0_r; exact T6|].
      assert (Hr : exists v, fst e = NReturn v).
      { eapply stmt_kind; eauto. }
      destruct (T5 Hr) as [_ T6]. eapply tf_weaken; [exact T6|]. intros d z [].
    + destruct (T5 K); auto.
  - (* next *) intros X g L e e' t c L1 ct L' _ IHe _ IHt Hc Ht. apply completes_cons in Hc as [Hc1 Hc2]. apply tms_cons in Ht as [Ht1 Ht2].
    destruct (IHe Hc1 Ht1) as [I1 (k & Hk & Hz & T1)]. destruct (IHt Hc2 Ht2) as [I2 (k' & Hk' & T2)]. split; [its|].
    exists (k + k'). split; [lia|]. intros h Hs. apply scs_cons in Hs as [Hs1 Hs2].
    destruct (T1 h Hs1) as (T3 & T4 & _). specialize (T4 (or_introl eq_refl)).
    assert (S2 : scs strict L1 (h + k) (e' :: t)).
    { destruct k as [|k].
      - rewrite (Hz eq_refl). rewrite Nat.add_0_r. exact Hs2.
      - intros a Ha E. apply (sc_len strict); [|exact E]. rewrite Hk.
        assert (length L <= h) by (apply T3; auto; intros ->; lia). lia. }
    destruct (T2 _ S2) as [T5 T6]. split; intros K; apply good_tail in K; eapply tf_app; eauto.
    replace (h + (k + k') + 1) with (h + k + k' + 1) by lia. auto.
  - (* included statements *) intros X L Hc Ht. split; [constructor|]. intros h Hs. apply tf_nil.
  - intros X L e t c ct _ IHe _ IHt Hc Ht. apply completes_cons in Hc as [Hc1 Hc2]. apply tms_cons in Ht as [Ht1 Ht2].
    destruct (IHe Hc1 Ht1) as [I1 (k & Hk & Hz & T1)]. destruct (IHt Hc2 Ht2) as [I2 T2]. split; [its|].
    intros h Hs. apply scs_cons in Hs as [Hs1 Hs2]. destruct (T1 h Hs1) as (_ & T4 & _). specialize (T4 (or_introl eq_refl)).
    assert (k = 0) as -> by lia. rewrite Nat.add_0_r in T4. eapply tf_app; eauto.
  - (* block *) intros X L body c new _ IH Hc Ht Hg. destruct (IH Hc Ht) as [I1 (k & Hk & T1)].
    split; [its; apply exit_items|]. intros h Hs. destruct (T1 h Hs) as [T2 _].
    eapply tf_app; [apply T2; exact Hg|]. rewrite app_length in Hk.
    replace (h + 1) with (h + k + 1 - length (map snd new)) by (rewrite map_length; lia).
    apply tf_exit. rewrite map_length. lia.
  - (* no else *) intros X L Hc Ht Hg. split; [its|]. intros h Hs. opt IPop.
  - (* else *) intros X L b c _ IH Hc Ht Hg. destruct (IH Hc Ht (Hg b eq_refl)) as [I1 T1].
    split; [its|]. intros h Hs. apply pop2. apply T1. exact Hs.
  - (* no case *) intros X L d c _ IH Hc Ht _ Hg. exact (IH Hc Ht Hg).
  - (* case *) intros X L e body t d ce cb ct _ IHe _ IHb _ IHt Hc Ht Hb Hg.
    unfold case_nodes in Hc, Ht. cbn [flat_map fst snd] in Hc, Ht. rewrite <- app_assoc in Hc, Ht.
    apply completes_cons in Hc as [Hc1 Hc2]. apply completes_app in Hc2 as [Hc2 Hc3].
    apply tms_cons in Ht as [Ht1 Ht2]. apply tms_app in Ht2 as [Ht2 Ht3].
    destruct (IHe Hc1 Ht1) as [I1 T1]. destruct (IHb Hc2 Ht2 (Hb e body ltac:(left; auto))) as [I2 T2].
    destruct (IHt Hc3 Ht3 (fun e' b' K => Hb e' b' (or_intror K)) Hg) as [I3 T3].
    split; [its|]. intros h Hs. unfold case_nodes in Hs. cbn [flat_map fst snd] in Hs. rewrite <- app_assoc in Hs.
    apply scs_cons in Hs as [Hs1 Hs2]. apply scs_app in Hs2 as [Hs2 Hs3].
    apply tf_case; [replace (h + 3) with (h + 2 + 1) by lia; apply T1; eapply sc_up; [exact Hs1|lia]|apply T2; auto|apply T3; auto].
  - (* function *) intros X L x args body f caps Lp U bc L' Hlen Hx Ha Hu Hp Hcap Hops Hfits _ IH Hc Ht Hg.
    destruct (IH Hc Ht) as [I1 (k & Hk & T1)]. destruct (cap_bounds _ _ _ _ Hcap) as [B1 B2].
    assert (Hlp : length Lp = S (length args)).
    { apply (f_equal (@length _)) in Hp. rewrite map_length, rev_length in Hp. exact Hp. }
    split; [|auto].
    eapply (fun_ok_intro strict _ f bc U _ _ Hops Hfits); [|exact I1|rewrite Hu; unfold len; f_equal; eapply f2_length; eauto].
    rewrite Ha, len_nat. apply T1; [|exact Hg].
    intros a Hin. apply sc_len. lia.
Qed.

(** The script: its statements leave one value, which is returned. *)
Theorem script_heights ast s : compile m ast = COk s -> weights ast <= u16max -> complete_program ast ->
  (strict = true -> forall n sp, In (n, sp) ast -> tame n) ->
  fun_ok strict 0 (sc_function s).
Proof.
  intros Hc Hw [Hg Hcomp] Ht. destruct (compile_code m ast s Hc Hw) as [code H]. destruct H.
  destruct code_heights as (_ & _ & _ & HT & _).
  destruct (HT _ _ _ _ _ _ sc_code) as [I1 (k & Hk & T1)].
  { intros [n sp] Hin. exact (Hcomp n sp Hin). }
  { intros [n sp] Hin E. exact (Ht E n sp Hin). }
  assert (k = 0) as -> by (cbn in Hk; lia).
  eapply (fun_ok_intro strict 0 _ (code ++ [It IReturn]) [] (p_entries (sc_globals s)) [] sc_ops sc_fits); [|its; exact I1|rewrite sc_ups; reflexivity].
  eapply tf_app; [apply (T1 0); [intros a Ha; apply sc_len; cbn; lia|exact Hg]|]. apply tf_return. lia.
Qed.
End Code.
