(** Layout and runs of the machine (C87). *)
From Verif Require Import Base RleVec Pool Vecc Float NumText Value Ast Arith VmOps Args Builtins Parse Compiler CodeSize Vm Std SpecParse
                          SpecReady SpecRel SpecVm SpecEval SpecStd ProofCompiler ProofRel ProofStdRel ProofStdUse ProofStdEx ProofEval2
                          SpecLayout ProofLayout ProofLayoutC.

(** ** Size and places of a tree do not depend on positions *)
Notation one := (fun e : nodeS => (bare (fst e), default_span)).
Lemma many_weight l : Forall (fun e : nodeS => weight (bare (fst e)) = weight (fst e)) l ->
  fold_right (fun (e : nodeS) a => weight (fst e) + a) 0 (map one l) = fold_right (fun (e : nodeS) a => weight (fst e) + a) 0 l.
Proof. induction 1; cbn [map fold_right fst]; auto. Qed.
Lemma var_weight_bare v : var_weight (bare_var v) = var_weight v.
Proof. destruct v; cbn; auto. apply map_length. Qed.
Lemma weight_bare n : weight (bare n) = weight n.
Proof.
  induction n using node_ind'; cbn [bare weight fst]; rewrite ?many_weight, ?map_length, ?var_weight_bare by assumption; auto.

  - destruct o; cbn [option_map]; rewrite ?many_weight by assumption; auto.
  - f_equal; [f_equal; auto|].
    + match goal with H : Forall _ cs |- _ => induction H as [|c cs [K1 K2] _ IH]; cbn [map fold_right fst snd]; auto end.
      rewrite K1, IH, many_weight by assumption. reflexivity.
    + destruct d; cbn [option_map]; rewrite ?many_weight by assumption; auto.
  - destruct v; cbn [option_map]; rewrite ?var_weight_bare; auto.
  - destruct b; cbn [option_map]; rewrite ?many_weight by assumption; auto.
  - destruct e; cbn [option_map fst]; auto.
Qed.
Lemma same_bare {A} (f : node -> A) l l' : (forall n, f (bare n) = f n) -> same_trees l l' -> map (fun e => f (fst e)) l = map (fun e => f (fst e)) l'.
Proof.
  intros H HS. apply same_trees_2 in HS. induction HS as [|e e' l l' HE _ IH]; cbn; auto. rewrite IH, <- (H (fst e)), HE, H. reflexivity.
Qed.
Lemma weights_same l l' : same_trees l l' -> weights l = weights l'.
Proof.
  intros H. apply (same_bare weight _ _ weight_bare) in H. unfold weights. revert l' H.
  induction l as [|e l IH]; intros [|e' l'] H; try discriminate; auto. injection H as H1 H2. cbn. f_equal; auto.
Qed.
Lemma all_placed b l : Forall (fun e : nodeS => forall b, placed b (bare (fst e)) = placed b (fst e)) l ->
  forallb (fun e : nodeS => placed b (fst e)) (map one l) = forallb (fun e : nodeS => placed b (fst e)) l.
Proof. induction 1 as [|e l H _ IH]; cbn [map forallb fst]; auto. rewrite H, IH. reflexivity. Qed.
Lemma first_bare fr a : Forall (fun e : nodeS => forall b, placed b (bare (fst e)) = placed b (fst e)) a ->
  match map one a with [] => true | e :: t => placed fr (fst e) && forallb (fun e0 : nodeS => placed false (fst e0)) t end =
  match a with [] => true | e :: t => placed fr (fst e) && forallb (fun e0 : nodeS => placed false (fst e0)) t end.
Proof. destruct 1 as [|e l H HL]; cbn [map fst]; auto. rewrite H, all_placed by assumption. reflexivity. Qed.
Lemma placed_bare n : forall b, placed b (bare n) = placed b n.
Proof.
  induction n using node_ind'; intros fr; cbn [bare placed fst]; rewrite ?all_placed by assumption; repeat match goal with H : forall b, placed b _ = _ |- _ => rewrite ?H; clear H end; auto.
  - induction H as [|e l K1 K2 IH]; cbn [map]; auto. destruct K2; cbn [map fst] in *; [apply K1|]. rewrite IH, K1. reflexivity.
  - destruct o; cbn [option_map]; rewrite ?all_placed by assumption; auto.
  - f_equal; [f_equal|].
    + match goal with H : Forall _ cs |- _ => induction H as [|c cs [K1 K2] _ IH]; cbn [map forallb fst snd]; auto end.
      rewrite K1, IH, all_placed by assumption. reflexivity.
    + destruct d; cbn [option_map]; rewrite ?all_placed by assumption; auto.
  - apply first_bare; auto.
  - rewrite first_bare by assumption. destruct v; reflexivity.
  - destruct b; cbn [option_map]; rewrite ?all_placed by assumption; auto.
  - destruct e; cbn [option_map fst]; auto.
Qed.
Lemma placed_same l l' : same_trees l l' -> placed_program l -> placed_program l'.
Proof.
  intros H. apply (same_bare (placed true) _ _ (fun n => placed_bare n true)) in H. unfold placed_program. intros HP. refine (eq_trans _ HP). clear HP. symmetry. revert l' H.
  induction l as [|e l IH]; intros [|e' l'] H; try discriminate; auto. injection H as H1 H2. cbn [forallb]. rewrite H1. f_equal. auto.
Qed.

(** ** Values *)
Lemma grel_flip {A B} (R : A -> B -> Prop) v : forall w, grel R v w -> grel (fun y x => R x y) w v.
Proof.
  induction v using gvalue_rect'; intros w HW; inversion HW; subst; try (constructor; auto; fail).
  constructor. match goal with HL : Forall2 _ l ?l' |- _ => clear HW; rename HL into HL; revert HL; generalize l' end. induction H as [|x t HX HT IH]; intros l1 HL; inversion HL; subst; constructor; auto.
Qed.
Lemma grel_comp {A B C} (R : A -> B -> Prop) (S : B -> C -> Prop) (T : A -> C -> Prop) : (forall x y z, R x y -> S y z -> T x z) ->
  forall v w u, grel R v w -> grel S w u -> grel T v u.
Proof.
  intros HT. induction v using gvalue_rect'; intros w u HW HU; inversion HW; subst; inversion HU; subst; try (constructor; eauto; fail).
  constructor. match goal with H1 : Forall2 (grel R) l ?a, H2 : Forall2 (grel S) ?a ?b |- _ => clear HW HU; revert H1 H2; generalize a b end.
  induction H as [|x t HX HT' IH]; intros l1 l2 H1 H2; inversion H1; subst; inversion H2; subst; constructor; eauto.
Qed.
Lemma chain v v' w w' : same_value v w -> like v v' -> same_value v' w' -> alike_value w w'.
Proof.
  intros H1 H2 H3. refine (grel_comp _ _ _ _ _ _ _ (grel_flip _ _ _ H1) (grel_comp _ _ same_function _ _ _ _ H2 H3)).
  - intros x y z [E1 E2] [F1 F2]. split; congruence.
  - intros x y z (E1 & E2 & _) [F1 F2]. split; congruence.
Qed.
Lemma chain_state {D} (st st' : sst (D:=D)) s s' : same_state st s -> like_state st st' -> same_state st' s' -> alike_globals s s'.
Proof.
  intros [H1 H2] HL [H3 H4]. split; [rewrite H1, H3; apply HL|]. intros x. specialize (H2 x). specialize (H4 x). pose proof (global_like x _ _ HL) as HG.
  destruct (global x st), (global x st'), (global_of s x), (global_of s' x); try contradiction; auto. eapply chain; eauto.
Qed.

(** ** The library *)
Lemma both_ways {A B} (R : A -> B -> Prop) x y : rr (grel R) x y -> rr (grel (fun b a => R a b)) y x ->
  match x, y with Ok v, Ok w => grel R v w | Err e, Err e' => e = e' | Panic, Panic => True | _, _ => False end.
Proof. destruct x, y; cbn; auto. Qed.
Lemma flip_list {A B} (R : A -> B -> Prop) l l' : Forall2 (grel R) l l' -> Forall2 (grel (fun b a => R a b)) l' l.
Proof. induction 1; constructor; auto. apply grel_flip; auto. Qed.
Lemma std_blind {D} m orc : blind (std_known (D:=D) m orc).
Proof.
  unfold std_known, std_direct.
  assert (H : forall l (b : rstring -> option (sbuiltin (D:=D))), blind b -> blind (fold_left with_builtin
    (map (fun b => (fst b, SFn (fun (d : D) args o => (d, std_call m orc sfi sfn_eq (o_array_max o) (fst b) args)))) (l : list (rstring * (list sval -> res sval)))) b)).
  { induction l as [|[n f] l IH]; intros b HB; cbn [map fold_left]; auto. apply IH. intros x. unfold with_builtin. cbn [fst snd].
    destruct (seqb x n); [|apply HB]. intros R d vs ws opts HR HV. cbn [fst snd]. split; [reflexivity|]. apply both_ways.
    - apply std_rel; auto; try (intros; apply HR; assumption). intros. exact Logic.I.
    - apply std_rel; auto using flip_list; try (intros; symmetry; apply HR; assumption). intros. exact Logic.I. }
  apply H. intros x. exact Logic.I.
Qed.

(** ** Runs *)
Lemma like_refl v : like v v.
Proof.
  unfold like. induction v using gvalue_rect'; try (constructor; auto; fail).
  - constructor. induction H; constructor; auto.
  - constructor. repeat split.
Qed.
Lemma state_refl {D} (st : sst (D:=D)) : like_state st st.
Proof.
  split; [|split; [|reflexivity]].
  - induction (ss_store st); constructor; auto using like_refl.
  - induction (ss_globals st); constructor; auto using like_refl.
Qed.
Theorem layout_run {D} m (hst : host D) ast ast' sc sc' b st s s' k :
  same_trees ast ast' -> compile m ast = COk sc -> compile m ast' = COk sc' -> weights ast <= N.to_nat 65535 -> placed_program ast ->
  ordinary_names ast -> ordinary_names ast' -> blind b -> starts sc b st s -> starts sc' b st s' -> v_opts s = v_opts s' ->
  length (p_entries (v_gsyms s)) <= N.to_nat 65536 -> length (p_entries (v_gsyms s')) <= N.to_nat 65536 ->
  eval m (h_oracle hst) (v_opts s) (h_enter hst) (h_leave hst) b k ast st <> Unspecified ->
  stopped_by_limit m hst s' \/
  match run m hst k s with
  | RDone w t => exists k' w' t', run m hst k' s' = RDone w' t' /\ alike_value w w' /\ alike_globals t t'
  | RErr e _ t => (e = EStackOverflow \/ exists l, e = ERuntimeLimit l) \/ exists k' sp' t', run m hst k' s' = RErr e sp' t' /\ alike_globals t t'
  | RPanic => False
  | ROut _ => True
  end.
Proof.
  intros HT HC HC' HW HP HN HN' HB HS HS' HO HR HR' HE.
  pose proof (eval_alike m (h_oracle hst) (v_opts s) (h_enter hst) (h_leave hst) b k ast ast' st st HB HT (state_refl st)) as HA.
  pose proof HW as HW'. rewrite (weights_same _ _ HT) in HW'.
  destruct (ProofSim13.whole_program m hst ast' sc' b st s' k HC' HW' (placed_same _ _ HT HP) HN' HS' HR') as [HL|HG]; [left; exact HL|right].
  rewrite <- HO in HG.
  destruct (run_back m hst ast sc b st s HC HW HP HN HS HR k k (le_n k)) as [HU|HM]; [contradiction|].
  destruct (run m hst k s) as [w t|e sp t| |t]; auto.
  - destruct HM as (v & st1 & E1 & HV & HST). rewrite E1 in HA. destruct (eval _ _ _ _ _ _ _ ast' st); cbn [like_out] in HA; try contradiction.
    destruct HA as [HA1 HA2]. destruct HG as (k' & w' & t' & ER & HV' & HST'). exists k', w', t'. split; auto. split; [eapply chain; eauto|eapply chain_state; eauto].
  - destruct HM as [HM|(st1 & E1 & HST)]; [left; exact HM|right]. rewrite E1 in HA. destruct (eval _ _ _ _ _ _ _ ast' st); cbn [like_out] in HA; try contradiction.
    destruct HA as [<- HA2]. destruct HG as (k' & sp' & t' & ER & HST'). exists k', sp', t'. split; auto. eapply chain_state; eauto.
Qed.
Lemma lib_syms {D} (l : list (rstring * builtin D)) : forall s s' : vm D, v_gsyms s = v_gsyms s' -> v_gsyms (add_builtins_list l s) = v_gsyms (add_builtins_list l s').
Proof. induction l as [|[n b] l IH]; intros s s' H; cbn [add_builtins_list]; auto. rewrite H. destruct (pool_add seqb (v_gsyms s') n). apply IH. reflexivity. Qed.
Lemma lib_opts {D} (l : list (rstring * builtin D)) : forall s : vm D, v_opts (add_builtins_list l s) = v_opts s.
Proof. induction l as [|[n b] l IH]; intros s; cbn [add_builtins_list]; auto. destruct (pool_add seqb (v_gsyms s) n). rewrite IH. reflexivity. Qed.
