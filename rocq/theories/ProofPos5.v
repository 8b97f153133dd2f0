(** The compiler keeps every piece of code with the construct it belongs to, continued: whole
    programs (C92, C93). *)
From Verif Require Import Base RleVec Pool Vecc Float NumText Bytecode Chunk Value Ast Arith VmOps
                          Compiler Vm Items CodeSize SpecContainers ContainerHist ProofContainers ProofValue
                          SpecParse SpecReady SpecPos ProofCompiler ProofPos1 ProofPos3 ProofPos4.
From Verif Require ProofCode ProofHeight3.
Import ProofCode(pre, pre_refl, pre_trans, pre_app, pre_nth, pre_len, cpool_inv, bind_inv).
Ltac Zify.zify_post_hook ::= Z.div_mod_to_equations.

Section Code.
Context (at_ : node -> span -> Prop) (P : span -> Prop).
Local Notation kc := (kc at_ P).
Local Notation kq w d d' js x := (kc w d d' js x nojs yes).
Local Notation st := (st at_ P).
Local Notation lvl := (lvl at_ P).
Local Notation fok := (fok at_ P).
Local Notation means := (means at_ P).
Local Notation after := (after at_ P).

Definition each_ok (f : node -> span -> M unit) (l : list nodeS) : Prop :=
  Forall (fun e : nodeS => P (snd e) /\ forall d js, kq (weight (fst e)) d d js (f (fst e) (snd e))) l.
Lemma kc_stmnts f d js l : (forall p, each_ok (f p) l) -> kc (weights l) d d js (stmnts_with f l) nojs (fun sp => l <> [] -> P sp).
Proof using.
  induction l as [|e l IH]; intros H; cbn [stmnts_with].
  - apply kc_ret; [intros j []|congruence].
  - pose proof (H true) as H1. pose proof (H false) as H2. inversion H1 as [|? ? [Hp Ht] _]; subst. inversion H2 as [|? ? [_ Hf] _]; subst.
    destruct l as [|e2 l].
    + change (weights [e]) with (weight (fst e) + 0). apply (kc_seq _ _ _ _ d d d); [apply Hf|intros]. apply kc_ret; [intros j []|auto].
    + change (weights (e :: e2 :: l)) with (weight (fst e) + weights (e2 :: l)). apply (kc_seq _ _ _ _ d d d); [apply Ht|intros _].
      assert (K : kc (weights (e2 :: l)) d d js (stmnts_with f (e2 :: l)) nojs (fun sp => e2 :: l <> [] -> P sp)).
      { apply IH. intros p. specialize (H p). now inversion H. }
      intros b c sh rest a c' Hs Hb Hw Hd Hj E. destruct (K b c sh rest a c' Hs Hb Hw Hd Hj E) as (s1 & K1 & K2 & K3).
      exists s1. split; [exact K1|]. split; [exact K2|]. intros _. apply K3. discriminate.
Qed.
Lemma kq_weak {A} w d d' js (x : M A) Q (R : A -> Prop) : kc w d d' js x Q R -> kq w d d' js x.
Proof using.
  intros K b c sh rest a c' Hs Hb Hw Hd Hj E. destruct (K b c sh rest a c' Hs Hb Hw Hd Hj E) as (s1 & K1 & K2 & K3).
  exists s1. split; [exact K1|]. split; [constructor|exact Logic.I].
Qed.
Lemma kq_stmnts f d js l : (forall p, each_ok (f p) l) -> kq (weights l) d d js (stmnts_with f l).
Proof using. intros H. eapply kq_weak, kc_stmnts, H. Qed.
Lemma kq_each f d js l : each_ok f l -> kq (weights l) d d js (each_with f l).
Proof using.
  induction 1 as [|e l [_ He] Hl IH]; cbn [each_with]; [apply kq_ret|].
  change (weights (e :: l)) with (weight (fst e) + weights l). apply (kc_seq _ _ _ _ d d d); [apply He|intros; exact IH].
Qed.
Lemma kq_each_rev f d js l : each_ok f l -> kq (weights l) d d js (each_rev_with f l).
Proof using.
  induction 1 as [|e l [_ He] Hl IH]; cbn [each_rev_with]; [apply kq_ret|].
  change (weights (e :: l)) with (weight (fst e) + weights l). rewrite Nat.add_comm. apply (kc_seq _ _ _ _ d d d); [exact IH|intros; apply He].
Qed.
Lemma kq_block f d js l : l <> [] -> (forall p, each_ok (f p) l) -> kq (weights l) d d js (block_with f l).
Proof using.
  intros Hn H. unfold block_with. apply (kc_seq _ _ 0 (weights l) d (S d) d); [apply kq_enter_scope|intros].
  rewrite <- (Nat.add_0_r (weights l)). eapply kc_bind; [apply (kc_stmnts f (S d) js l H)|]. intros sp Hp. apply (kq_exit_scope at_ P (S d)). auto.
Qed.

(** Functions. *)
Lemma kq_function f nm args body sp d js : P sp -> P (snd nm) -> (forall p, each_ok (f p) body) ->
  kq (weights body + 1) d d js (function_with f nm args body sp).
Proof using.
  intros Hp Hn Hbody b c sh rest a c' Hs Hb Hw Hd Hj E. unfold function_with in E. destruct (over255 args); [discriminate|].
  apply bind_inv in E as (l0 & c0 & E1 & E). injection E1 as <- <-. apply bind_inv in E as (u1 & c1 & E1 & E). injection E1 as _ <-.
  set (L0 := new_level _ _ _) in E. set (c1 := mkCompiler _ _ _ _) in E.
  assert (Hs1 : st c1 ([] :: sh :: rest)).
  { destruct Hs as [H1 H2]. split; [|exact H2]. constructor; [|exact H1]. constructor; cbn; auto.
    - apply codes_nil.
    - intros v id H. discriminate.
    - intros v q []. }
  assert (Hb1 : bn b c1). { destruct Hb as [H1 H2]. split; [exact H1|]. constructor; [|exact H2]. split; cbn; lia. }
  assert (E5 : exists sp5 c5, (enter_scope ;; define_local (fst nm) true ;; define_locals (map fst args) ;; stmnts_with f body) c1 = (COk sp5, c5) /\
    (do fu <- exit_level; do off <- add_constant (VFn (MFun (fst fu)));
      match snd fu with [] => write_op_u16 op_CreateFunction off sp | us => write_op_u16 op_CreateClosure off sp ;; write_upvalues us sp end) c5 = (COk a, c')).
  { apply bind_inv in E as (u2 & c2 & E2 & E). apply bind_inv in E as (u3 & c3 & E3 & E). apply bind_inv in E as (u4 & c4 & E4 & E).
    apply bind_inv in E as (u5 & c5 & E5 & E). exists u5, c5. split; [|exact E]. unfold bind. rewrite E2, E3, E4. exact E5. }
  clear E. destruct E5 as (sp5 & c5 & E5 & E).
  assert (K : kq (weights body) d (S d) [] (enter_scope ;; define_local (fst nm) true ;; define_locals (map fst args) ;; stmnts_with f body)).
  { apply (kc_seq _ _ 0 (weights body) d (S d) (S d)); [apply kq_enter_scope|intros]. apply (kc_seq _ _ 0 (weights body) (S d) (S d) (S d)); [apply kq_define|intros].
    apply (kc_seq _ _ 0 (weights body) (S d) (S d) (S d)); [apply kq_defines|intros]. apply kq_stmnts, Hbody. }
  destruct (K b c1 [] (sh :: rest) sp5 c5 Hs1 Hb1 ltac:(lia) Hd (Forall_nil _) E5) as (sh5 & [A1 A2 A3 A4] & _). clear K E5 Hs1 Hb1.
  cbn [app] in A1. apply bind_inv in E as (fu & c6 & E6 & E). unfold exit_level in E6.
  destruct (c_enclosing c5) as [|l6 r6] eqn:Ee; [discriminate|]. injection E6 as <- <-.
  subst c1. cbn [c_enclosing map] in A4. injection A4 as A4 A4'. destruct A1 as [A1 Ag]. rewrite Ee in A1.
  inversion A1 as [|? ? ? ? HL5 HR]; subst. destruct A2 as [B1 B2]. rewrite Ee in B2. inversion B2 as [|? ? BL5 BR]; subst.
  set (c6 := mkCompiler l6 r6 (c_globals c5) (c_externals c5)) in *.
  assert (Hs6 : st c6 (sh :: rest)) by (split; [exact HR|exact Ag]).
  assert (Hb6 : bn (b + weights body) c6) by (split; [exact B1|exact BR]).
  apply bind_inv in E as (off & c7 & E7 & E). unfold level_finish in E7, E. rewrite A3 in E7, E. cbn [Nat.eqb fst snd] in E7, E.
  set (fn := mkFunction _ _ _ _ _) in E7.
  assert (Hfn : fok (gs c6) fn).
  { destruct HL5 as [F1 F2 F3 F4 F5 F6 F7]. apply (fok_intro at_ P (gs c6) fn sh5); cbn; auto. destruct BL5. lia. }
  destruct (const_after at_ P (b + weights body) (VFn (MFun fn)) c6 sh rest off c7 Hs6 Hb6 ltac:(lia)) as ([Z1 Z2 Z3 Z4] & Zg & i & Ei & Hi & Hni); [|exact E7|].
  { intros q Hq. inversion Hq; subst. exact Hfn. }
  assert (Hoff : (off < 65536)%N) by (rewrite Ei; apply wrap16_lt).
  assert (Hfun : is_fun (p_entries (lv_consts (c_level c7))) off fn) by (exists i; auto).
  assert (Fin : exists p, after (b + weights body + 1) c7 c' (sh ++ [p]) rest (lv_depth (c_level c7))).
  { destruct (lv_upvalues (c_level c5)) as [|u us] eqn:Eu.
    - exists (mkPiece (PIns (ICreateFunction off)) sp sp). assert (KB : pbytes (PIns (ICreateFunction off)) (enc (ICreateFunction off))) by (constructor; [exact Hoff|discriminate]).
      refine (emit_piece at_ P _ (mkPiece (PIns (ICreateFunction off)) sp sp) _ _ c7 sh rest a c' _ KB _ Z1 Z2 E); [rewrite (pspans_same _ _ _ KB); apply adds_op_u16|].
      exact (me_fun _ _ _ _ off fn sp Hp Hfun).
    - exists (mkPiece (PClo off (u :: us)) sp sp). assert (KB : pbytes (PClo off (u :: us)) (enc (ICreateClosure off) ++ flat_map cap_bytes (u :: us))) by (constructor; exact Hoff).
      refine (emit_piece at_ P _ (mkPiece (PClo off (u :: us)) sp sp) _ _ c7 sh rest a c' _ KB _ Z1 Z2 E).
      + rewrite (pspans_same _ _ _ KB). cbn [plen]. rewrite repeat_app. exact (adds_bind _ _ _ _ _ _ (adds_op_u16 op_CreateClosure off sp) (adds_ups (u :: us) sp)).
      + apply (me_clo _ _ _ _ off (u :: us) fn sp Hp Hfun). subst fn. cbn [fn_upcount]. rewrite (lv_ups _ _ _ _ _ HL5), Eu.
        destruct BL5 as [_ BL5]. rewrite Eu in BL5. apply pool_id_from_small. lia. }
  destruct Fin as (p & [Y1 Y2 Y3 Y4]). exists [p]. split; [|split; [constructor|exact Logic.I]].
  constructor; [exact Y1| | |].
  - rewrite Nat.add_assoc. exact Y2.
  - rewrite Y3, Z3. exact A4.
  - rewrite Y4, Z4. exact A4'.
Qed.

(** ** Nodes *)
Context (HatP : forall n sp, at_ n sp -> P sp)
        (Hnames : forall n sp x, at_ n sp -> In x (names_of n) -> P (snd x))
        (Hkids : forall n sp c csp, at_ n sp -> In (c, csp) (children n) -> at_ c csp)
        (Hbody : forall n sp f b, at_ n sp -> In (f, b) (bodies n) -> b <> []).
Context (m : mode).
Definition nk (n : node) : Prop := forall sp, at_ n sp -> forall k d js, kq (weight n) d d js (cnode m k n sp).
Lemma kids_ok n sp (l : list nodeS) k : at_ n sp -> (forall e, In e l -> In e (children n)) -> Forall (fun e => nk (fst e)) l ->
  each_ok (cnode m k) l.
Proof using Hkids HatP.
  intros Ha Hi H. unfold each_ok. rewrite Forall_forall in *. intros [c csp] Hc. cbn [fst snd].
  pose proof (Hkids n sp c csp Ha (Hi _ Hc)) as Hk. split; [eapply HatP; eauto|]. intros d js. apply (H _ Hc). exact Hk.
Qed.
Lemma kid_ok n sp (e : nodeS) : at_ n sp -> In e (children n) -> nk (fst e) ->
  P (snd e) /\ forall k d js, kq (weight (fst e)) d d js (cnode m k (fst e) (snd e)).
Proof using Hkids HatP.
  intros Ha Hi H. destruct e as [c csp]. pose proof (Hkids n sp c csp Ha Hi) as Hk. cbn [fst snd]. split; [eapply HatP; eauto|].
  intros k d js. apply H. exact Hk.
Qed.
Lemma cases_ok d : forall cs js, (forall cb, In cb cs -> P (snd (fst cb)) /\ snd cb <> [] /\
      (forall k d js, kq (weight (fst (fst cb))) d d js (cnode m k (fst (fst cb)) (snd (fst cb)))) /\
      forall p, each_ok (cnode m (KStmt p)) (snd cb)) ->
  kc (case_weights cs) d d js (cases_with (cnode m) cs) (fun l => l) yes.
Proof using.
  induction cs as [|cb cs IH]; intros js I; cbn [cases_with].
  - apply kc_ret; [intros j []|exact Logic.I].
  - destruct (I cb (or_introl eq_refl)) as (Hp & Hn & Ha & Hb).
    eapply kc_le; [|shelve]. eapply kc_seq; [apply Ha|intros _].
    eapply kc_bind; [apply (kc_jump _ _ _ _ JNotEq); intros; constructor; auto|intros else_jump _].
    eapply kc_seq; [apply (kq_op_u16 _ _ _ _ (IPopMany 2)); auto; reflexivity|intros _].
    eapply kc_seq; [apply (kq_block (fun p => cnode m (KStmt p))); auto|intros _].
    eapply kc_bind; [apply (kc_jump _ _ _ _ JForward); intros; constructor; auto|intros end_jump _].
    eapply kc_seq; [apply kq_patch; cbn; auto|intros _].
    eapply kc_bind; [apply IH; intros; apply I; now right|intros js' _].
    apply kc_ret; [|exact Logic.I]. intros j [<-|Hj]; rewrite ?in_app_iff; cbn; auto.
    Unshelve. cbn [case_weights fold_right]. unfold case_weights. lia.
Qed.

Lemma len8_fits {A} (l : list A) : over255 l = false -> (len8 l < 256)%N.
Proof using. unfold over255, len8. intros H. apply Nat.ltb_ge in H. lia. Qed.
Ltac ko := first
  [ apply kq_get | apply kq_len | apply kq_is_global | apply kq_enter_scope | apply kq_temps | apply kq_define | apply kq_defines
  | apply kq_exit_scope; auto | apply kq_back; auto | apply kq_patch; cbn; auto | apply kq_ext
  | apply kq_each; auto | apply kq_each_rev; auto | apply kq_stmnts; auto
  | apply (kq_block (fun p => cnode m (KStmt p))); auto
  | apply (kq_op _ _ _ _ ILoadNone); [reflexivity|reflexivity|exact Logic.I|auto]
  | apply (kq_op _ _ _ _ IPop); [reflexivity|reflexivity|exact Logic.I|auto]
  | apply (kq_op _ _ _ _ IReturn); [reflexivity|reflexivity|exact Logic.I|auto]
  | apply (kq_op _ _ _ _ ICreatePair); [reflexivity|reflexivity|exact Logic.I|auto]
  | apply (kq_op _ _ _ _ INewLoopCtx); [reflexivity|reflexivity|exact Logic.I|auto]
  | apply (kq_op _ _ _ _ ISwapPop); [reflexivity|reflexivity|exact Logic.I|auto]
  | apply (kq_op_u16 _ _ _ _ (IPopMany 2)); [reflexivity|reflexivity|reflexivity|auto]
  | eapply (kq_own_op _ _ _ _ IIndexGet); [reflexivity|constructor|eassumption|exact Logic.I]
  | eapply (kq_own_op _ _ _ _ ICreateRange); [reflexivity|constructor|eassumption|exact Logic.I]
  | eapply (kq_own_op _ _ _ _ IExitContext); [reflexivity|constructor|eassumption|exact Logic.I]
  | eapply (kq_own_u8 _ _ _ _ (ICreateArray (len8 _))); [reflexivity|constructor|eassumption|apply len8_fits; assumption]
  | eapply (kq_own_u8 _ _ _ _ (ICallFunction (len8 _))); [reflexivity|constructor|eassumption|apply len8_fits; assumption]
  | eapply (kq_own_u8 _ _ _ _ (IUnpack (len8 _))); [reflexivity|constructor|eassumption|apply len8_fits; assumption]
  | apply kq_get_variable; auto
  | eapply kq_set_variable; eauto
  | apply (kq_function (fun p => cnode m (KStmt p))); auto
  | match goal with H : forall k d js, kq _ d d js (cnode m k (fst ?e) (snd ?e)) |- kq _ _ _ _ (cnode m _ (fst ?e) (snd ?e)) => apply H end ].
Ltac kt := match goal with
  | |- kc _ _ _ _ (bind (write_jump op_JumpForward _) _) _ _ =>
      eapply kc_bind; [apply (kc_jump _ _ _ _ JForward); intros; constructor; auto|intros ? _]
  | |- kc _ _ _ _ (bind (write_jump op_JumpIfFalse _) _) _ _ =>
      eapply kc_bind; [apply (kc_jump _ _ _ _ JFalse); intros; eapply me_branch; [constructor|eassumption]|intros ? _]
  | |- kc _ _ _ _ (bind (write_jump op_IterNext _) _) _ _ =>
      eapply kc_bind; [apply (kc_jump _ _ _ _ JIter); intros; eapply me_branch; [constructor|eassumption]|intros ? _]
  | |- kc _ _ _ _ (bind _ _) _ _ => eapply kc_seq; [solve [ko]|intros ?]
  | |- kc _ _ _ _ (fin _ _) _ _ => cbn [Init.Nat.pred]; apply kq_fin; auto
  | |- kc _ _ _ _ (fail _ _) _ _ => apply kc_fail
  | |- kc _ _ _ _ crash _ _ => apply kc_crash
  | |- kc _ _ _ _ (ret _) _ _ => apply kq_ret
  end.
Ltac kw := match goal with |- _ <= weight ?n => rewrite (weight_eq n) end; cbn [weight1 opt_weights var_weight fst snd]; lia.
Ltac ks := eapply kc_le; [|shelve].
Lemma nk_cnode n : nk n.
Proof using Hkids HatP Hnames Hbody.
  induction n using node_ind'; unfold nk; intros sp L k dd js; cbn [cnode].
  all: pose proof (HatP _ _ L) as W1; pose proof (fun x => Hnames _ _ x L) as W2; cbn [names_of] in W2;
       pose proof (fun f b => Hbody _ _ f b L) as W3; cbn [bodies] in W3.
  all: repeat match goal with
    | H : Forall (fun e : nodeS => nk (fst e)) ?l |- _ =>
       assert (forall k, each_ok (cnode m k) l)
         by (intros; refine (kids_ok _ sp l _ L _ H); cbn [children opt_list]; intros e0 He0; cbn [In]; rewrite ?in_app_iff; auto); clear H
    | H : nk (fst ?e) |- _ =>
       let K := fresh "K" in
       assert (K : P (snd e) /\ forall k d js, kq (weight (fst e)) d d js (cnode m k (fst e) (snd e)))
         by (refine (kid_ok _ sp e L _ H); cbn; rewrite ?in_app_iff; auto);
       destruct K as [? ?]; clear H
    end.
  - (* Literal *)
    assert (K : forall v, (forall q, ~ fn_in q v) -> kq 1 dd dd js (do off <- add_constant v; write_op_u16 op_LoadConst off sp ;; fin k sp)).
    { intros v Hv. apply (kc_bind _ _ 1 0 dd dd dd _ _ _ _ _ _ _ (kc_const at_ P dd js v Hv)). intros off Ho.
      apply (kc_seq _ _ 0 0 dd dd dd); [apply (kq_op_u16 _ _ _ _ (ILoadConst off)); auto|intros; apply kq_fin; auto]. }
    change (weight (NLiteral l)) with 1.
    destruct l; try (apply K; intros q; apply ProofHeight3.literal_no_fn; fail). eapply kc_le; [repeat kt|lia].
  - (* Array *) destruct (over255 l) eqn:Eo; [apply kc_fail|]. eapply kc_le; [repeat kt|kw].
  - (* Pair *) eapply kc_le; [repeat kt|kw].
  - (* Range *) eapply kc_le; [repeat kt|kw].
  - (* Identifier *) eapply kc_le; [repeat kt|kw].
  - (* Declaration *)
    destruct k as [|pp]; [apply kc_fail|]. destruct v as [[x vsp]|names].
    + apply (kc_le _ _ (weight (fst e) + (0 + 1))); [kt; kt|kw]. destruct a0.
      * apply (kq_define_global _ _ _ _ _ IDefineGlobal); [intros; repeat split; auto|apply (W2 (x, vsp)); now left].
      * eapply kc_le; [apply kq_declare; apply (W2 (x, vsp)); now left|auto].
    + destruct (over255 names) eqn:Eo.
      * apply (kc_le _ _ (weight (fst e) + 0)); [kt; apply kc_fail|kw].
      * apply (kc_le _ _ (weight (fst e) + (0 + (0 + length names)))); [kt; kt; kt|kw]. destruct a1.
        -- apply kq_globals. exact W2.
        -- eapply kc_le; [apply kq_defines|apply Nat.le_0_l].
  - (* External *)
    destruct x as [x vsp]. destruct k as [|pp]; [apply kc_fail|].
    apply (kc_le _ _ (weight (fst e) + (0 + (1 + (0 + 0))))); [kt; kt|kw]. destruct a0; cbn [negb]; [|apply kc_fail].
    apply (kc_bind _ _ _ _ dd dd dd _ _ _ _ _ _ _ (kc_gsym at_ P dd js x)). intros off Ho. kt.
    apply (kq_op_u16 _ _ _ _ (IDefineGlobalDefaulted off)); auto. apply (W2 (x, vsp)). now left.
  - (* Assignment *)
    destruct x as [x vsp]. pose proof (W2 (x, vsp) (or_introl eq_refl)) as W4. cbn [snd] in W4. eapply kc_le; [repeat kt|kw].
  - (* Function *)
    destruct k as [|pp]; [apply kc_fail|]. pose proof (W2 x (or_introl eq_refl)) as W4.
    apply (kc_le _ _ (weights b + 1 + (0 + 1))); [kt; kt|kw]. destruct a1.
    + apply (kq_define_global _ _ _ _ _ IDefineGlobal); [intros; repeat split; auto|auto].
    + eapply kc_le; [apply kq_declare; auto|auto].
  - (* Lambda *) eapply kc_le; [repeat kt|kw].
  - (* Block *) assert (b <> []) by (eapply W3; now left). eapply kc_le; [repeat kt|kw].
  - (* Conditional *)
    assert (t <> []) by (eapply W3; now left). destruct o as [b|].
    + assert (b <> []) by (eapply W3; right; now left).
      assert (forall k, each_ok (cnode m k) b) by (intros; refine (kids_ok _ sp b _ L _ H1); cbn; intros e He; right; apply in_app_iff; auto).
      eapply kc_le; [repeat kt; eapply kc_seq; [repeat kt; ko|intros; repeat kt]|kw].
    + eapply kc_le; [repeat kt|kw].
  - (* Switch *)
    assert (K3 : kc (case_weights cs) dd dd js (cases_with (cnode m) cs) (fun l => l) yes).
    { apply cases_ok. rewrite Forall_forall in H0. intros cb Hcb. destruct (H0 _ Hcb) as [Ha Hb].
      assert (J : forall e, In e (fst cb :: snd cb) -> In e (children (NSwitch v cs d))).
      { intros e He. cbn. right. apply in_app_iff. left. apply in_flat_map. eauto. }
      destruct (kid_ok _ sp (fst cb) L (J _ (or_introl eq_refl)) Ha) as [Hp Hk]. split; [exact Hp|].
      split; [eapply W3; apply in_app_iff; left; apply in_map_iff; exists cb; split; [reflexivity|exact Hcb]|].
      split; [exact Hk|]. intros p. refine (kids_ok _ sp (snd cb) _ L _ Hb). intros e He. apply J. now right. }
    assert (K4 : forall js2, kq (opt_weights d) dd dd js2 match d with
      | Some b => write_op_u16 op_PopMany 2 sp ;; block_with (fun p => cnode m (KStmt p)) b
      | None => write_op op_Pop sp end).
    { intros js2. destruct d as [b|]; cbn [opt_weights].
      - assert (b <> []) by (eapply W3; apply in_app_iff; right; now left).
        assert (forall k, each_ok (cnode m k) b) by (intros; refine (kids_ok _ sp b _ L _ H1); cbn; intros e He; right; apply in_app_iff; auto).
        eapply kc_le; [kt; ko|lia].
      - ko. }
    eapply kc_le; [kt; kt; eapply kc_bind; [exact K3|intros js1 _]; eapply kc_seq; [apply K4|intros];
      eapply kc_seq; [apply kq_patches; intros; apply in_app_iff; auto|intros; kt]|kw].
  - (* For *)
    destruct x as [x nsp]. pose proof (W2 (x, nsp) (or_introl eq_refl)) as W4. cbn [snd] in W4. eapply kc_le; [repeat kt|kw].
  - (* MultiFor *)
    eapply kc_le; [kt; destruct (over255 x) eqn:Eo|].
    + apply kc_fail.
    + do 8 kt. eapply kc_seq.
      { apply (kq_piece at_ P _ _ (mkPiece (PIns (IUnpack (len8 x))) (snd i) (snd i)) [op_Unpack; len8 x]).
        - apply adds_op_u8.
        - apply pb_ins; [exact (len8_fits x Eo)|discriminate].
        - intros G C. eapply me_unpack; eauto. }
      intros. repeat kt.
    + kw.
  - (* While *) assert (b <> []) by (eapply W3; now left). eapply kc_le; [repeat kt|kw].
  - (* Binary *)
    eapply kc_le; [kt; kt; eapply (kc_seq _ _ 0); [|intros; kt]|kw].
    destruct (binary_opcode o) as [c|] eqn:Ec; [|apply kc_crash].
    eapply (kq_own_op _ _ _ _ (IBinary o)); [cbn; now rewrite Ec|constructor|eassumption|cbn; congruence].
  - (* Unary *)
    apply (kc_le _ _ (weight (fst a) + 1 + 0)); [|kw]. eapply kc_seq; [|intros; kt].
    destruct (fold_unary m o (fst a)) as [[lit| |]|]; try apply kc_crash.
    + eapply kc_le; [eapply kc_bind; [apply (kc_const at_ P dd js (literal_to_value lit)); intros q; apply ProofHeight3.literal_no_fn|intros off Ho]|].
      * apply (kq_op_u16 _ _ _ _ (ILoadConst off)); auto.
      * lia.
    + eapply kc_le; [kt|].
      * match goal with |- kc ?w _ _ _ _ _ _ => unify w 0 end. destruct (unary_opcode o) as [c|] eqn:Ec; [|apply kc_crash].
        eapply (kq_own_op _ _ _ _ (IUnary o)); [cbn; now rewrite Ec|constructor|eassumption|cbn; congruence].
      * lia.
  - (* Call *) destruct (over255 a) eqn:Eo; [apply kc_fail|]. eapply kc_le; [repeat kt|kw].
  - (* BuiltinCall *)
    destruct x as [x csp]. destruct (over255 a) eqn:Eo; [apply kc_fail|].
    eapply kc_le; [kt; eapply (kc_builtin at_ P _ _ _ _ _ _ _ _ _ ICallBuiltin)|].
    + intros off. split; [reflexivity|]. split; [|discriminate]. intros Ho. split; [exact Ho|exact (len8_fits a Eo)].
    + intros G C off Hn. eapply me_call; eauto.
    + kt.
    + kw.
  - (* Context *)
    destruct x as [x csp]. destruct (over255 a) eqn:Eo; [apply kc_fail|].
    apply (kc_le _ _ (weights a + (1 + (0 + (match v with Some v => var_weight v | None => 0 end + (weights b + (0 + (0 + 0)))))))); [|kw].
    kt. eapply (kc_builtin at_ P _ _ _ _ _ _ _ _ _ IEnterContext).
    + intros off. split; [reflexivity|]. split; [|discriminate]. intros Ho. split; [exact Ho|exact (len8_fits a Eo)].
    + intros G C off Hn. eapply me_enter; eauto.
    + kt. eapply (kc_seq _ _ _ _ (S dd) (S dd) dd); [|intros; repeat kt]. destruct v as [[[vn vsp]|names]|].
      * eapply kc_le; [apply kq_declare; apply (W2 (vn, vsp)); cbn; auto|apply Nat.le_0_l].
      * destruct (over255 names) eqn:En; [apply kc_fail|]. eapply kc_le; [kt; apply kq_defines|apply Nat.le_0_l].
      * eapply kc_le; [ko|apply Nat.le_0_l].
  - (* IndexGet *) eapply kc_le; [repeat kt|kw].
  - (* Include *)
    destruct x as [x vsp]. destruct k as [|pp]; [apply kc_fail|].
    apply (kc_le _ _ (0 + opt_weights b)); [|kw]. kt. destruct (0 <? lv_depth a); [apply kc_fail|]. destruct b as [b|]; [|apply kc_fail].
    apply (kq_each (cnode m (KStmt true))). refine (kids_ok _ sp b _ L _ H). cbn. auto.
  - (* Return *)
    destruct k as [|pp]; [apply kc_fail|].
    apply (kc_le _ _ (0 + (match e with Some v => weight (fst v) | None => 0 end + 0))); [|kw; destruct e; lia]. kt.
    destruct (lv_depth a =? 0); [apply kc_fail|]. eapply kc_seq; [|intros; ko]. destruct e as [v|]; [|ko].
    destruct (kid_ok _ sp v L (or_introl eq_refl) H) as [_ K]. apply K.
Qed.
End Code.
