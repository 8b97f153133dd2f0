(** The compiler keeps every piece of code with the construct it belongs to (C92, C93). *)
From Verif Require Import Base RleVec Pool Vecc Float NumText Bytecode Chunk Value Ast Arith VmOps
                          Compiler Vm Items CodeSize SpecContainers ContainerHist ProofContainers ProofValue
                          SpecParse SpecReady SpecPos ProofCompiler ProofPos1 ProofPos3.
From Verif Require ProofCode ProofHeight3.
Import ProofCode(pre, pre_refl, pre_trans, pre_app, pre_nth, pre_len, cpool_inv, bind_inv).
Ltac Zify.zify_post_hook ::= Z.div_mod_to_equations.

Lemma wrap16_lt n : (wrap16u n < 65536)%N. Proof. unfold wrap16u. apply N.mod_lt. discriminate. Qed.

Lemma pool_add_entries {V} (eqb : V -> V -> bool) p v :
  p_entries (fst (pool_add eqb p v)) = p_entries p \/ p_entries (fst (pool_add eqb p v)) = p_entries p ++ [v].
Proof. unfold pool_add. destruct (alookup eqb v (p_dups p)); cbn; auto. Qed.

Section Code.
Context (at_ : node -> span -> Prop) (P : span -> Prop).
Local Notation kc := (kc at_ P).
Local Notation kq w d d' js x := (kc w d d' js x nojs yes).
Local Notation st := (st at_ P).
Local Notation lvl := (lvl at_ P).
Local Notation fok := (fok at_ P).
Local Notation means := (means at_ P).
Local Notation after := (after at_ P).

(** ** Constants and names *)
Lemma const_after b v c sh rest id c' : st c (sh :: rest) -> bn b c -> b + 1 <= u16max ->
  (forall q, fn_in q v -> fok (gs c) (mfn_function q)) -> add_constant v c = (COk id, c') ->
  after (b + 1) c c' sh rest (lv_depth (c_level c)) /\ gs c' = gs c /\
  exists off, id = pool_id_from off /\ off <= u16max /\ nth_error (p_entries (lv_consts (c_level c'))) off = Some v.
Proof using.
  intros Hs Hb Hw Hv E. unfold add_constant in E. apply bind_inv in E as (l & c1 & E1 & E). injection E1 as <- <-.
  pose proof (st_cur _ _ _ _ _ Hs) as HL. pose proof (bn_cur _ _ Hb) as [B1 B2].
  pose proof (ProofCode.cpool_add (lv_consts (c_level c)) v (lv_pool _ _ _ _ _ HL) ltac:(lia)) as Hp.
  pose proof (pool_add_entries const_eqb (lv_consts (c_level c)) v) as HE.
  destruct (pool_add const_eqb (lv_consts (c_level c)) v) as [p i]. destruct Hp as (P1 & P2 & P3 & off & P4 & P5 & P6).
  injection E as <- <-. split; [|split; [reflexivity|]].
  - constructor; [| |reflexivity|reflexivity].
    + eapply st_level; [exact Hs|]. destruct HL as [A1 A2 A3 A4 A5 A6 A7 A8].
      constructor; cbn [lv_set_consts lv_chunk lv_consts lv_upcount lv_upvalues lv_name]; try assumption.
      * eapply Forall_impl; [|exact A3]. intros q. apply means_mono; [apply pre_refl|exact P2].
      * intros w q Hw1 Hq. cbn [fst] in HE. destruct HE as [HE|HE]; rewrite HE in Hw1; [eauto|].
        apply in_app_or in Hw1 as [H|[<-|[]]]; eauto.
    + apply (bn_level b (b + 1) c _ Hb ltac:(lia)). split; cbn [lv_set_consts lv_consts lv_upvalues]; lia.
  - exists off. rewrite pool_id_from_small by lia. auto.
Qed.
Lemma kc_const d js v : (forall q, ~ fn_in q v) -> kc 1 d d js (add_constant v) nojs (fun id => (id < 65536)%N).
Proof using.
  intros Hv b c sh rest a c' Hs Hb Hw Hd Hj E.
  destruct (const_after b v c sh rest a c' Hs Hb Hw) as (HA & _ & off & -> & Ho & _); [intros q Hq; destruct (Hv q Hq)|exact E|].
  exists []. rewrite app_nil_r. rewrite <- Hd. split; [exact HA|]. split; [constructor|apply wrap16_lt].
Qed.
Lemma kq_sym d js x : kq 0 d d js (add_symbol x).
Proof using.
  intros b c sh rest a c' Hs Hb Hw Hd Hj E. unfold add_symbol in E. apply bind_inv in E as (l & c1 & E1 & E). injection E1 as <- <-.
  destruct (pool_add seqb (lv_syms (c_level c)) x) as [p i]. injection E as <- <-.
  exists []. rewrite app_nil_r, Nat.add_0_r. split; [|split; [constructor|exact Logic.I]].
  constructor; [|exact (bn_level b b c (lv_set_syms p (c_level c)) Hb (le_n b) (bn_cur _ _ Hb))|exact Hd|reflexivity].
  eapply st_level; [exact Hs|]. eapply lvl_like; [|eapply st_cur; exact Hs]. repeat split.
Qed.
Lemma gsym_after b x c sh rest id c' : st c (sh :: rest) -> bn b c -> add_global_symbol x c = (COk id, c') ->
  after (b + 1) c c' sh rest (lv_depth (c_level c)) /\ named (gs c') id x /\ c_level c' = c_level c.
Proof using.
  intros [Hs Hg] [Hb1 Hb2] E. unfold add_global_symbol in E.
  pose proof (pool_add_inv seqb seqb_eq _ x Hg) as Q1. pose proof (pool_add_entries seqb (c_globals c) x) as HE.
  assert (HN : named (p_entries (fst (pool_add seqb (c_globals c) x))) (snd (pool_add seqb (c_globals c) x)) x).
  { unfold pool_add. destruct Hg as [G1 G2]. rewrite G2. destruct (index_of seqb x (p_entries (c_globals c))) as [i|] eqn:Ei; cbn [option_map].
    - exists i. split; [apply (index_of_nth seqb seqb_eq _ _ _ Ei)|reflexivity].
    - cbn. exists (length (p_entries (c_globals c))). rewrite nth_app_0. split; reflexivity. }
  destruct (pool_add seqb (c_globals c) x) as [p i]. injection E as <- <-. cbn [fst snd] in *.
  assert (HP : pre (gs c) (p_entries p)) by (destruct HE as [->| ->]; [apply pre_refl|apply pre_app]).
  split; [|split; [exact HN|reflexivity]]. constructor; [| |reflexivity|reflexivity].
  - split; [|exact Q1]. cbn [c_level c_enclosing c_globals]. unfold gs in *. cbn [c_globals] in *.
    eapply ProofCode.F2_impl; [|exact Hs]. intros l s. apply lvl_mono. exact HP.
  - split; [unfold gs in *; cbn [c_globals]; destruct HE as [->| ->]; rewrite ?app_length; cbn [length]; lia|].
    eapply Forall_impl; [|exact Hb2]. intros l. unfold lb. lia.
Qed.
Lemma kc_gsym d js x : kc 1 d d js (add_global_symbol x) nojs (fun id => (id < 65536)%N).
Proof using.
  intros b c sh rest a c' Hs Hb Hw Hd Hj E. destruct (gsym_after b x c sh rest a c' Hs Hb E) as (HA & (i & _ & ->) & _).
  exists []. rewrite app_nil_r. rewrite <- Hd. split; [exact HA|]. split; [constructor|apply wrap16_lt].
Qed.
Lemma kq_ext d js off x sp : kq 0 d d js (add_external off x sp).
Proof using.
  intros b c sh rest a c' Hs Hb Hw Hd Hj E. unfold add_external in E. destruct (existsb _ _); [discriminate|]. injection E as <- <-.
  exists []. rewrite app_nil_r, Nat.add_0_r. split; [|split; [constructor|exact Logic.I]].
  constructor; [exact Hs|exact Hb|exact Hd|reflexivity].
Qed.

(** ** Scopes *)
Lemma kq_flush d js q sp : P sp -> (q < 65536)%N -> kq 0 d d js (flush_pops q sp).
Proof using.
  intros Hp Hq. unfold flush_pops. destruct (_ <=? _)%N; [apply (kq_op_u16 _ _ _ _ (IPopMany q)); auto|].
  destruct (_ =? _)%N; [apply (kq_op _ _ _ _ IPop); auto; exact Logic.I|apply kq_ret].
Qed.
Lemma kq_pops d js ops sp : P sp -> forall q, (q < 65536)%N -> kq 0 d d js (emit_pops ops q sp).
Proof using.
  intros Hp. induction ops as [|[] ops IH]; intros q Hq; cbn [emit_pops]; [now apply kq_flush| |apply IH, wrap16_lt].
  apply (kc_seq _ _ 0 0 d d d); [now apply kq_flush|intros]. apply (kc_seq _ _ 0 0 d d d); [|intros; apply IH; reflexivity].
  apply (kq_op _ _ _ _ ICloseUpvalue); auto; exact Logic.I.
Qed.
Lemma kq_exit_scope d js sp : P sp -> kq 0 d (pred d) js (exit_scope sp).
Proof using.
  intros Hp. unfold exit_scope. apply (kc_seq _ _ 0 0 d (pred d) (pred d)); [apply kq_mod; intros; [repeat split|cbn; congruence]|intros _].
  intros b c sh rest a c' Hs Hb Hw Hd Hj E. apply bind_inv in E as (l & c1 & E1 & E). injection E1 as <- <-.
  destruct (leaving _ _) as [ops r]. apply bind_inv in E as (u & c1 & E1 & E). injection E1 as _ <-.
  assert (K : kq 0 (pred d) (pred d) js (match ops with [] => ret tt | _ :: _ => write_op op_BlockResult sp ;; emit_pops ops 0 sp ;; write_op op_BlockReturn sp end)).
  { destruct ops as [|o ops]; [apply kq_ret|]. apply (kc_seq _ _ 0 0 (pred d) (pred d) (pred d)); [apply (kq_op _ _ _ _ IBlockResult); auto; exact Logic.I|intros].
    apply (kc_seq _ _ 0 0 (pred d) (pred d) (pred d)); [apply kq_pops; [exact Hp|reflexivity]|intros]. apply (kq_op _ _ _ _ IBlockReturn); auto; exact Logic.I. }
  set (c1 := mkCompiler _ _ _ _) in E.
  destruct (K b c1 sh rest a c') as (s1 & [K1 K2 K3 K4] & K5); [| |exact Hw|exact Hd|exact Hj|exact E|].
  - eapply st_level; [exact Hs|]. eapply lvl_like; [|eapply st_cur; exact Hs]. repeat split.
  - exact (bn_level b b c (lv_set_locals r (c_level c)) Hb (le_n b) (bn_cur _ _ Hb)).
  - exists s1. split; [|exact K5]. constructor; [exact K1|exact K2|exact K3|exact K4].
Qed.

(** ** Variables *)
Lemma add_upvalue_ok G b l i isl sh : lvl G l sh -> lb b l ->
  lvl G (fst (add_upvalue l i isl)) sh /\ lb (b + 1) (fst (add_upvalue l i isl)) /\
  lv_depth (fst (add_upvalue l i isl)) = lv_depth l /\ (snd (add_upvalue l i isl) < 65536)%N.
Proof using.
  intros [A1 A2 A3 A4 A5 A6 A7 A8] [B1 B2]. unfold add_upvalue. destruct (position _ _); cbn [fst snd].
  - split; [now constructor|]. split; [split; lia|]. split; [reflexivity|apply wrap16_lt].
  - split; [constructor; auto|]. split; [|split; [reflexivity|apply wrap16_lt]].
    split; cbn [lv_set_ups lv_consts lv_upvalues]; [lia|]. rewrite app_length. cbn [length]. lia.
Qed.
Lemma resolve_ok G b x : forall ps l shs, Forall2 (lvl G) (l :: ps) shs -> Forall (lb b) (l :: ps) ->
  forall l' ps' r, resolve_upvalue l ps x = (l', ps', r) ->
  Forall2 (lvl G) (l' :: ps') shs /\ Forall (lb (b + 1)) (l' :: ps') /\ lv_depth l' = lv_depth l /\
  map lv_depth ps' = map lv_depth ps /\ (forall i, r = Some i -> (i < 65536)%N).
Proof using.
  assert (Up : forall ls : list level, Forall (lb b) ls -> Forall (lb (b + 1)) ls).
  { intros ls H. eapply Forall_impl; [|exact H]. intros l. unfold lb. lia. }
  induction ps as [|p ps IH]; intros l shs HF HB l' ps' r E; cbn [resolve_upvalue] in E.
  - injection E as <- <- <-. split; [exact HF|]. split; [auto|]. repeat split; auto. discriminate.
  - inversion HF as [|? s0 ? ss Hl Hps]; subst. inversion HB as [|? ? Bl Bps]; subst.
    destruct (resolve_local (lv_locals p) x true) as [ls [i|]].
    + destruct (add_upvalue_ok G b l i true s0 Hl Bl) as (U1 & U2 & U3 & U4).
      destruct (add_upvalue l i true) as [l1 k]. injection E as <- <- <-. cbn [fst snd] in *.
      inversion Hps as [|? s1 ? ss1 Hp Hps1]; subst. inversion Bps; subst.
      split; [constructor; [exact U1|]; constructor; [|exact Hps1]; eapply lvl_like; [|exact Hp]; repeat split|].
      split; [constructor; [exact U2|]; constructor; [unfold lb in *; cbn; lia|auto]|]. split; [exact U3|]. split; [reflexivity|]. intros ? [= <-]. exact U4.
    + destruct (resolve_upvalue p ps x) as [[p1 ps1] o] eqn:Er. destruct (IH p ss Hps Bps _ _ _ Er) as (R1 & R2 & R3 & R4 & R5).
      destruct o as [i|].
      * destruct (add_upvalue_ok G b l i false s0 Hl Bl) as (U1 & U2 & U3 & U4).
        destruct (add_upvalue l i false) as [l1 k]. injection E as <- <- <-. cbn [fst snd] in *.
        split; [constructor; auto|]. split; [constructor; auto|]. split; [exact U3|]. cbn [map]. split; [congruence|]. intros ? [= <-]. exact U4.
      * injection E as <- <- <-. split; [constructor; auto|]. split; [constructor; [unfold lb in *; lia|auto]|]. split; [reflexivity|].
        cbn [map]. split; [congruence|]. discriminate.
Qed.
Lemma resolve_none b x : forall ps l l1 ps1, resolve_upvalue l ps x = (l1, ps1, None) ->
  Forall (lb b) (l :: ps) -> Forall (lb b) (l1 :: ps1).
Proof using.
  induction ps as [|p ps IH]; intros l l1 ps1 HN HB; cbn [resolve_upvalue] in HN.
  - injection HN as <- <-. exact HB.
  - destruct (resolve_local (lv_locals p) x true) as [ls [i|]]; [destruct (add_upvalue l i true); discriminate|].
    destruct (resolve_upvalue p ps x) as [[p' rest'] [i|]] eqn:E; [destruct (add_upvalue l i false); discriminate|].
    injection HN as <- <-. inversion HB; subst. constructor; [assumption|]. eapply IH; eauto.
Qed.
Lemma kq_variable d js iL iU iG oL oU oG x sp : P sp ->
  (forall i, enc (iL i) = oL :: u16b i /\ quiet (iL i) = true /\ ((i < 65536)%N -> fits (iL i))) ->
  (forall i, enc (iU i) = oU :: u16b i /\ quiet (iU i) = true /\ ((i < 65536)%N -> fits (iU i))) ->
  (forall i, enc (iG i) = oG :: u16b i /\ ((i < 65536)%N -> fits (iG i)) /\ forall k, iG i <> ICreateClosure k) ->
  (forall G C i, named G i x -> means G C (mkPiece (PIns (iG i)) sp sp)) ->
  kq 1 d d js (variable_op oL oU oG x sp).
Proof using.
  intros Hp HL HU HG Hm b c sh rest a c' Hs Hb Hw Hd Hj E. unfold variable_op in E.
  apply bind_inv in E as (l & c1 & E1 & E). injection E1 as <- <-.
  destruct (resolve_local (lv_locals (c_level c)) x false) as [ls [i|]] eqn:El; cbn [snd] in E.
  - assert (Hi : (i < 65536)%N).
    { clear - El. revert ls El. induction (lv_locals (c_level c)) as [|y t IH]; cbn [resolve_local]; intros ls El; [discriminate|].
      destruct (seqb _ _); [injection El as _ <-; apply wrap16_lt|]. destruct (resolve_local t x false) as [t' r]. injection El as _ ->. eapply IH; eauto. }
    destruct (HL i) as (F1 & F2 & F3). refine (kc_le _ _ 0 1 d d js _ _ _ (kq_op_u16 _ _ d js (iL i) oL i sp F1 F2 (F3 Hi) Hp) _ b c sh rest a c' Hs Hb Hw Hd Hj E). lia.
  - apply bind_inv in E as (r & c1 & E1 & E). unfold resolve_upvalue_m in E1.
    destruct (resolve_upvalue (c_level c) (c_enclosing c) x) as [[l1 ps1] o] eqn:Er. injection E1 as <- <-.
    destruct Hs as [Hs Hg]. destruct Hb as [Hb1 Hb2].
    destruct (resolve_ok _ b x _ _ _ Hs Hb2 _ _ _ Er) as (R1 & R2 & R3 & R4 & R5).
    set (c1 := mkCompiler l1 ps1 (c_globals c) (c_externals c)) in *.
    assert (Hs1 : st c1 (sh :: rest)) by (split; [exact R1|exact Hg]).
    assert (Hb1' : bn (b + 1) c1) by (split; [unfold gs in *; cbn; lia|exact R2]).
    destruct o as [i|].
    + destruct (HU i) as (F1 & F2 & F3).
      destruct (kq_op_u16 at_ P d js (iU i) oU i sp F1 F2 (F3 (R5 i eq_refl)) Hp (b + 1) c1 sh rest a c' Hs1 Hb1' ltac:(lia) ltac:(cbn; congruence) Hj E)
        as (sh' & [K1 K2 K3 K4] & K). exists sh'. split; [|exact K]. rewrite Nat.add_0_r in K2. constructor; auto. rewrite K4. exact R4.
    + apply bind_inv in E as (off & c2 & E1 & E).
      assert (HN : resolve_upvalue (c_level c) (c_enclosing c) x = (l1, ps1, None)) by exact Er.
      assert (Hb0 : bn b c1).
      { split; [exact Hb1|]. exact (resolve_none b x _ _ _ _ HN Hb2). }
      destruct (gsym_after b x c1 sh rest off c2 Hs1 Hb0 E1) as ([A1 A2 A3 A4] & HNm & HLv).
      destruct (HG off) as (F1 & F2 & F3). destruct HNm as (k & Hk & Ho).
      assert (Hoff : (off < 65536)%N) by (rewrite Ho; apply wrap16_lt).
      assert (KB : pbytes (PIns (iG off)) (enc (iG off))) by (constructor; auto).
      exists [mkPiece (PIns (iG off)) sp sp]. split; [|split; [constructor|exact Logic.I]].
      assert (HA : after (b + 1) c2 c' (sh ++ [mkPiece (PIns (iG off)) sp sp]) rest (lv_depth (c_level c2))).
      { refine (emit_piece at_ P (b + 1) (mkPiece (PIns (iG off)) sp sp) (enc (iG off)) (write_op_u16 oG off sp) c2 sh rest a c' _ KB _ A1 A2 E).
        - rewrite (pspans_same _ _ _ KB). cbn [plen]. rewrite F1. apply adds_op_u16.
        - apply Hm. exists k. auto. }
      destruct HA as [Z1 Z2 Z3 Z4]. constructor; [exact Z1|exact Z2| |].
      * rewrite Z3, A3. cbn. congruence.
      * rewrite Z4, A4. exact R4.
Qed.
Lemma kq_get_variable d js x sp : P sp -> at_ (NIdentifier x) sp -> kq 1 d d js (get_variable x sp).
Proof using.
  intros Hp Ha. apply (kq_variable d js ILoadLocal ILoadUpvalue ILoadGlobal); try (intros; cbn; repeat split; auto; discriminate); auto.
  intros G C i Hn. exact (me_load _ _ _ _ _ x sp Ha Hn).
Qed.
Lemma kq_set_variable d js x sp v asp : P sp -> at_ (NAssignment (x, sp) v) asp -> kq 1 d d js (set_variable x sp).
Proof using.
  intros Hp Ha. apply (kq_variable d js ISetLocal ISetUpvalue ISetGlobal); try (intros; cbn; repeat split; auto; discriminate); auto.
  intros G C i Hn. exact (me_set _ _ _ _ _ x sp v asp Ha Hn).
Qed.
Lemma kq_define d js x cl : kq 0 d d js (define_local x cl).
Proof using.
  apply (kc_seq _ _ 0 0 d d d); [apply kq_get|intros l]. apply (kc_seq _ _ 0 0 d d d).
  - destruct (declared_here _ _ _); [apply kq_mod; intros; [repeat split|auto]|]. apply (kc_seq _ _ 0 0 d d d); [apply kq_sym|intros; apply kq_ret].
  - intros. apply kq_mod; intros; [repeat split|auto].
Qed.
Lemma kq_declare d js x sp : P sp -> kq 0 d d js (define_local x true ;; set_variable x sp).
Proof using.
  intros Hp b c sh rest a c' Hs Hb Hw Hd Hj E. apply bind_inv in E as (u & c1 & E1 & E).
  destruct (kq_define d js x true b c sh rest u c1 Hs Hb Hw Hd Hj E1) as (s1 & [A1 A2 A3 A4] & _).
  rewrite Nat.add_0_r in A2.
  assert (HL : exists y t, lv_locals (c_level c1) = y :: t /\ l_name y = x).
  { unfold define_local in E1. apply bind_inv in E1 as (l & c2 & E2 & E1). apply bind_inv in E1 as (u2 & c3 & E3 & E1).
    injection E1 as _ <-. cbn. eexists _, _. split; reflexivity. }
  destruct HL as (y & t & EL & EN). unfold set_variable, variable_op in E. apply bind_inv in E as (l & c2 & E2 & E). injection E2 as <- <-.
  rewrite EL in E. cbn [resolve_local] in E. rewrite EN, (proj2 (seqb_eq x x) eq_refl) in E. cbn [snd] in E.
  destruct (kq_op_u16 at_ P d js (ISetLocal (wrap16u (N.of_nat (length t)))) op_SetLocal (wrap16u (N.of_nat (length t))) sp
     eq_refl eq_refl (wrap16_lt _) Hp b c1 (sh ++ s1) rest a c' A1 A2 ltac:(lia) A3) as (s2 & [B1 B2 B3 B4] & K); [|exact E|].
  - eapply Forall_impl; [|exact Hj]. intros j. apply jat_app.
  - exists (s1 ++ s2). rewrite app_assoc. split; [|exact K]. constructor; [exact B1| |exact B3|congruence]. exact B2.
Qed.
Lemma kq_defines d js l : kq 0 d d js (define_locals l).
Proof using. induction l as [|x l IH]; cbn [define_locals]; [apply kq_ret|]. apply (kc_seq _ _ 0 0 d d d); [apply kq_define|intros; exact IH]. Qed.
Lemma kq_temps d js n : kq 0 d d js (reserve_temps n).
Proof using.
  induction n as [|n IH]; cbn [reserve_temps]; [apply kq_ret|]. apply (kc_seq _ _ 0 0 d d d); [apply kq_get|intros].
  apply (kc_seq _ _ 0 0 d d d); [apply kq_define|intros; exact IH].
Qed.
Lemma kq_fin d js k sp : P sp -> kq 0 d d js (fin k sp).
Proof using. intros Hp. destruct k as [|[]]; cbn [fin]; try apply kq_ret. apply (kq_op _ _ _ _ IPop); auto; exact Logic.I. Qed.
Lemma kq_define_global d js x i o sp : (forall off, enc (i off) = o :: u16b off /\ quiet (i off) = true /\ ((off < 65536)%N -> fits (i off))) ->
  P sp -> kq 1 d d js (do off <- add_global_symbol x; write_op_u16 o off sp).
Proof using.
  intros Hi Hp. apply (kc_bind _ _ 1 0 d d d _ _ _ _ _ _ _ (kc_gsym d js x)). intros off Ho. destruct (Hi off) as (F1 & F2 & F3).
  apply (kq_op_u16 _ _ _ _ (i off)); auto.
Qed.
Lemma kq_globals d js l : (forall x, In x l -> P (snd x)) -> kq (length l) d d js (define_globals l).
Proof using.
  induction l as [|[x sp] l IH]; intros H; cbn [define_globals length]; [apply kq_ret|].
  apply (kc_bind _ _ 1 (length l) d d d _ _ _ _ _ _ _ (kc_gsym d js x)). intros off Ho.
  apply (kc_seq _ _ 0 (length l) d d d); [apply (kq_op_u16 _ _ _ _ (IDefineGlobal off)); auto; apply (H (x, sp)); now left|].
  intros. apply IH. intros y Hy. apply H. now right.
Qed.
Lemma kq_patches d js l sp : (forall j, In j l -> In j js) -> kq 0 d d js (patch_all l sp).
Proof using.
  induction l as [|j l IH]; intros H; cbn [patch_all]; [apply kq_ret|].
  apply (kc_seq _ _ 0 0 d d d); [apply kq_patch, H; now left|intros]. apply IH. intros; apply H. now right.
Qed.

(** ** Calls of host functions *)
Lemma kc_builtin {A} w d d' js o x sp csp n (i : N -> N -> instr) (K : M A) Q (R : A -> Prop) :
  (forall off, enc (i off n) = o :: u16b off ++ [n] /\ ((off < 65536)%N -> fits (i off n)) /\ forall k, i off n <> ICreateClosure k) ->
  (forall G C off, named G off x -> means G C (mkPiece (PIns (i off n)) sp csp)) ->
  kc w d d' js K Q R ->
  kc (1 + w) d d' js (write_op o sp ;; do off <- add_global_symbol x; write_u16 off sp ;; write_u8 n csp ;; K) Q R.
Proof using.
  intros Hi Hm HK b c sh rest a c' Hs Hb Hw Hd Hj E.
  assert (E2 : (do off <- add_global_symbol x; (write_op o sp ;; write_u16 off sp ;; write_u8 n csp) ;; K) c = (COk a, c')).
  { rewrite <- E. unfold bind, add_global_symbol, write_op, write_u16, write_u8, mod_level, bind, get_level, set_level.
    destruct c as [l e g ex]. cbn [c_level c_enclosing c_globals c_externals]. destruct (pool_add seqb g x) as [p id]. reflexivity. }
  clear E. apply bind_inv in E2 as (off & c1 & E1 & E). apply bind_inv in E as (u & c2 & E2 & E).
  destruct (gsym_after b x c sh rest off c1 Hs Hb E1) as ([A1 A2 A3 A4] & HN & HL).
  destruct (Hi off) as (F1 & F2 & F3). assert (Hoff : (off < 65536)%N) by (destruct HN as (k & _ & ->); apply wrap16_lt).
  assert (KB : pbytes (PIns (i off n)) (enc (i off n))) by (constructor; auto).
  assert (HA : after (b + 1) c1 c2 (sh ++ [mkPiece (PIns (i off n)) sp csp]) rest (lv_depth (c_level c1))).
  { refine (emit_piece at_ P (b + 1) (mkPiece (PIns (i off n)) sp csp) (enc (i off n)) _ c1 sh rest u c2 _ KB (Hm _ _ _ HN) A1 A2 E2).
    unfold pspans. cbn [p_sp p_last p_kind plen]. rewrite F1.
    exact (adds_bind _ _ _ _ _ _ (adds_op o sp) (adds_bind _ _ _ _ _ _ (adds_u16 off sp) (adds_u8 n csp))). }
  destruct HA as [B1 B2 B3 B4].
  destruct (HK (b + 1) c2 _ rest a c' B1 B2 ltac:(lia) ltac:(congruence)) as (s2 & [Z1 Z2 Z3 Z4] & Z); [|exact E|].
  - eapply Forall_impl; [|exact Hj]. intros j. apply jat_app.
  - exists ([mkPiece (PIns (i off n)) sp csp] ++ s2). rewrite app_assoc. split; [|exact Z]. constructor; [exact Z1| |exact Z3|congruence].
    replace (b + (1 + w)) with (b + 1 + w) by lia. exact Z2.
Qed.
End Code.
