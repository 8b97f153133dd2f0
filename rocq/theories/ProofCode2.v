(** Names, scopes and jumps of the compiler against the relation of CodeRel.v. *)
From Verif Require Import Base RleVec Pool Vecc Float NumText Bytecode Chunk Value Ast Arith VmOps
                          Compiler Vm Items CodeRel SpecContainers ContainerHist ProofContainers
                          ProofValue ProofCompiler ProofCode.

Ltac Zify.zify_post_hook ::= Z.div_mod_to_equations.

Section Naming.
Context {P : naming}.

(** ** Slots *)
Lemma slot_of_lt L x i : slot_of L x = Some i -> i < length L.
Proof.
  induction L as [|y L IH]; cbn; [discriminate|]. destruct (seqb (fst y) x).
  - intros H; injection H as <-. lia.
  - intros H. apply IH in H. lia.
Qed.
Lemma slot_of_names L L' x : map fst L = map fst L' -> slot_of L x = slot_of L' x.
Proof.
  revert L'; induction L as [|y L IH]; intros [|y' L'] H; cbn in *; try discriminate; auto.
  injection H as H1 H2. rewrite H1, (IH _ H2).
  apply (f_equal (@length _)) in H2. rewrite !map_length in H2. rewrite H2. reflexivity.
Qed.
Lemma slot_of_none L x : slot_of L x = None <-> ~ In x (map fst L).
Proof.
  induction L as [|y L IH]; cbn; [tauto|]. destruct (seqb (fst y) x) eqn:E.
  - apply seqb_eq in E. split; [discriminate|]. intros H. exfalso. auto.
  - rewrite IH. assert (fst y <> x) by (intros Hx; rewrite Hx, seqb_refl in E; discriminate). tauto.
Qed.
Lemma slot_of_nth L x i : slot_of L x = Some i -> exists f, nth_error (rev L) i = Some (x, f).
Proof.
  induction L as [|y L IH]; cbn [slot_of rev]; [discriminate|]. destruct (seqb (fst y) x) eqn:E.
  - intros H; injection H as <-. apply seqb_eq in E. subst x. exists (snd y).
    rewrite <- (rev_length L), nth_app_0. destruct y; reflexivity.
  - intros H. pose proof (slot_of_lt _ _ _ H) as Hl. destruct (IH H) as [f Hf]. exists f.
    rewrite nth_error_app1 by (rewrite rev_length; auto). exact Hf.
Qed.

Lemma wrap16_small i : i <= u16max -> wrap16u (N.of_nat i) = N.of_nat i.
Proof. intros H. unfold wrap16u. apply N.mod_small. lia. Qed.

Lemma resolve_local_snd ls x cap :
  snd (resolve_local ls x cap)
  = option_map (fun i => wrap16u (N.of_nat i)) (slot_of (map view1 ls) x).
Proof.
  induction ls as [|l t IH]; cbn [resolve_local map slot_of]; [reflexivity|].
  cbn [view1 fst]. destruct (seqb (l_name l) x); cbn [snd option_map].
  - rewrite map_length. reflexivity.
  - destruct (resolve_local t x cap). exact IH.
Qed.
Lemma resolve_local_fst ls x : Forall2 loc_le ls (fst (resolve_local ls x true)).
Proof.
  induction ls as [|l t IH]; cbn [resolve_local]; [constructor|].
  destruct (seqb (l_name l) x).
  - cbn. constructor; [|apply F2_refl, loc_le_refl]. repeat split; cbn; auto. intros ->. reflexivity.
  - destruct (resolve_local t x true). cbn in *. constructor; auto. apply loc_le_refl.
Qed.
Lemma resolve_local_flag ls x i : slot_of (map view1 ls) x = Some i ->
  nth_error (rev (map view1 (fst (resolve_local ls x true)))) i = Some (x, true).
Proof.
  induction ls as [|l t IH]; cbn [resolve_local map slot_of]; [discriminate|].
  cbn [view1 fst]. destruct (seqb (l_name l) x) eqn:E.
  - intros H. injection H as <-. apply seqb_eq in E. subst x. cbn [fst map rev].
    rewrite <- (rev_length (map view1 t)), nth_app_0. cbn. unfold view1; cbn.
    rewrite Bool.orb_true_r. reflexivity.
  - intros H. pose proof (slot_of_lt _ _ _ H) as Hl. rewrite map_length in Hl. specialize (IH H).
    pose proof (F2_len _ _ _ (resolve_local_fst t x)) as El.
    destruct (resolve_local t x true) as [t' r]. cbn [fst map rev] in *.
    rewrite nth_error_app1; auto. rewrite rev_length, map_length. lia.
Qed.

Definition vle (L L' : locals) : Prop := Forall2 fin_le L L'.
Lemma vle_names L L' : vle L L' -> map fst L = map fst L'.
Proof. induction 1; cbn; auto. destruct H as [-> _]. congruence. Qed.
Lemma loc_le_view a b : Forall2 loc_le a b -> vle (map view1 a) (map view1 b).
Proof.
  intros H. apply F2_map. eapply F2_impl; [|exact H]. intros x y (A & _ & _ & B). split; auto.
Qed.
Lemma vle_trans a b c : vle a b -> vle b c -> vle a c.
Proof. apply F2_trans. intros x y z [A1 A2] [B1 B2]. split; [congruence|auto]. Qed.

Lemma cap_ok_mono X X' L L' c x : x_outer X' = x_outer X -> pre (x_ups X) (x_ups X') -> vle L L' ->
  cap_ok X L c x -> cap_ok X' L' c x.
Proof.
  intros Ho Hu Hl. unfold cap_ok. rewrite Ho, <- (slot_of_names L L') by (apply vle_names; auto).
  intros [Hok Hc]. split; [exact Hok|]. revert Hc. destruct (snd c).
  - intros [A B]. split; auto. destruct (F2_nth _ _ _ _ _ (F2_rev _ _ _ Hl) B) as ([y f] & C & D & E).
    cbn in *. subst y. rewrite C. rewrite (E eq_refl). reflexivity.
  - intros (A & B & C). repeat split; auto. eapply pre_nth; eauto.
Qed.
Lemma cap_ok_inj X L c x y : cap_ok X L c x -> cap_ok X L c y -> x = y.
Proof. unfold cap_ok. destruct (snd c); intros [_ H1] [_ H2]; intuition congruence. Qed.

Lemma position_spec {A} (p : A -> bool) l i : position p l = Some i ->
  exists x, nth_error l i = Some x /\ p x = true.
Proof.
  revert i; induction l as [|x t IH]; intros i; cbn; [discriminate|].
  destruct (p x) eqn:E; intros H.
  - injection H as <-. exists x. auto.
  - destruct (position p t) as [j|]; cbn in H; [|discriminate]. injection H as <-.
    destruct (IH _ eq_refl) as (y & A1 & A2). exists y. auto.
Qed.

(** ** Captured variables *)
Lemma add_upvalue_ok X L l un b i isl x l' k :
  Forall2 (cap_ok X L) (lv_upvalues l) un -> lev_ok l -> lev_b b l -> b + 1 <= u16max ->
  cap_ok X L (i, isl) x -> add_upvalue l i isl = (l', k) ->
  exists un', pre un un' /\ Forall2 (cap_ok X L) (lv_upvalues l') un' /\ lev_ok l' /\ lev_b (b + 1) l' /\
    lvl_le l l' /\ view l' = view l /\
    exists j, k = N.of_nat j /\ j <= u16max /\ nth_error un' j = Some x.
Proof.
  intros H Hk (B1 & B2 & B3) Hb Hc Ha. unfold add_upvalue in Ha.
  destruct (position _ _) as [j|] eqn:Ep; injection Ha as <- <-.
  - destruct (position_spec _ _ _ Ep) as ([i' l'] & E1 & E2).
    unfold up_eqb in E2. cbn in E2. apply andb_prop in E2. destruct E2 as [E2 E3].
    apply N.eqb_eq in E2. apply Bool.eqb_prop in E3. subst i' l'.
    destruct (F2_nth _ _ _ _ _ H E1) as (y & E4 & E5).
    pose proof (cap_ok_inj _ _ _ _ _ Hc E5). subst y.
    exists un. split; [apply pre_refl|]. split; [exact H|]. split; [exact Hk|]. split; [unfold lev_b; lia|].
    split; [apply lvl_le_refl|]. split; [reflexivity|].
    + assert (Hj : j < length (lv_upvalues l)) by (apply nth_error_Some; congruence).
      exists j. rewrite wrap16_small by lia. repeat split; auto. lia.
  - pose proof (F2_len _ _ _ H) as Hlen.
    assert (Hw : wrap16u (N.of_nat (length (lv_upvalues l ++ [(i, isl)]))) = N.of_nat (length (lv_upvalues l ++ [(i, isl)]))).
    { apply wrap16_small. rewrite app_length. cbn. lia. }
    exists (un ++ [x]). split; [apply pre_app|]. split; [|split; [|split; [|split; [|split]]]].
    + cbn. apply Forall2_app; auto.
    + destruct Hk. constructor; cbn; auto.
    + unfold lev_b; cbn. rewrite app_length. cbn. lia.
    + constructor; cbn; auto using pre_app. apply F2_refl, loc_le_refl.
    + reflexivity.
    + exists (length (lv_upvalues l)). rewrite wrap16_small by lia. repeat split; auto; [lia|].
      rewrite Hlen, nth_app_0. reflexivity.
Qed.

Lemma lev_ok_locals l ls : lev_ok l -> Forall2 loc_le (lv_locals l) ls -> lev_ok (lv_set_locals ls l).
Proof.
  intros [K1 K2 K3] H. constructor; cbn; auto. revert K3. generalize (lv_depth l). clear - H.
  intros dd K3. induction H; [constructor|]. inversion K3; subst. constructor; auto. destruct H as (_ & A & B & _). rewrite <- A, <- B. auto.
Qed.

Lemma chain_cons2 l l1 r un un1 ur :
  chain_ok (l :: l1 :: r) (un :: un1 :: ur) <->
  (Forall2 (cap_ok (mkCtx [] [] un1 (outer_of r)) (view l1)) (lv_upvalues l) un /\
   chain_ok (l1 :: r) (un1 :: ur)).
Proof. reflexivity. Qed.
Lemma chain_two l l1 r UN : chain_ok (l :: l1 :: r) UN -> exists un un1 ur, UN = un :: un1 :: ur.
Proof. destruct UN as [|un [|un1 ur]]; cbn; try tauto. eauto. Qed.

Lemma resolve_upvalue_ok b x : okname x -> b + 1 <= u16max -> forall ps l UN l' ps' r,
  resolve_upvalue l ps x = (l', ps', r) ->
  chain_ok (l :: ps) UN -> Forall lev_ok (l :: ps) -> Forall (lev_b b) (l :: ps) ->
  exists UN', chain_ok (l' :: ps') UN' /\ Forall lev_ok (l' :: ps') /\ Forall (lev_b (b + 1)) (l' :: ps') /\
    Forall2 pre UN UN' /\ lvl_le l l' /\ Forall2 lvl_le ps ps' /\ view l' = view l /\
    match r with
    | Some k => In x (outer_of ps) /\ exists j, k = N.of_nat j /\ j <= u16max /\ nth_error (hd [] UN') j = Some x
    | None => ~ In x (outer_of ps) /\ Forall (lev_b b) (l' :: ps')
    end.
Proof.
  intros Hok Hb. induction ps as [|p rest IH]; intros l UN l' ps' r H Hc Hl HB; cbn [resolve_upvalue] in H.
  - injection H as <- <- <-. exists UN. split; [exact Hc|]. split; [exact Hl|]. split.
    { eapply Forall_impl; [|exact HB]. intros. eapply lev_b_mono; eauto. lia. }
    split; [apply F2_refl, pre_refl|]. split; [apply lvl_le_refl|]. split; [constructor|].
    split; [reflexivity|]. split; auto.
  - destruct (chain_two _ _ _ _ Hc) as (un & un1 & ur & ->). apply chain_cons2 in Hc.
    destruct Hc as [Hc1 Hc2].
    inversion Hl as [|? ? Hl1 Hl2]; subst. inversion HB as [|? ? HB1 HB2]; subst.
    inversion Hl2 as [|? ? Hl3 Hl4]; subst. inversion HB2 as [|? ? HB3 HB4]; subst.
    pose proof (resolve_local_snd (lv_locals p) x true) as Es.
    pose proof (resolve_local_fst (lv_locals p) x) as Ef.
    destruct (resolve_local (lv_locals p) x true) as [ls o] eqn:Er. cbn [fst snd] in *.
    destruct (slot_of (map view1 (lv_locals p)) x) as [i|] eqn:Ei; cbn [option_map] in Es; subst o.
    + (* found in the next level *)
      pose proof (slot_of_lt _ _ _ Ei) as Hlt. rewrite map_length in Hlt.
      rewrite wrap16_small in H by (destruct HB3 as (_ & ? & _); lia).
      set (p' := lv_set_locals ls p) in *.
      assert (Hv : vle (view p) (view p')) by (apply loc_le_view; exact Ef).
      assert (Hcap : cap_ok (mkCtx [] [] un1 (outer_of rest)) (view p') (N.of_nat i, true) x).
      { unfold cap_ok. cbn [snd fst]. rewrite Nnat.Nat2N.id. split; [exact Hok|]. split.
        - rewrite <- (slot_of_names (view p)) by (apply vle_names; auto). exact Ei.
        - pose proof (resolve_local_flag _ _ _ Ei) as Hf. rewrite Er in Hf. exact Hf. }
      assert (Hc1' : Forall2 (cap_ok (mkCtx [] [] un1 (outer_of rest)) (view p')) (lv_upvalues l) un).
      { eapply F2_impl; [|exact Hc1]. intros a y. apply cap_ok_mono; auto using pre_refl. }
      destruct (add_upvalue l (N.of_nat i) true) as [l1 k] eqn:Ea. injection H as <- <- <-.
      destruct (add_upvalue_ok _ _ _ _ _ _ _ _ _ _ Hc1' Hl1 HB1 Hb Hcap Ea)
        as (un' & A1 & A2 & A3 & A4 & A5 & A6 & j & A7 & A8 & A9).
      assert (Hp' : lev_ok p') by (apply lev_ok_locals; auto).
      assert (Hb' : lev_b b p').
      { unfold lev_b in *. cbn. rewrite <- (F2_len _ _ _ Ef). exact HB3. }
      exists (un' :: un1 :: ur). split; [|split; [|split; [|split; [|split; [|split; [|split]]]]]].
      * apply chain_cons2. split; [exact A2|]. eapply chain_head; [|exact Hc2]. reflexivity.
      * constructor; auto.
      * constructor; auto. constructor; [eapply lev_b_mono; eauto; lia|].
        eapply Forall_impl; [|exact HB4]. intros. eapply lev_b_mono; eauto. lia.
      * constructor; auto. apply F2_refl, pre_refl.
      * exact A5.
      * constructor; [|apply F2_refl, lvl_le_refl]. constructor; cbn; auto using pre_refl.
      * exact A6.
      * split; [|exists j; auto]. cbn [outer_of flat_map]. apply in_or_app. left.
        destruct (slot_of_nth _ _ _ Ei) as [f Hf]. apply nth_error_In, in_rev in Hf.
        apply (in_map fst) in Hf. rewrite map_map in Hf. exact Hf.
    + (* further out *)
      destruct (resolve_upvalue p rest x) as [[p' rest'] o] eqn:Eu.
      destruct (IH _ _ _ _ _ Eu Hc2 Hl2 HB2)
        as (UN1 & A1 & A2 & A3 & A4 & A5 & A6 & A7 & A8).
      destruct UN1 as [|un1' ur']; [inversion A4|]. inversion A4 as [|? ? ? ? Au Aur]; subst.
      assert (Hno : ~ In x (map l_name (lv_locals p))).
      { apply slot_of_none in Ei. rewrite <- view_names. exact Ei. }
      assert (Hc1' : Forall2 (cap_ok (mkCtx [] [] un1' (outer_of rest')) (view p')) (lv_upvalues l) un).
      { eapply F2_impl; [|exact Hc1]. intros a y. apply cap_ok_mono; cbn.
        - symmetry. apply lvl_le_outer; auto. - auto.
        - rewrite A7. apply F2_refl. intros z. split; auto. }
      destruct o as [k|].
      * destruct A8 as (Hin & j & -> & Hj & Hn). cbn [hd] in Hn.
        assert (Hcap : cap_ok (mkCtx [] [] un1' (outer_of rest')) (view p') (N.of_nat j, false) x).
        { unfold cap_ok. cbn [snd fst x_outer x_ups]. rewrite Nnat.Nat2N.id, A7. split; [exact Hok|]. repeat split; auto.
          rewrite <- (lvl_le_outer rest); auto. }
        destruct (add_upvalue l (N.of_nat j) false) as [l1 k] eqn:Ea. injection H as <- <- <-.
        destruct (add_upvalue_ok _ _ _ _ _ _ _ _ _ _ Hc1' Hl1 HB1 Hb Hcap Ea)
          as (un' & B1 & B2 & B3 & B4 & B5 & B6 & jj & B7 & B8 & B9).
        exists (un' :: un1' :: ur'). split; [|split; [|split; [|split; [|split; [|split; [|split]]]]]].
        -- apply chain_cons2. auto.
        -- constructor; auto.
        -- constructor; auto.
        -- constructor; auto.
        -- exact B5.
        -- constructor; auto.
        -- exact B6.
        -- split; [|exists jj; auto]. cbn [outer_of flat_map]. apply in_or_app. right. exact Hin.
      * injection H as <- <- <-. exists (un :: un1' :: ur').
        split; [|split; [|split; [|split; [|split; [|split; [|split]]]]]].
        -- apply chain_cons2. auto.
        -- constructor; auto.
        -- constructor; auto. eapply lev_b_mono; eauto. lia.
        -- constructor; auto using pre_refl.
        -- apply lvl_le_refl.
        -- constructor; auto.
        -- reflexivity.
        -- destruct A8 as [A8 A9]. split; [|constructor; auto].
           cbn [outer_of flat_map]. intros Hi. apply in_app_or in Hi. tauto.
Qed.

Definition ref_index (r : vref) : nat := match r with RLocal i | RUp i | RGlobal i => i end.
Definition ref_op (o1 o2 o3 : N) (r : vref) : N :=
  match r with RLocal _ => o1 | RUp _ => o2 | RGlobal _ => o3 end.

Lemma gen_variable o1 o2 o3 (mk : vref -> instr) x sp : okname x ->
  (forall r, enc (mk r) = ref_op o1 o2 o3 r :: u16b (N.of_nat (ref_index r))) ->
  (forall r, (N.of_nat (ref_index r) < 65536)%N -> fits (mk r)) ->
  (forall r k, mk r <> ICreateClosure k) ->
  gen (variable_op o1 o2 o3 x sp) 1
      (fun _ _ X L k L' => L' = L /\ exists r, resolves X L x r /\ k = [It (mk r)]).
Proof.
  intros Hok He Hf Hn c UN b a c' H I B Hb. unfold variable_op in H. mb H. injection H1 as <- <-.
  assert (Hfin : forall r, ref_index r <= u16max -> Forall item_fits [It (mk r)]).
  { intros r Hr. constructor; [|constructor]. cbn. split; auto. apply Hf. lia. }
  assert (Hby : forall r, bytes_of [It (mk r)] = ref_op o1 o2 o3 r :: u16b (N.of_nat (ref_index r))).
  { intros r. cbn. rewrite app_nil_r. apply He. }
  rewrite resolve_local_snd in H. pose proof B as (B1 & B2). unfold levels in B2.
  inversion B2 as [|? ? B3 B4]; subst. pose proof B3 as (L1 & L2 & L3).
  destruct (slot_of (map view1 (lv_locals (c_level c))) x) as [i|] eqn:Ei; cbn [option_map] in H.
  - pose proof (slot_of_lt _ _ _ Ei) as Hlt. rewrite map_length in Hlt.
    rewrite wrap16_small in H by lia.
    destruct (emits_op_u16 _ _ _ _ _ _ H) as [E O].
    exists [It (mk (RLocal i))], UN. rewrite Hby. split; [|split; [|split]]; auto.
    + eapply R_ext0 in E; eauto. destruct E as (E1 & E2 & E3). split; [|split]; auto.
      eapply bnd_mono; eauto. lia.
    + apply Hfin. cbn. lia.
    + intros X L F. destruct E as [ck ->]. rewrite (fin_len _ _ _ _ F). unfold loc; cbn.
      rewrite Nat.sub_diag. cbn. split; auto. exists (RLocal i). split; auto. constructor.
      rewrite <- Ei. symmetry. apply slot_of_names. apply vle_names. apply (fo_locals _ _ _ _ F).
  - apply slot_of_none in Ei. rewrite map_map in Ei. cbn in Ei.
    mb H. unfold resolve_upvalue_m in H1.
    destruct (resolve_upvalue (c_level c) (c_enclosing c) x) as [[l' ps'] r] eqn:Er.
    injection H1 as <- <-.
    pose proof I as [I1 I2 I3]. unfold levels in I1, I2.
    destruct (resolve_upvalue_ok b x Hok Hb _ _ _ _ _ _ Er I1 I2 B2)
      as (UN' & A1 & A2 & A3 & A4 & A5 & A6 & A7 & A8).
    set (c1 := mkCompiler l' ps' (c_globals c) (c_externals c)) in *.
    assert (R1 : R b 1 c UN c1 UN').
    { split; [|split].
      - constructor; auto.
      - split; cbn; [lia|]. exact A3.
      - constructor; cbn; auto using pre_refl, ll_name, ll_arity, ll_depth.
        + rewrite (ll_consts _ _ A5). apply pre_refl.
        + apply grow_le. exact (ll_locals _ _ A5).
        + rewrite (ll_consts _ _ A5). apply mm_refl. }
    assert (O1 : opsof c1 = opsof c) by (unfold opsof; cbn; rewrite (ll_chunk _ _ A5); reflexivity).
    assert (Hview : loc c1 = lv_locals l') by reflexivity.
    assert (Hlen : length (loc c1) = length (loc c)).
    { rewrite Hview. symmetry. apply (F2_len _ _ _ (ll_locals _ _ A5)). }
    assert (Hlook : forall X L c2 U2, ext c1 UN' c2 U2 -> length (loc c2) = length (loc c1) ->
               fin_ok X L c2 U2 -> slot_of L x = None /\ x_outer X = outer_of (c_enclosing c)).
    { intros X L c2 U2 E2 Hl2 F. pose proof (fin_back _ _ _ _ _ _ E2 F) as F1.
      rewrite (fin_len _ _ _ _ F), Hl2, Nat.sub_diag in F1. cbn [skipn] in F1. split.
      - apply slot_of_none. rewrite <- (vle_names _ _ (fo_locals _ _ _ _ F1)).
        cbn [c_level c1]. rewrite A7, view_names. exact Ei.
      - rewrite (fo_outer _ _ _ _ F1). cbn. symmetry. apply lvl_le_outer. exact A6. }
    destruct r as [k|].
    + destruct A8 as (Hin & j & -> & Hj & Hnth).
      destruct (emits_op_u16 _ _ _ _ _ _ H) as [E O]. destruct R1 as (R1 & R2 & R3).
      pose proof (R_ext0 _ _ _ _ R1 R2 E) as RE.
      exists [It (mk (RUp j))], UN'. rewrite Hby. split; [|split; [|split]].
      * replace 1 with (1 + 0) by lia. eapply R_trans; [split; [exact R1|split; [exact R2|exact R3]]|exact RE].
      * rewrite O, O1. reflexivity.
      * apply Hfin. cbn. lia.
      * intros X L F. destruct RE as (_ & _ & RE).
        assert (Hl2 : length (loc c') = length (loc c1)) by (destruct E as [ck ->]; reflexivity).
        destruct (Hlook _ _ _ _ RE Hl2 F) as [S1 S2].
        rewrite (fin_len _ _ _ _ F), Hl2, Hlen, Nat.sub_diag. cbn [skipn]. split; auto.
        exists (RUp j). split; auto. constructor; auto.
        -- rewrite S2. exact Hin.
        -- eapply pre_nth; [apply (fo_ups _ _ _ _ F)|]. exact Hnth.
    + assert (G : gen (do off <- add_global_symbol x; write_op_u16 o3 off sp) 1
                    (fun _ _ X L k L' => L' = L /\ exists g, nth_error (x_globals X) g = Some x /\
                                          k = [It (mk (RGlobal g))])).
      { intros d UN0 b0 r0 d' Hd I0 B0 Hb0. mb Hd.
        destruct (gen_symbol x _ _ _ _ _ H1 I0 B0 Hb0) as (k0 & U0 & (Q1 & Q2 & Q3) & Q4 & Q5 & Q6).
        pose proof (Q6 _ _ (Build_fin_ok
           (mkCtx (p_entries (c_globals c0)) (p_entries (lv_consts (c_level c0))) (hd [] U0) (outer_of (c_enclosing c0)))
           (view (c_level c0)) c0 U0 (pre_refl _) (pre_refl _) (pre_refl _) eq_refl
           (F2_refl _ _ (fun x => conj eq_refl (fun h => h))))) as Q7.
        destruct Q7 as (-> & Q7 & off & -> & Q8 & Q9).
        destruct (emits_op_u16 _ _ _ _ _ _ Hd) as [E O].
        pose proof (R_ext0 _ _ _ _ Q1 Q2 E) as RE.
        exists [It (mk (RGlobal off))], U0. rewrite Hby. split; [|split; [|split]].
        - replace 1 with (1 + 0) by lia. eapply R_trans; [split; [exact Q1|split; [exact Q2|exact Q3]]|exact RE].
        - rewrite O, Q4. cbn. rewrite app_nil_r. reflexivity.
        - apply Hfin. cbn. lia.
        - intros X L F. destruct RE as (_ & _ & RE). pose proof (fin_back _ _ _ _ _ _ RE F) as Fb.
          assert (Hl2 : length (loc d') = length (loc c0)) by (destruct E as [ck ->]; reflexivity).
          rewrite (fin_len _ _ _ _ F), Hl2, Nat.sub_diag in Fb. cbn [skipn] in Fb.
          destruct (Q6 _ _ Fb) as (_ & Z & off' & Z1 & Z2 & Z3).
          apply Nnat.Nat2N.inj in Z1. subst off'. split; [|eauto].
          exact Z. }
      destruct R1 as (R1 & R2 & R3). destruct A8 as [Hout A8].
      destruct (G _ _ b _ _ H R1) as (code & U2 & (Q1 & Q2 & Q3) & Q4 & Q5 & Q6); auto.
      { split; cbn; [lia|]. exact A8. }
      exists code, U2. split; [|split; [|split]]; auto.
      * split; [exact Q1|split; [exact Q2|]]. eapply ext_trans; eauto.
      * rewrite Q4, O1. reflexivity.
      * intros X L F. destruct (Q6 _ _ F) as (Z1 & g & Z2 & Z3).
        assert (Hl2 : length (loc c') = length (loc c1)).
        { pose proof (grow_len _ _ _ (e_grow _ _ _ _ Q3)).
          rewrite <- (fin_len _ _ _ _ F) in *. rewrite Z1 in H0 at 1. rewrite skipn_length in H0.
          apply (f_equal (@length _)) in Z1. rewrite skipn_length in Z1. lia. }
        destruct (Hlook _ _ _ _ Q3 Hl2 F) as [S1 S2].
        rewrite <- Hlen. rewrite <- Z1. split; auto. exists (RGlobal g). split; auto.
        constructor; auto. rewrite S2. exact Hout.
Qed.
End Naming.
