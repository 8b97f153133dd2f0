(** Scopes, jumps and functions of the compiler against the relation of CodeRel.v. *)
From Verif Require Import Base RleVec Pool Vecc Float NumText Bytecode Chunk Value Ast Arith VmOps
                          Compiler Vm Items CodeRel SpecContainers ContainerHist ProofContainers
                          ProofValue ProofCompiler ProofCode ProofCode2.

Ltac Zify.zify_post_hook ::= Z.div_mod_to_equations.

Tactic Notation "mbi" hyp(H) "as" ident(a) ident(c1) ident(H1) :=
  apply bind_inv in H; destruct H as (a & c1 & H1 & H).

(** ** Pieces that leave the locals alone *)
Section Naming.
Context {P : naming}.
Lemma self_fin c UN : fin_ok
  (mkCtx (p_entries (c_globals c)) (p_entries (lv_consts (c_level c))) (hd [] UN) (outer_of (c_enclosing c)))
  (view (c_level c)) c UN.
Proof.
  constructor; cbn; auto using pre_refl. apply F2_refl. intros x. split; auto.
Qed.

Definition ejudge (A : Type) := A -> ctx -> locals -> list item -> Prop.
Definition genE {A} (x : M A) (w : nat) (J : ejudge A) : Prop :=
  forall c UN b a c', x c = (COk a, c') -> inv c UN -> bnd b c -> b + w <= u16max ->
  exists code UN', R b w c UN c' UN' /\ opsof c' = opsof c ++ bytes_of code /\
    Forall item_fits code /\ length (loc c') = length (loc c) /\
    forall X L, fin_ok X L c' UN' -> J a X L code.
Definition keepJ {A} (J : ejudge A) : judge A := fun _ a X L k L' => L' = L /\ J a X L k.

Lemma gen_E {A} (x : M A) w J : gen x w (keepJ J) -> genE x w J.
Proof.
  intros H c UN b a c' Hx I B Hb.
  destruct (H _ _ _ _ _ Hx I B Hb) as (k & U & Rk & O & F & G).
  exists k, U. split; [exact Rk|]. split; [exact O|]. split; [exact F|].
  assert (Hl : length (loc c') = length (loc c)).
  { destruct (G _ _ (self_fin c' U)) as [E _]. destruct Rk as (_ & _ & Rk).
    pose proof (grow_len _ _ _ (e_grow _ _ _ _ Rk)).
    apply (f_equal (@length _)) in E. rewrite skipn_length in E.
    rewrite (fin_len _ _ _ _ (self_fin c' U)) in E. lia. }
  split; [exact Hl|]. intros X L Fi. destruct (G _ _ Fi) as [_ G']. 
  rewrite (fin_len _ _ _ _ Fi), Hl, Nat.sub_diag in G'. exact G'.
Qed.
Lemma E_gen {A} (x : M A) w J : genE x w J -> gen x w (keepJ J).
Proof.
  intros H c UN b a c' Hx I B Hb.
  destruct (H _ _ _ _ _ Hx I B Hb) as (k & U & Rk & O & F & Hl & G).
  exists k, U. split; [exact Rk|]. split; [exact O|]. split; [exact F|].
  intros X L Fi. rewrite (fin_len _ _ _ _ Fi), Hl, Nat.sub_diag. cbn [skipn]. split; auto.
Qed.
Lemma fin_backE X L c UN c' UN' : ext c UN c' UN' -> length (loc c') = length (loc c) ->
  fin_ok X L c' UN' -> fin_ok X L c UN.
Proof.
  intros E Hl F. pose proof (fin_back _ _ _ _ _ _ E F) as Fb.
  rewrite (fin_len _ _ _ _ F), Hl, Nat.sub_diag in Fb. exact Fb.
Qed.

Lemma genE_bind {A B} (x : M A) (k : A -> M B) w1 w2 J1 J2 :
  genE x w1 J1 -> (forall a, genE (k a) w2 (J2 a)) ->
  genE (bind x k) (w1 + w2) (fun b X L code => exists a c1 c2, code = c1 ++ c2 /\ J1 a X L c1 /\ J2 a b X L c2).
Proof.
  intros H1 H2. apply gen_E.
  eapply gen_weaken; [eapply gen_bind; [apply E_gen, H1|intros a; apply E_gen, (H2 a)]|lia|].
  intros d b X L code L' (a & c1 & c2 & L1 & E & (E1 & A1) & (E2 & A2)). subst. split; auto.
  exists a, c1, c2. auto.
Qed.
Lemma genE_weaken {A} (x : M A) w w' (J J' : ejudge A) : genE x w J -> w <= w' ->
  (forall a X L code, J a X L code -> J' a X L code) -> genE x w' J'.
Proof.
  intros H Hw HJ. apply gen_E. eapply gen_weaken; [apply E_gen, H|lia|].
  intros d a X L k L' [E A1]. split; auto.
Qed.
Lemma genE_item (x : M unit) i : emits x (enc i) -> fits i -> (forall k, i <> ICreateClosure k) ->
  genE x 0 (fun _ _ _ k => k = [It i]).
Proof.
  intros H1 H2 H3. apply gen_E. eapply gen_weaken; [apply gen_item; eauto|lia|].
  intros d a X L k L' [E1 E2]. split; auto.
Qed.
Lemma gen_same {A} (x y : M A) w J : (forall c, x c = y c) -> gen x w J -> gen y w J.
Proof. intros E H c UN b a c' Hy. rewrite <- E in Hy. apply H. auto. Qed.
Lemma genE_same {A} (x y : M A) w J : (forall c, x c = y c) -> genE x w J -> genE y w J.
Proof. intros E H c UN b a c' Hy. rewrite <- E in Hy. apply H. auto. Qed.
Lemma bind_assoc {A B C} (x : M A) (f : A -> M B) (g : B -> M C) c :
  bind (bind x f) g c = bind x (fun a => bind (f a) g) c.
Proof. unfold bind. destruct (x c) as [[a|e s|] c1]; reflexivity. Qed.
Lemma bind_cong {A B} (x : M A) (f g : A -> M B) c :
  (forall a c, f a c = g a c) -> bind x f c = bind x g c.
Proof. intros H. unfold bind. destruct (x c) as [[a|e s|] c1]; auto. Qed.

(** ** Declaring locals *)
Lemma define_local_run x cl c : exists p, define_local x cl c
  = (COk tt, mkCompiler (lv_set_locals (mkLocal x (lv_depth (c_level c)) false cl :: loc c)
                           (lv_set_syms p (c_level c)))
                        (c_enclosing c) (c_globals c) (c_externals c)).
Proof.
  unfold define_local, bind, get_level, mod_level, add_symbol.
  destruct (declared_here _ _ _).
  - eexists. reflexivity.
  - unfold bind, get_level, set_level. cbn. destruct (pool_add seqb (lv_syms (c_level c)) x) as [p id].
    exists p. reflexivity.
Qed.

Lemma gen_define x : gen (define_local x true) 1
  (fun _ _ _ L k L' => k = [] /\ exists f, L' = (x, f) :: L).
Proof.
  intros c UN b a c' H I B Hb. destruct (define_local_run x true c) as [p E]. rewrite E in H.
  injection H as _ <-. destruct I as [I1 I2 I3]. destruct B as [B1 B2]. unfold levels in *.
  inversion I2 as [|? ? K1 K2]; subst. inversion B2 as [|? ? B3 B4]; subst.
  exists [], UN. rewrite app_nil_r. split; [split; [|split]|split; [|split]].
  - constructor; unfold levels; cbn [c_level c_enclosing c_globals]; [| |exact I3].
    + eapply chain_head; [|exact I1]. reflexivity.
    + constructor; auto. destruct K1 as [K1 K3 K4]. constructor; cbn; auto.
  - split; cbn [c_globals]; [lia|]. unfold levels; cbn [c_level c_enclosing].
    destruct B3 as (? & ? & ?). constructor; [unfold lev_b, loc; cbn; lia|].
    eapply Forall_impl; [|exact B4]. intros. eapply lev_b_mono; eauto. lia.
  - constructor; cbn; auto using pre_refl, mm_refl.
    + exists [mkLocal x (lv_depth (c_level c)) false true], (loc c). repeat split; auto.
      apply F2_refl, loc_le_refl.
    + apply F2_refl, lvl_le_refl. + apply F2_refl, pre_refl.
  - reflexivity.
  - constructor.
  - intros X L F. split; auto. pose proof (fo_locals _ _ _ _ F) as Fl.
    cbn in Fl. inversion Fl as [|? y ? L' [Fy _] Ft]; subst. cbn in Fy. subst x.
    pose proof (F2_len _ _ _ Ft) as El. rewrite map_length in El. fold (loc c) in El.
    cbn [length]. rewrite El. rewrite Nat.sub_succ_l by lia. rewrite Nat.sub_diag. cbn.
    exists (snd y). destruct y; reflexivity.
Qed.
Lemma gen_defines xs : gen (define_locals xs) (length xs)
  (fun _ _ _ L k L' => k = [] /\ exists new, L' = new ++ L /\ map fst new = rev xs).
Proof.
  induction xs as [|x xs IH]; cbn [define_locals length].
  - eapply gen_weaken; [apply gen_ret|lia|]. intros d a X L k L' (_ & -> & ->). split; auto.
    exists []. auto.
  - change (S (length xs)) with (1 + length xs).
    eapply gen_weaken; [apply gen_bind; [apply gen_define|intros; apply IH]|lia|].
    intros d a X L k L' (u & c1 & c2 & L1 & -> & (-> & f & ->) & (-> & new & -> & E)).
    split; auto. exists (new ++ [(x, f)]). rewrite <- app_assoc. split; auto.
    rewrite map_app. cbn. rewrite E. reflexivity.
Qed.

Definition temps (L : locals) (b1 b2 : bool) : locals :=
  (temp_name (S (length L)), b2) :: (temp_name (length L), b1) :: L.
Lemma gen_temps : gen (reserve_temps 2) 2 (fun _ _ _ L k L' => k = [] /\ exists b1 b2, L' = temps L b1 b2).
Proof.
  intros c UN b a c' H I B Hb. cbn [reserve_temps] in H. mbi H as l0 c0 H0. injection H0 as <- <-.
  mbi H as u1 c1 H1. pose proof (gen_define _ _ _ _ _ _ H1 I B ltac:(lia)) as (k1 & U1 & (I1 & B1 & E1) & O1 & F1 & G1).
  mbi H as l3 c3 H3. injection H3 as <- <-. mbi H as u2 c2 H2.
  pose proof (gen_define _ _ _ _ _ _ H2 I1 B1 ltac:(lia)) as (k2 & U2 & (I2 & B2 & E2) & O2 & F2 & G2).
  apply ret_inv in H. destruct H as [_ <-].
  assert (L1 : length (loc c1) = S (length (loc c))).
  { destruct (define_local_run (temp_name (length (lv_locals (c_level c)))) true c) as [p Ep].
    rewrite Ep in H1. injection H1 as _ <-. reflexivity. }
  exists (k1 ++ k2), U2. split; [|split; [|split]].
  - change 2 with (1 + 1). eapply R_trans; [split; [exact I1|split; [exact B1|exact E1]]|split; [exact I2|split; auto]].
  - rewrite O2, O1, bytes_of_app, app_assoc. reflexivity.
  - apply Forall_app; auto.
  - intros X L F. destruct (G2 _ _ F) as (-> & f2 & EL).
    pose proof (fin_back _ _ _ _ _ _ E2 F) as Fb. destruct (G1 _ _ Fb) as (-> & f1 & EL1).
    split; [reflexivity|].
    pose proof (grow_len _ _ _ (e_grow _ _ _ _ E2)) as Hg2. pose proof (fin_len _ _ _ _ F) as Hf.
    assert (Es : forall n m (l : locals), skipn n (skipn m l) = skipn (m + n) l).
    { clear. intros n m l; revert n m; induction l as [|x l IH]; intros n m.
      - rewrite !skipn_nil. reflexivity.
      - destruct m as [|m]; [reflexivity|]. cbn [skipn plus]. apply IH. }
    rewrite Es, skipn_length in EL1.
    replace (length L - length (loc c1) + (length L - (length L - length (loc c1)) - length (loc c)))
      with (length L - length (loc c)) in EL1 by lia.
    rewrite EL1 in EL. exists f1, f2. unfold temps. rewrite EL at 1.
    assert (Hlen : length (skipn (length L - length (loc c)) L) = length (loc c)) by (rewrite skipn_length; lia).
    rewrite !Hlen. rewrite <- L1. reflexivity.
Qed.

(** ** Leaving a scope *)
Lemma flush_emits q sp : (N.of_nat q < 65536)%N -> emits (flush_pops (N.of_nat q) sp) (bytes_of (flush q)).
Proof.
  intros Hq. unfold flush_pops. destruct q as [|[|q]].
  - apply emits_ret.
  - apply emits_op.
  - replace (2 <=? N.of_nat (S (S q)))%N with true by (symmetry; apply N.leb_le; lia).
    cbn [flush]. cbn [bytes_of flat_map item_bytes enc]. rewrite app_nil_r. apply emits_op_u16.
Qed.
Lemma flush_fits q : (N.of_nat q < 65536)%N -> Forall item_fits (flush q).
Proof.
  intros H. destruct q as [|[|q]]; cbn; repeat constructor; try discriminate. exact H.
Qed.
Lemma pops_emits sp fl : forall q, q + length fl <= u16max ->
  emits (emit_pops fl (N.of_nat q) sp) (bytes_of (pops fl q)).
Proof.
  induction fl as [|[|] fl IH]; intros q Hq; cbn [emit_pops pops length] in *.
  - apply flush_emits. lia.
  - rewrite bytes_of_app. apply emits_bind; [apply flush_emits; lia|intros _].
    apply (emits_bind _ _ [op_CloseUpvalue] (bytes_of (pops fl 0))); [apply emits_op|intros _].
    apply (IH 0). lia.
  - replace (wrap16u (N.of_nat q + 1)) with (N.of_nat (S q)).
    + apply IH. lia.
    + unfold wrap16u. rewrite N.mod_small; lia.
Qed.
Lemma pops_fits fl : forall q, q + length fl <= u16max -> Forall item_fits (pops fl q).
Proof.
  induction fl as [|[|] fl IH]; intros q Hq; cbn [pops length] in *.
  - apply flush_fits. lia.
  - apply Forall_app. split; [apply flush_fits; lia|]. constructor; [cbn; split; auto; discriminate|].
    apply IH. lia.
  - apply IH. lia.
Qed.
Lemma exit_fits fl : length fl <= u16max -> Forall item_fits (exit_code fl).
Proof.
  intros H. destruct fl as [|f t]; [constructor|]. unfold exit_code.
  constructor; [cbn; split; auto; discriminate|]. apply Forall_app. split; [apply pops_fits; lia|].
  repeat constructor; discriminate.
Qed.

Lemma leaving_split d newl old :
  Forall (fun x => l_depth x = S d /\ l_cleanup x = true) newl ->
  Forall (fun x => l_depth x <= d) old ->
  leaving d (newl ++ old) = (map l_captured newl, old).
Proof.
  intros H1 H2. induction newl as [|x newl IH]; cbn [app leaving map].
  - destruct old as [|y old]; [reflexivity|]. cbn [leaving]. inversion H2; subst.
    replace (d <? l_depth y) with false by (symmetry; apply Nat.ltb_ge; auto).
    rewrite Bool.andb_false_r. reflexivity.
  - inversion H1 as [|? ? [E1 E2] H3]; subst. rewrite E1, E2.
    replace (d <? S d) with true by (symmetry; apply Nat.ltb_lt; auto).
    cbn [andb]. rewrite (IH H3). reflexivity.
Qed.

Lemma enter_run c : enter_scope c
  = (COk tt, mkCompiler (lv_set_depth (S (lv_depth (c_level c))) (c_level c)) (c_enclosing c) (c_globals c) (c_externals c)).
Proof. reflexivity. Qed.

Lemma enter_inv c UN b c1 u : enter_scope c = (COk u, c1) -> inv c UN -> bnd b c ->
  inv c1 UN /\ bnd b c1 /\ opsof c1 = opsof c /\ loc c1 = loc c.
Proof.
  rewrite enter_run. intros H I B. injection H as _ <-. destruct I as [I1 I2 I3]. destruct B as [B1 B2].
  unfold levels in *. inversion I2 as [|? ? K1 K2]; subst. inversion B2 as [|? ? B3 B4]; subst.
  split; [|split; [|split]]; auto.
  - constructor; unfold levels; cbn [c_level c_enclosing c_globals]; [| |exact I3].
    + eapply chain_head; [|exact I1]. reflexivity.
    + constructor; auto. destruct K1 as [K1 K3 K4]. constructor; cbn; auto.
      eapply Forall_impl; [|exact K4]. cbn. intros x [Hx1 Hx2]. split; auto.
  - split; cbn; auto. unfold levels; cbn. constructor; auto.
Qed.

Lemma scope_exit b w c0 UN u c1 c2 UN2 sp v c3 :
  enter_scope c0 = (COk u, c1) -> inv c0 UN -> R b w c1 UN c2 UN2 -> b + w <= u16max ->
  exit_scope sp c2 = (COk v, c3) ->
  R b w c0 UN c3 UN2 /\ length (loc c3) = length (loc c0) /\
  exists new, opsof c3 = opsof c2 ++ bytes_of (exit_code (map snd new)) /\
    Forall item_fits (exit_code (map snd new)) /\ length new = length (loc c2) - length (loc c0) /\
    forall X L, fin_ok X L c3 UN2 -> fin_ok X (new ++ L) c2 UN2.
Proof.
  rewrite enter_run. intros H0 I0 (I2 & B2 & E2) Hb H. injection H0 as _ <-.
  set (d := lv_depth (c_level c0)) in *.
  destruct (e_grow _ _ _ _ E2) as (newl & old & Eg & Hle & Hnew).
  cbn [c_level lv_set_depth lv_depth] in Hnew. unfold loc at 1 in Hle. cbn in Hle.
  pose proof (e_depth _ _ _ _ E2) as Hd. cbn [c_level lv_set_depth lv_depth] in Hd.
  assert (Hold : Forall (fun x => l_depth x <= d) old).
  { pose proof (iv_lev _ _ I0) as Hl. unfold levels in Hl. inversion Hl as [|? ? K1 K2]; subst.
    pose proof (lk_locals _ K1) as K3. fold d in K3. unfold loc in Hle. clear - Hle K3.
    induction Hle; [constructor|]. inversion K3; subst. constructor; auto.
    destruct H as (_ & <- & _). tauto. }
  assert (Hlen : length newl <= u16max).
  { destruct B2 as [_ B2]. unfold levels in B2. inversion B2 as [|? ? B3 B4]; subst.
    destruct B3 as (_ & B3 & _). fold (loc c2) in B3. rewrite Eg, app_length in B3. lia. }
  unfold exit_scope in H. mb H. injection H1 as _ <-. mb H. injection H1 as <- <-.
  cbn [c_level lv_set_depth lv_depth lv_locals] in H. fold (loc c2) in H. rewrite Hd, Eg in H.
  cbn [pred] in H. rewrite (leaving_split d newl old Hnew Hold) in H.
  mb H. injection H1 as _ <-.
  set (c2' := mkCompiler _ _ _ _) in H.
  assert (Hemit : emits (match map l_captured newl with
                         | [] => ret tt
                         | _ => write_op op_BlockResult sp ;; emit_pops (map l_captured newl) 0 sp ;; write_op op_BlockReturn sp
                         end) (bytes_of (exit_code (map l_captured newl)))).
  { destruct (map l_captured newl) as [|f t] eqn:Em; [apply emits_ret|].
    unfold exit_code. change (bytes_of (It IBlockResult :: pops (f :: t) 0 ++ [It IBlockReturn]))
      with ([op_BlockResult] ++ bytes_of (pops (f :: t) 0 ++ [It IBlockReturn])).
    apply emits_bind; [apply emits_op|intros _]. rewrite bytes_of_app.
    apply emits_bind; [|intros _; apply emits_op]. apply (pops_emits sp (f :: t) 0).
    rewrite <- Em, map_length. lia. }
  destruct (Hemit _ _ _ H) as [Ex Eo].
  assert (E2' : opsof c2' = opsof c2) by reflexivity.
  assert (R2 : R b w c0 UN c2' UN2).
  { destruct I2 as [J1 J2 J3]. destruct B2 as [B2a B2b]. unfold levels in *.
    inversion J2 as [|? ? K1 K2]; subst. inversion B2b as [|? ? B3 B4]; subst.
    split; [|split].
    - constructor; unfold levels; cbn [c2' c_level c_enclosing c_globals]; [| |exact J3].
      + eapply chain_head; [|exact J1]. reflexivity.
      + constructor; auto. destruct K1 as [K1 K3 K4]. constructor; cbn; auto.
        fold (loc c2) in K4. rewrite Eg in K4. apply Forall_app in K4. destruct K4 as [_ K4].
        clear - Hold K4. induction old; [constructor|].
        inversion Hold; inversion K4; subst. constructor; auto. split; auto. tauto.
    - split; cbn; auto. unfold levels; cbn. constructor; auto. destruct B3 as (? & B3 & ?).
      fold (loc c2) in B3. rewrite Eg, app_length in B3. unfold lev_b; cbn. lia.
    - destruct E2 as [X1 X2 X3 X4 X5 X6 X7 X8]. cbn in *. constructor; cbn; auto.
      + fold d. apply grow_le. exact Hle. }
  pose proof R2 as (R2a & R2b & R2c).
  pose proof (R_ext0 _ _ _ _ R2a R2b Ex) as R3.
  split; [|split].
  - replace w with (w + 0) by lia. eapply R_trans; eauto.
  - destruct Ex as [ck ->]. unfold loc; cbn. symmetry. apply (F2_len _ _ _ Hle).
  - exists (map view1 newl). rewrite map_map. cbn [view1 snd].
    replace (map (fun x => snd (view1 x)) newl) with (map l_captured newl) by reflexivity.
    split; [rewrite Eo, E2'; reflexivity|]. split; [apply exit_fits; rewrite map_length; lia|].
    split.
    + rewrite map_length, Eg, app_length. pose proof (F2_len _ _ _ Hle). fold (loc c0) in H0. lia.
    + intros X L F. destruct Ex as [ck ->]. destruct F as [F1 F2 F3 F4 F5]. cbn in *. constructor; auto.
      unfold view in *. fold (loc c2). rewrite Eg, map_app. cbn in F5. apply Forall2_app; auto.
      apply F2_refl. intros x. split; auto.
Qed.

(** A scope around a piece of code. *)
Lemma gen_scope {A} (x : M A) w J (f : A -> span) : gen x w J ->
  genE (enter_scope ;; do r <- x; exit_scope (f r)) w
       (fun _ X L k => exists r d k0 new, J (S d) r X L k0 (new ++ L) /\ k = k0 ++ exit_code (map snd new)).
Proof.
  intros Hx c0 UN b a c3 H I B Hb. mbi H as u1 c1 H1. mbi H as u2 c2 H2.
  destruct (enter_inv _ _ _ _ _ H1 I B) as (I1 & B1 & O1 & L1).
  destruct (Hx _ _ _ _ _ H2 I1 B1 Hb) as (k & U & Rk & Ok & Fk & Gk).
  destruct (scope_exit _ _ _ _ _ _ _ _ _ _ _ H1 I Rk Hb H) as (R3 & L3 & new & O3 & F3 & N3 & G3).
  exists (k ++ exit_code (map snd new)), U. split; [exact R3|]. split; [|split; [|split]].
  - rewrite O3, Ok, O1, bytes_of_app, app_assoc. reflexivity.
  - apply Forall_app; auto.
  - exact L3.
  - intros X L F. exists u2, (lv_depth (c_level c0)), k, new. split; auto.
    rewrite enter_run in H1. injection H1 as _ <-. specialize (Gk _ _ (G3 _ _ F)).
    rewrite app_length in Gk.
    pose proof (fin_len _ _ _ _ F). rewrite L3 in H0.
    unfold loc in Gk at 1. cbn in Gk. fold (loc c0) in Gk.
    replace (length new + length L - length (loc c0)) with (length new) in Gk by lia.
    rewrite skipn_app, skipn_all, Nat.sub_diag in Gk. exact Gk.
Qed.

(** ** Jumps *)
Lemma code_len_inv c n c' : code_len c = (COk n, c') -> c' = c /\ n = length (opsof c).
Proof. intros H. injection H as <- <-. auto. Qed.
Lemma write_jump_inv o sp c j c' : write_jump o sp c = (COk j, c') ->
  ext0 c c' /\ opsof c' = opsof c ++ o :: u16b 0 /\ j = length (opsof c) + 1.
Proof.
  unfold write_jump. intros H. mbi H as u1 c1 H1. destruct (emits_op_u16 _ _ _ _ _ _ H1) as [E O].
  mbi H as n2 c2 H2. apply code_len_inv in H2. destruct H2 as [-> ->]. apply ret_inv in H. destruct H as [<- <-].
  repeat split; auto. rewrite O, app_length. cbn. lia.
Qed.

Lemma upd_app_r {A} i (l l' : list A) x : upd (length l + i) x (l ++ l') = l ++ upd i x l'.
Proof. induction l; cbn; [reflexivity|]. f_equal. auto. Qed.

Lemma patch_jump_inv A B x y sp c u c' : patch_jump (length A) sp c = (COk u, c') ->
  opsof c = A ++ x :: y :: B ->
  ext0 c c' /\ (N.of_nat (length B) < 65536)%N /\ opsof c' = A ++ u16b (N.of_nat (length B)) ++ B.
Proof.
  intros H E. unfold patch_jump in H. mb H. apply code_len_inv in H1. destruct H1 as [-> ->].
  rewrite E, app_length in H. cbn [length] in H.
  replace (length A + S (S (length B)) - 2 - length A) with (length B) in H by lia.
  destruct (65535 <? N.of_nat (length B))%N eqn:Ej; [discriminate|]. apply N.ltb_ge in Ej.
  unfold patch_u16 in H. mb H. injection H1 as <- <-.
  unfold chunk_patch_u16, bc_patch_u16, bc_set in H. fold (opsof c) in H. rewrite E in H.
  replace (length A <? length (A ++ x :: y :: B)) with true in H
    by (symmetry; apply Nat.ltb_lt; rewrite app_length; cbn; lia).
  cbn [rbind] in H.
  assert (E1 : forall v, upd (length A) v (A ++ x :: y :: B) = A ++ v :: y :: B).
  { intros v. rewrite <- (Nat.add_0_r (length A)), upd_app_r. reflexivity. }
  rewrite E1 in H.
  replace (length A + 1 <? length (A ++ le_lo (N.of_nat (length B)) :: y :: B)) with true in H
    by (symmetry; apply Nat.ltb_lt; rewrite app_length; cbn; lia).
  rewrite upd_app_r in H. cbn [upd] in H. injection H as _ <-.
  split; [eexists; reflexivity|]. split; [lia|]. reflexivity.
Qed.

Lemma jump_backward_inv start sp c u c' : write_jump_backward start sp c = (COk u, c') ->
  start <= length (opsof c) ->
  ext0 c c' /\ (N.of_nat (length (opsof c) - start) + 3 < 65536)%N /\
  opsof c' = opsof c ++ enc (IJumpBackward (N.of_nat (length (opsof c) - start) + 3)).
Proof.
  intros H Hs. unfold write_jump_backward in H. mb H. apply code_len_inv in H1. destruct H1 as [-> ->].
  replace (N.of_nat (length (opsof c) + 3 - start)) with (N.of_nat (length (opsof c) - start) + 3)%N in H by lia.
  destruct (65535 <? _)%N eqn:Ej; [discriminate|]. apply N.ltb_ge in Ej.
  destruct (emits_op_u16 _ _ _ _ _ _ H) as [E O]. split; auto. split; [lia|]. exact O.
Qed.
End Naming.
