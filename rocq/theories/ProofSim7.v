(** Calls, declarations and the sequencing of evaluations. *)
From Verif Require Import Base RleVec Pool Vecc Float NumText Bytecode Chunk Value Ast Arith VmOps
                          Compiler Vm Items CodeRel SpecParse SpecReady SpecEval ProofVars SpecRel ProofRel ProofCode6 ProofSim1
                          ProofSim2 ProofSim3 ProofSim4 ProofSim5 ProofSim6.

(** ** Literals *)
Lemma force_rel {A B} (R : A -> B -> Prop) l l' : Forall2 (grel R) l l' -> grel R (force_array l) (force_array l').
Proof.
  intros H. unfold force_array, of_vecc, vecc_force_new. cbn [vc_data vc_size vc_max].
  replace (sum_sizes get_size l') with (sum_sizes get_size l); [constructor; auto|].
  unfold sum_sizes. induction H; cbn; auto. rewrite IHForall2. f_equal. eapply grel_size; eauto.
Qed.
Fixpoint lit_rel {B} (R : sfn -> B -> Prop) (f : literal -> gvalue B)
  (Hf : forall l, f l = match l with
    | LNone => VNone | LBool b => VBool b | LInt n => VInt n | LFloat f => VFloat f
    | LColor r g b a => VColor r g b a | LString s => VString s
    | LArray arr => force_array (map f arr) | LPair a b => VPair (f a) (f b) | LRange a b => VRange a b
    end) (l : literal) {struct l} : grel R (lit_value l) (f l).
Proof.
  rewrite Hf. destruct l; cbn [lit_value]; try constructor; try (apply lit_rel; exact Hf).
  apply force_rel.
  exact ((fix go arr : Forall2 (grel R) (map lit_value arr) (map f arr) :=
            match arr with
            | [] => Forall2_nil _
            | a :: t => Forall2_cons _ _ (lit_rel B R f Hf a) (go t)
            end) l).
Qed.
Lemma unpack_length {A} (fi : fn_info A) k v parts : v_unpack fi k v = Ok parts -> length parts = N.to_nat k.
Proof.
  destruct v; cbn; try discriminate.
  - destruct (k <? 1)%N eqn:E1; [discriminate|]. destruct (4 <? k)%N eqn:E2; [discriminate|]. intros [= <-].
    rewrite map_length, firstn_length. apply N.ltb_ge in E1, E2. cbn [channels length]. lia.
  - match goal with |- context [N.eqb ?x k] => destruct (N.eqb_spec x k); [|discriminate] end. intros [= <-]. lia.
  - destruct (N.eqb_spec k 2); [|discriminate]. intros [= <-]. subst. reflexivity.
Qed.

Lemma f2_rev {A B} (P : A -> B -> Prop) l l' : Forall2 P l l' -> Forall2 P (rev l) (rev l').
Proof. induction 1; cbn; [constructor|]. apply Forall2_app; auto. Qed.

Section Outs.
Context {D : Type} (m : mode) (orc : oracle) (opts : options) (on_call on_return : D -> D)
        (builtins : rstring -> option (sbuiltin (D:=D))).
Context (call : sfn -> list sval -> sst (D:=D) -> out (D:=D) sval) (rounds : nat).
Notation ev := (ev m orc opts builtins call rounds).

Definition ex (n : node) (r : env) (s : sst (D:=D)) : out sval :=
  seq (ev false n r s) (fun vr s => the_value (fst vr) s).

Lemma seq_value {A} (x : out (D:=D) sval) (r : A) :
  seq (seq x (fun v s => Got (Some v, r) s)) (fun vr s => the_value (fst vr) s) = x.
Proof using. destruct x; reflexivity. Qed.
Lemma ev_expr g n r s : is_expression n = true -> ev g n r s = seq (ex n r s) (fun v s => Got (Some v, r) s).
Proof using.
  intros H. unfold ex. destruct n; try discriminate H; cbn [SpecEval.ev]; rewrite seq_value; reflexivity.
Qed.
Lemma seq_seq {A B C} (x : out (D:=D) A) (f : A -> sst -> out B) (g : B -> sst -> out C) :
  seq (seq x f) g = seq x (fun a s => seq (f a s) g).
Proof using. destruct x; reflexivity. Qed.
Lemma seq_ext {A B} (x : out (D:=D) A) (f g : A -> sst -> out B) : (forall a s, f a s = g a s) -> seq x f = seq x g.
Proof using. intros H. destruct x; cbn; auto. Qed.

Lemma list_with_app f a b s : list_with (D:=D) f (a ++ b) s =
  seq (list_with f a s) (fun vs s => seq (list_with f b s) (fun ws s => Got (vs ++ ws) s)).
Proof using.
  revert s. induction a as [|e a IH]; intros s; cbn.
  - destruct (list_with f b s); reflexivity.
  - rewrite seq_seq. apply seq_ext. intros v s1.
    change ((fix go (l : list nodeS) (z : sst) : out (list sval) := match l with [] => Got [] z | e :: t => seq (f (fst e) z) (fun v z1 => seq (go t z1) (fun vs z2 => Got (v :: vs) z2)) end)) with (list_with f).
    rewrite IH, !seq_seq. apply seq_ext. intros vs s2. rewrite seq_seq. cbn. apply seq_ext. reflexivity.
Qed.
Lemma list_back_rev f l s : list_back_with (D:=D) f l s =
  seq (list_with f (rev l) s) (fun vs s => Got (rev vs) s).
Proof using.
  revert s. induction l as [|e l IH]; intros s; [reflexivity|]. cbn [rev]. rewrite list_with_app, seq_seq.
  cbn [list_back_with]. change ((fix go (l : list nodeS) (z : sst) : out (list sval) := match l with [] => Got [] z | e :: t => seq (go t z) (fun vs z1 => seq (f (fst e) z1) (fun v z2 => Got (v :: vs) z2)) end)) with (list_back_with f).
  rewrite IH, seq_seq. apply seq_ext. intros vs s1. cbn. rewrite !seq_seq. apply seq_ext. intros v s2. cbn.
  rewrite rev_app_distr. reflexivity.
Qed.
End Outs.

Definition first_ok (al : bool) (l : list nodeS) : bool :=
  match l with
  | [] => true
  | e :: t => placed al (fst e) && forallb (fun e => placed false (fst e)) t
  end.
Lemma first_false l : first_ok false l = forallb (fun e => placed false (fst e)) l.
Proof. destruct l; reflexivity. Qed.
Fixpoint last_ok (al : bool) (l : list nodeS) : bool :=
  match l with
  | [] => true
  | e :: t => match t with [] => placed al (fst e) | _ :: _ => placed false (fst e) && last_ok al t end
  end.
Lemma last_first al l : last_ok al l = first_ok al (rev l).
Proof.
  induction l as [|e t IH]; [reflexivity|]. cbn [last_ok rev]. rewrite IH. destruct t as [|e' t]; [cbn; rewrite andb_true_r; auto|].
  destruct (rev (e' :: t)) as [|x l] eqn:E.
  - apply (f_equal (@length _)) in E. rewrite rev_length in E. discriminate.
  - cbn [app first_ok]. rewrite forallb_app. cbn [forallb]. rewrite andb_true_r.
    destruct (placed al (fst x)), (placed false (fst e)), (forallb (fun e => placed false (fst e)) l); reflexivity.
Qed.

Section Sim.
Context {D : Type} (m : mode) (hst : host D) (opts : options) (gs : pool rstring)
        (bs : list (N * builtin D)) (G : list rstring).
Notation goes := (goes m hst opts gs bs).
Notation failing := (failing m hst opts gs bs).
Notation finishes := (finishes m hst opts gs bs).
Notation lasts := (lasts m hst opts gs bs).
Notation leads := (leads m hst opts gs bs).
Notation "ip '+>' i" := (ip + length (item_bytes (It i))) (at level 50).
Notation vr := (vr m G).
Notation mem := (mem m G).
Notation sst := (@sst D).
Notation Inv := (Inv m gs G).
Notation here := (here m gs G).
Notation pushed := (pushed m G).
Notation tops := (tops m G).
Notation sim := (sim m hst opts gs bs G).
Notation globs := (globs m gs G).
Implicit Types (F : @fixed D) (w : @world D).

Lemma sim_le {A} P n n' F ip w ip' (o : out A) Q : n' <= n -> sim P n F ip w ip' o Q -> sim P n' F ip w ip' o Q.
Proof using. intros H. destruct o; cbn; auto. apply lasts_le. auto. Qed.
Lemma sim_goes_S {A} P n F ip w k ip1 w1 ip' (o : out A) Q :
  goes (S k) (F, ip, w_mov w) (F, ip1, w_mov w1) -> sim P n F ip1 w1 ip' o Q -> sim P (S n) F ip w ip' o Q.
Proof using.
  intros Hg Hs. destruct o; try exact (sim_goes m hst opts gs bs G P n F ip w (S k) ip1 w1 ip' _ Q Hg Hs).
  cbn in *. eapply lasts_le; [|eapply goes_lasts; eauto]. lia.
Qed.

Definition aligned (P : level) (L : locals) w : Prop := length (stk w) = l_base P + length L.
Lemma here_exits X F P L r w x : here X F P L r w -> here X (with_exits F x) P L r w.
Proof using. intros [H1 H2 H3 H4 H5]. constructor; auto. Qed.

(** ** Binding the values on top *)
Lemma bind_top X F P L r w0 w1 l new : here X F P L r w0 -> Inv P L w1 -> pushed w0 (map snd l) w1 ->
  aligned P L w0 -> map fst new = rev (map fst l) ->
  exists w' locs, here X F P (new ++ L) (fst (bind_all l r (w_st w1))) w' /\ w_mov w' = w_mov w1 /\
    w_st w' = snd (bind_all l r (w_st w1)) /\ length locs = length new /\ grown w0 w' (map Some locs).
Proof using.
  intros H I1 Hp Ha En.
  pose proof (here_grown _ _ _ _ _ _ _ _ _ _ _ H I1 (proj1 Hp)) as H1.
  destruct (pushed_split m gs G _ _ _ _ _ _ _ (hr_inv _ _ _ _ _ _ _ _ _ H) I1 Hp) as (t & ys & Et & Hf & Lt & Lt').
  destruct (bind_many m gs G X F P ys l new L r w1 (w_sh w0) t H1 En) as (w' & locs & K & E1 & E2 & E3 & E4 & E5); auto.
  - rewrite <- (map_length snd l). apply (gw_sh _ _ _ (proj1 Hp)).
  - unfold aligned in Ha. lia.
  - exists w', locs. split; [exact K|]. split; [auto|]. split; [auto|]. split.
    + rewrite E5. apply (f_equal (@length _)) in En. rewrite rev_length, !map_length in En. auto.
    + destruct (proj1 Hp) as [G1 G2 G3]. constructor; auto.
      * intros i Hi. unfold stk. rewrite E1. apply G2. auto.
      * rewrite E3. auto.
Qed.
Lemma combine_fst {A B} (a : list A) (b : list B) : length a = length b -> map fst (combine a b) = a.
Proof using. revert b. induction a; intros [|y b]; cbn; try discriminate; auto. intros [= E]. rewrite IHa; auto. Qed.
Lemma combine_snd {A B} (a : list A) (b : list B) : length a = length b -> map snd (combine a b) = b.
Proof using. revert b. induction a; intros [|y b]; cbn; try discriminate; auto. intros [= E]. rewrite IHa; auto. Qed.

Lemma sim_unpack X F P L r w0 w ip k n v : here X F P L r w0 -> Inv P L w -> pushed w0 [v] w ->
  code_at (k_fn F) ip [It (IUnpack k)] ->
  sim P n F ip w (ip +> IUnpack k) (lift (v_unpack sfi k v) (w_st w))
      (fun parts w' => Inv P L w' /\ pushed w0 (rev parts) w' /\ length parts = N.to_nat k).
Proof using.
  intros H I1 Hp Hc. pose proof (hr_inv _ _ _ _ _ _ _ _ _ H) as I0.
  destruct (pushed_split m gs G _ _ _ _ _ _ _ I0 I1 Hp) as (t & ys & Et & Hf & Lt & Lt').
  inversion Hf as [|? y ? ? Hv Hn]; subst. inversion Hn; subst. clear Hn Hf.
  pose proof (i_unpack m hst opts gs bs F ip t (m_gl (w_mov w)) (m_heap (w_mov w)) (m_data (w_mov w)) k y Hc) as Hi.
  assert (HF : forall x y, fn_rel m G (w_cv w) x y -> fi_type sfi x = fi_type mfi y) by (intros; eapply fn_rel_info; eauto).
  pose proof (unpack_rel _ sfi mfi HF k v y Hv) as Hr.
  destruct (v_unpack sfi k v) as [parts|e|] eqn:Ev; [| |exact Logic.I];
    destruct (v_unpack mfi k y) as [ws|e'|]; cbn in Hr; try contradiction.
  - destruct (replace_top m gs G P L P L w0 w [v] t [y] (rev parts) (rev ws) (m_data (w_mov w)) I0) as [I' P']; auto.
    + apply (iv_base _ _ _ _ _ _ I0).
    + apply f2_rev. exact Hr.
    + unfold retop in *. rewrite (put_data_same _ _ _ _ _ _ I1) in *.
      match type of I' with Inv _ _ ?x => exists 1, x end. split; [|split; [reflexivity|split; [exact I'|split; [exact P'|]]]].
      * rewrite (mov_top w t [y] Et). exact Hi.
      * eapply unpack_length; eauto.
  - subst e'. eapply sim_err; [exact I1|]. rewrite (mov_top w t [y] Et). exact Hi.
Qed.

Lemma sim_bind X F P L r w0 w ip n v vv cv L1 : here X F P L r w0 -> aligned P L w0 -> Inv P L w ->
  pushed w0 [v] w -> code_var L (Some vv) cv L1 -> code_at (k_fn F) ip cv ->
  sim P n F ip w (ip + size cv) (bind_var vv v r (w_st w))
      (fun r' w' => here X F P L1 r' w' /\ exists locs, length L1 = length L + length locs /\ grown w0 w' (map Some locs)).
Proof using.
  intros H Ha I1 Hp Hv Hc. inversion Hv as [|L0 x b|L0 xs new Hl Hm]; subst; rewrite size_cons, size_nil, Nat.add_0_r; cbn [bind_var].
  - destruct (pushed_split m gs G _ _ _ _ _ _ _ (hr_inv _ _ _ _ _ _ _ _ _ H) I1 Hp) as (t & ys & Et & Hf & Lt & Lt').
    inversion Hf as [|? y ? ? Hvy Hn]; subst. inversion Hn; subst. clear Hn Hf.
    destruct (bind_top X F P L r w0 w [(fst x, v)] [(fst x, b)] H I1 Hp Ha eq_refl) as (w' & locs & K1 & K2 & K3 & K4 & K5).
    destruct (bind_all [(fst x, v)] r (w_st w)) as [r' s'] eqn:Eb. cbn [fst snd] in *.
    eapply sim_step; [|exact K3|split; [exact K1|]].
    + rewrite K2. rewrite (mov_top w t [y] Et) at 1.
      replace (w_mov w) with (mkM (upd (k_base F + N.to_nat (len L)) y (t ++ [y])) (m_gl (w_mov w)) (m_heap (w_mov w)) (m_data (w_mov w))).
      * apply i_set_local; auto. unfold len. rewrite Nat2N.id, (hr_base _ _ _ _ _ _ _ _ _ H). unfold aligned in Ha. lia.
      * unfold len. rewrite Nat2N.id, (hr_base _ _ _ _ _ _ _ _ _ H). unfold aligned in Ha.
        rewrite <- Ha, <- Lt', upd_at. symmetry. apply mov_top. auto.
    + exists locs. split; auto. cbn. cbn in K4. lia.
  - eapply sim_seq; [eapply (sim_unpack X F P L r w0 w ip (len xs) n v); eauto|].
    intros parts w1 (I2 & P2 & Lp).
    assert (Ln : length (map fst xs) = length parts) by (rewrite map_length, Lp; unfold len; rewrite Nat2N.id; auto).
    destruct (bind_top X F P L r w0 w1 (rev (combine (map fst xs) parts)) new H I2) as (w' & locs & K1 & K2 & K3 & K4 & K5).
    + rewrite map_rev, combine_snd by auto. exact P2.
    + auto.
    + rewrite map_rev, combine_fst, rev_involutive by auto. auto.
    + destruct (bind_all (rev (combine (map fst xs) parts)) r (w_st w1)) as [r' s'] eqn:Eb. cbn [fst snd] in *.
      exists 0, w'. rewrite K2. split; [apply goes_0|]. split; [auto|]. split; [auto|]. exists locs. split; auto.
      rewrite app_length. lia.
Qed.

(** ** Calls *)
Definition call_ok (n : nat) (call : sfn -> list sval -> sst -> out sval) : Prop :=
  forall F ip k c vs P L w0 w,
  code_at (k_fn F) ip [It (ICallFunction k)] -> N.to_nat k = length vs -> k_base F = l_base P ->
  Inv P L w0 -> Inv P L w -> pushed w0 (VFn c :: vs) w -> length vs = length (sf_params c) ->
  sim P n F ip w (ip +> ICallFunction k) (call c vs (w_st w)) (fun v w' => Inv P L w' /\ pushed w0 [v] w').

Context (orc : oracle) (builtins : rstring -> option (sbuiltin (D:=D))).
Notation on_call := (h_enter hst).
Notation on_return := (h_leave hst).
Notation call_at := (call_at m orc opts on_call on_return builtins).

Definition body_ok (n : nat) : Prop := forall X L body c L', @code_stmts m ordinary_name X false L body c L' ->
  forall F P ip w r, code_at (k_fn F) ip c -> here X F P L r w ->
  forallb (fun e => placed true (fst e)) body = true -> Forall (fun e => @named ordinary_name (fst e)) body ->
  aligned P L w ->
  sim P n F ip w (ip + size c)
      (stmts_with (ev m orc opts builtins (call_at n) n false) body r (w_st w)) (fun _ _ => True).

Lemma call_0 : call_ok 0 (call_at 0).
Proof using. intros F ip k c vs P L w0 w _ _ _ _ _ _ _. cbn. apply lasts_0. Qed.

Lemma call_S n : body_ok n -> call_ok (S n) (call_at (S n)).
Proof using.
  intros Hb F ip k c vs P L w0 w Hc Hk HB I0 I1 Hp Hl.
  destruct (pushed_split m gs G _ _ _ _ _ _ _ I0 I1 Hp) as (t & ys & Et & Hf & Lt & Lt').
  inversion Hf as [|? y ? args Hvy Hargs E1 E2]; subst. clear Hf.
  inversion Hvy as [| | | | | | | | | | |c0 g Hg]; subst. inversion Hg as [c1 f cells Lp U outer bc L' B1 B2 B3 B4 B5 B6 B7 B8 B9 B10]; subst.
  pose proof (f2_length _ _ _ Hargs) as La.
  pose proof (i_call m hst opts gs bs F ip t (m_gl (w_mov w)) (m_heap (w_mov w)) (m_data (w_mov w)) k args (VFn (MClo f cells)) Hc) as Hi.
  rewrite Hk in Hi. specialize (Hi La). cbn [mfn_function] in Hi.
  replace (k =? fn_arity f)%N with true in Hi by (symmetry; apply N.eqb_eq; rewrite B2; unfold len; lia).
  pose proof (mov_top w t _ Et) as Em. rewrite <- Em in Hi.
  set (F' := callee F f cells (ip +> ICallFunction k) (length t)) in *.
  set (P' := mkLv (length t) (w_sh w0) t (w_cv w) (flagged P L)).
  set (d' := h_enter hst (m_data (w_mov w))) in *.
  set (w1 := mkW (mkM (stk w) (m_gl (w_mov w)) (m_heap (w_mov w)) d') (w_sh w) (w_cv w) (put_data d' (w_st w))).
  set (X := mkCtx G (ck_consts (fn_chunk f)) U outer) in *.
  set (w00 := mkW (mkM t (m_gl (w_mov w)) (m_heap (w_mov w)) d') (w_sh w0) (w_cv w) (put_data d' (w_st w))).
  pose proof (proj1 Hp) as [Gsh Gk Gc]. destruct I1 as [A1 A2 A3 A4 A5 A6 A7 A8].
  assert (Hopen : forall q j, nth_error (m_heap (w_mov w)) q = Some (Open j) -> j < length t).
  { intros q j Hq. destruct (mem_open _ _ _ _ _ _ _ _ _ A1 Hq) as [l El]. rewrite Gsh in El. apply nth_pad in El.
    apply nth_some_lt in El. lia. }
  assert (H00 : here X F' P' [] (sf_env c) w00).
  { constructor; auto.
    - constructor; cbn; auto.
      + apply (mem_unpush m G _ _ _ _ _ (VFn (MClo f cells) :: args) (length (VFn c :: vs))); [|lia].
        rewrite <- Et, <- Gsh. exact A1.
      + rewrite Lt. apply firstn_all.
      + apply ext_refl.
      + intros q j Hq. left. cbn. split; eauto.
    - intros x Hx. cbn. split; [apply B8; auto|]. intros i Hi'.
      pose proof (f2_nth _ _ _ i B7) as K. rewrite Hi' in K. destruct (nth_error cells i) as [cell|]; [|contradiction].
      destruct K as (l & K1 & K2). exists cell, l. auto. }
  assert (I1 : Inv P' [] w1).
  { constructor; cbn; auto.
    - unfold stk. cbn. fold (stk w). rewrite Et, app_length. lia.
    - rewrite Gsh, Lt, firstn_app, Nat.sub_diag, firstn_all. cbn. apply app_nil_r.
    - intros i Hi'. unfold stk. cbn. fold (stk w). apply nth_some_lt in Hi'. rewrite Et, nth_error_app1; auto. lia.
    - apply ext_refl.
    - intros q j Hq. left. cbn. split; eauto. }
  set (l := combine (sf_name c :: sf_params c) (VFn c :: vs)).
  assert (Ll : length (sf_name c :: sf_params c) = length (VFn c :: vs)) by (cbn; lia).
  assert (P1 : pushed w00 (map snd l) w1).
  { unfold l. rewrite combine_snd by auto. split.
    - constructor; auto; [|apply ext_refl]. cbn. intros i Hi'. apply nth_some_lt in Hi'. unfold stk. cbn. fold (stk w).
      rewrite Et, nth_error_app1; auto. lia.
    - exists t, (VFn (MClo f cells) :: args). split; [exact Et|]. constructor; auto. }
  destruct (bind_top X F' P' [] (sf_env c) w00 w1 l Lp H00 I1 P1) as (w2 & locs & K1 & K2 & K3 & K4 & K5).
  { unfold aligned. cbn. unfold stk. cbn. lia. }
  { unfold l. rewrite combine_fst by auto. auto. }
  rewrite app_nil_r in K1. cbn [SpecEval.call_at].
  replace (put_data (h_enter hst (ss_data (w_st w))) (w_st w)) with (w_st w1) by (cbn; unfold d'; rewrite A7; auto).
  fold l. destruct (bind_all l (sf_env c) (w_st w1)) as [r' s'] eqn:Eb. cbn [fst snd] in *.
  assert (Hgo : goes 1 (F, ip, w_mov w) (F', 0, w_mov w2)).
  { rewrite K2. cbn [w1 w_mov]. rewrite Et. exact Hi. }
  assert (Hc0 : code_at (k_fn F') 0 bc).
  { exists [], []. rewrite app_nil_r. auto. }
  pose proof (Hb X Lp (sf_body c) bc L' B6 F' P' 0 w2 r' Hc0 K1 B9 B10) as Hs. rewrite K3 in Hs.
  assert (Hal : aligned P' Lp w2).
  { unfold aligned. pose proof (iv_len _ _ _ _ _ _ (hr_inv _ _ _ _ _ _ _ _ _ K1)) as Q1. rewrite (gw_sh _ _ _ K5), app_length, map_length in Q1.
    cbn [w00 w_sh P' l_base] in *. lia. }
  specialize (Hs Hal).
  destruct (stmts_with _ (sf_body c) r' s') as [o s|v s|e s| |]; cbn in Hs |- *; auto.
  - destruct Hs as (j & ip1 & w3 & Hgo3 & E3 & Hret & L3 & sh3 & t3 & x3 & I3 & Esh3 & Et3 & Hv3 & Hb3).
    pose proof (iv_len _ _ _ _ _ _ I3) as Len3. rewrite Esh3, Et3, !app_length in Len3. cbn in Len3.
    assert (Len3' : length sh3 = length t3) by lia. clear Len3. cbn [P' l_base] in Hb3.
    destruct I3 as [C1 C2 C3 C4 C5 C6 C7 C8]. cbn [P' l_base l_sh l_stk l_cv l_fl] in *.
    assert (Hopen3 : forall q j, nth_error (m_heap (w_mov w3)) q = Some (Open j) -> j < length t3).
    { intros q i Hq. destruct (mem_open _ _ _ _ _ _ _ _ _ C1 Hq) as [l0 El]. rewrite Esh3 in El.
      apply (proj1 (nth_pad sh3 1 i l0)) in El. apply nth_some_lt in El. lia. }
    pose proof (i_return m hst opts gs bs F' ip1 t3 (m_gl (w_mov w3)) (m_heap (w_mov w3)) (m_data (w_mov w3)) x3
                  _ _ F (ip +> ICallFunction k) Hret eq_refl eq_refl eq_refl eq_refl eq_refl Hb3 Hopen3) as Hr.
    rewrite <- (mov_top w3 t3 [x3] Et3) in Hr. cbn [F' callee k_base] in Hr.
    assert (Fsh : firstn (length t) sh3 = w_sh w0).
    { rewrite <- C3, Esh3, firstn_app. replace (length t - length sh3) with 0 by lia. cbn. rewrite app_nil_r. auto. }
    assert (Hlow : forall i, nth_error (w_sh w0) i = Some None -> nth_error (firstn (length t) t3 ++ [x3]) i = nth_error (stk w0) i).
    { intros i Hi'. pose proof (nth_some_lt _ _ _ Hi') as Hlt. rewrite nth_error_app1 by (rewrite firstn_length; lia).
      rewrite nth_firstn. destruct (Nat.ltb_spec i (length t)); [|lia].
      transitivity (nth_error (stk w3) i); [rewrite Et3, nth_error_app1; auto; lia|].
      rewrite C4 by auto. rewrite <- Gk by auto. rewrite Et, nth_error_app1; auto. }
    exists (1 + (j + 1)), (mkW (mkM (firstn (length t) t3 ++ [x3]) (m_gl (w_mov w3)) (close_from (length t) t3 (m_heap (w_mov w3))) (h_leave hst (m_data (w_mov w3))))
            (w_sh w0 ++ [None]) (w_cv w3) (put_data (h_leave hst (ss_data s)) s)).
    split; [|split; [reflexivity|]].
    + eapply goes_trans; [exact Hgo|]. eapply goes_trans; [exact Hgo3|]. exact Hr.
    + destruct I0 as [I01 I02 I03 I04 I05 I06 I07 I08]. split.
      * constructor; cbn; auto.
        -- apply (mem_push m G (w_sh w0) (firstn (length t) t3) (w_cv w3) _ (ss_store s) [x3]). rewrite <- Fsh.
           apply mem_close_from; auto. rewrite <- E3. apply (mem_unpush m G _ _ _ _ _ [x3] 1); auto. rewrite <- Et3. unfold nones. cbn.
           rewrite <- Esh3. exact C1.
        -- unfold stk. cbn. rewrite app_length, firstn_length. cbn. unfold stk in *. lia.
        -- rewrite firstn_app. replace (l_base P - length (w_sh w0)) with 0 by (unfold stk in *; lia). cbn. rewrite app_nil_r. auto.
        -- intros i Hi'. rewrite <- I04 by auto. unfold stk at 1. cbn. apply Hlow. rewrite <- I03, nth_firstn in Hi'.
           destruct (i <? l_base P); [auto|discriminate].
        -- eapply ext_trans; [|exact C5]. exact A5.
        -- rewrite <- E3. exact C6.
        -- rewrite <- E3, C7. reflexivity.
        -- intros q i Hq. rewrite close_from_nth in Hq. destruct (nth_error (m_heap (w_mov w3)) q) as [[i0|]|] eqn:Eq; try discriminate.
           destruct (Nat.leb_spec (length t) i0).
           ++ destruct (nth_error t3 i0) eqn:E0; [discriminate|]. apply nth_error_None in E0. specialize (Hopen3 _ _ Eq). lia.
           ++ injection Hq as ->. destruct (C8 _ _ Eq) as [[_ Hfl]|(i1 & x1 & -> & _)]; [exact Hfl|]. cbn in H. lia.
      * split.
        -- constructor; cbn; auto. eapply ext_trans; [exact Gc|exact C5].
        -- exists (firstn (length t) t3), [x3]. split; [reflexivity|]. constructor; auto.
  - destruct Hs as (gl & cv & Hfail & Hgl). exists gl, cv. split; auto. eapply goes_fails; eauto.
  - eapply lasts_le; [|eapply goes_lasts; eauto]. lia.
Qed.
End Sim.
