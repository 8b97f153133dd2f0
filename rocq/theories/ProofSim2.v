(** One lemma per instruction, continued. *)
From Verif Require Import Base RleVec Pool Vecc Float NumText Bytecode Chunk Value Ast Arith VmOps
                          Compiler Vm Items SpecVm ProofVars ProofSim1.

(** Closing the captures of one slot; of every slot from [base] on. *)
Definition close_slot (j : nat) (v : value) (h : list upvalue) : list upvalue :=
  map (fun u => match u with Open l => if l =? j then Closed v else Open l | _ => u end) h.
Definition close_from (base : nat) (t : list value) (h : list upvalue) : list upvalue :=
  map (fun u => match u with
                | Open l => if base <=? l then match nth_error t l with
                                               | Some v => Closed v
                                               | None => Open l
                                               end
                            else Open l
                | _ => u
                end) h.
(** The cells of the variables a function captures. *)
Inductive caps_to (base : nat) (ups : list nat)
  : list upvalue -> list (N * bool) -> list nat -> list upvalue -> Prop :=
| ct_none h : caps_to base ups h [] [] h
| ct_old h i c t cs h' : nth_error h c = Some (Open (base + N.to_nat i)) ->
    caps_to base ups h t cs h' -> caps_to base ups h ((i, true) :: t) (c :: cs) h'
| ct_new h i t cs h' : (forall c, nth_error h c <> Some (Open (base + N.to_nat i))) ->
    caps_to base ups (h ++ [Open (base + N.to_nat i)]) t cs h' ->
    caps_to base ups h ((i, true) :: t) (length h :: cs) h'
| ct_up h i c t cs h' : nth_error ups (N.to_nat i) = Some c ->
    caps_to base ups h t cs h' -> caps_to base ups h ((i, false) :: t) (c :: cs) h'.
Definition one_cell (h : list upvalue) : Prop :=
  forall c c' l, nth_error h c = Some (Open l) -> nth_error h c' = Some (Open l) -> c = c'.

Lemma list_ext {X} (a b : list X) : (forall i, nth_error a i = nth_error b i) -> a = b.
Proof.
  revert b. induction a as [|x a IH]; intros [|y b] H; auto.
  - discriminate (H 0). - discriminate (H 0).
  - pose proof (H 0) as E. cbn in E. injection E as <-. f_equal. apply IH. intros i. apply (H (S i)).
Qed.

Lemma upd_at {X} (t : list X) x y r : upd (length t) x (t ++ y :: r) = t ++ x :: r.
Proof. induction t; cbn; congruence. Qed.

Section Machine.
Context {D : Type} (m : mode) (hst : host D) (opts : options) (gs : pool rstring)
        (bs : list (N * builtin D)).
Notation goes := (goes m hst opts gs bs).
Notation failing := (failing m hst opts gs bs).
Notation finishes := (finishes m hst opts gs bs).
Notation "ip '+>' i" := (ip + length (item_bytes (It i))) (at level 50).
Notation conc := (conc opts gs bs).
Notation A := (A opts gs bs).

Implicit Types (F : @fixed D) (gl : list (N * value)) (t : list value) (h : list upvalue) (d : D).

(** What an operation comes to. *)
Definition leads F ip F' ip' t t' gl h d (r : res value) : Prop :=
  match r with
  | Ok v => goes 1 (F, ip, mkM t gl h d) (F', ip', mkM (t' ++ [v]) gl h d)
  | Err e => failing (F, ip, mkM t gl h d) e d gl
  | Panic => True
  end.

Ltac start Hc := refine (go_exec m hst opts gs bs _ _ _ (It _) _ Hc _ _); [discriminate|];
  intros rest opens reads n ext Hf; cbn [item_instr exec item_bytes]; unfold abind, agets, amod, lift_1, aret.
Ltac start_f Hc := refine (fail_exec m hst opts gs bs _ _ _ (It _) _ _ _ Hc _ _); [discriminate|];
  intros rest opens reads n ext Hf; cbn [item_instr exec item_bytes]; unfold abind, agets, amod, lift_1, aret.
Ltac ok := right; eexists; split; [reflexivity|]; eauto using fit_cons, fit_snoc, fit_same, A_conc.

Lemma i_none F ip t gl h d : code_at (k_fn F) ip [It ILoadNone] ->
  goes 1 (F, ip, mkM t gl h d) (F, ip +> ILoadNone, mkM (t ++ [VNone]) gl h d).
Proof. intros Hc. start Hc. apply push_end; auto. Qed.
Lemma i_loop F ip t gl h d : code_at (k_fn F) ip [It INewLoopCtx] ->
  goes 1 (F, ip, mkM t gl h d) (F, ip +> INewLoopCtx, mkM (t ++ [VLoopCtx 0]) gl h d).
Proof. intros Hc. start Hc. apply push_end; auto. Qed.
Lemma i_const F ip t gl h d off v : code_at (k_fn F) ip [It (ILoadConst off)] ->
  nth_error (ck_consts (fn_chunk (k_fn F))) (N.to_nat off) = Some v ->
  goes 1 (F, ip, mkM t gl h d) (F, ip +> ILoadConst off, mkM (t ++ [v]) gl h d).
Proof.
  intros Hc Hv. start Hc. unfold get_constant, chunk_get_constant, cur_chunk, fr_chunk. cbn [ProofSim1.conc v_frame f_fn].
  rewrite Hv. apply push_end; auto.
Qed.
Lemma i_local F ip t gl h d i v : code_at (k_fn F) ip [It (ILoadLocal i)] ->
  nth_error t (k_base F + N.to_nat i) = Some v ->
  goes 1 (F, ip, mkM t gl h d) (F, ip +> ILoadLocal i, mkM (t ++ [v]) gl h d).
Proof.
  intros Hc Hv. start Hc. change (f_st (v_frame (conc F (ip + length (enc (ILoadLocal i))) (mkM t gl h d) rest opens reads n ext))) with (k_base F).
  erewrite slot_c by eauto. apply push_end; auto.
Qed.
Lemma i_set_local F ip t gl h d i v : code_at (k_fn F) ip [It (ISetLocal i)] ->
  k_base F + N.to_nat i < S (length t) ->
  goes 1 (F, ip, mkM (t ++ [v]) gl h d)
         (F, ip +> ISetLocal i, mkM (upd (k_base F + N.to_nat i) v (t ++ [v])) gl h d).
Proof.
  intros Hc Hv. start Hc. rewrite peek_c. cbn [ProofSim1.conc v_frame f_st].
  erewrite (set_slot_c opts gs bs) by (rewrite app_length; cbn; lia). ok.
  apply A_conc. eapply fit_same; eauto. apply upd_length.
Qed.
Lemma i_global F ip t gl h d i : code_at (k_fn F) ip [It (ILoadGlobal i)] ->
  match alookup N.eqb i gl with
  | Some v => goes 1 (F, ip, mkM t gl h d) (F, ip +> ILoadGlobal i, mkM (t ++ [v]) gl h d)
  | None => forall x, pool_get gs i = Some x -> failing (F, ip, mkM t gl h d) (ENameUndefined x) d gl
  end.
Proof.
  intros Hc. destruct (alookup N.eqb i gl) as [v|] eqn:E.
  - start Hc. cbn [ProofSim1.conc v_globals m_gl]. rewrite E. apply push_end; auto.
  - intros x Hx. start_f Hc. cbn [ProofSim1.conc v_globals m_gl]. rewrite E. right.
    unfold global_name, agets, error_1. cbn [ProofSim1.conc v_gsyms]. rewrite Hx. do 2 eexists. split; [reflexivity|]. auto.
Qed.
Lemma i_define F ip t gl h d i v : code_at (k_fn F) ip [It (IDefineGlobal i)] ->
  goes 1 (F, ip, mkM (t ++ [v]) gl h d) (F, ip +> IDefineGlobal i, mkM t (ainsert i v gl) h d).
Proof.
  intros Hc. start Hc. rewrite pop_c. right. eexists. split; [reflexivity|].
  change (A (F, ip +> IDefineGlobal i, mkM t (ainsert i v gl) h d)
    (conc F (ip +> IDefineGlobal i) (mkM t (ainsert i v gl) h d) (v :: rest) opens reads n ext)).
  apply A_conc. eapply fit_same; [eapply fit_cons; eauto|auto].
Qed.
Lemma i_default F ip t gl h d i v : code_at (k_fn F) ip [It (IDefineGlobalDefaulted i)] ->
  goes 1 (F, ip, mkM (t ++ [v]) gl h d)
    (F, ip +> IDefineGlobalDefaulted i,
     mkM t (match alookup N.eqb i gl with Some _ => gl | None => ainsert i v gl end) h d).
Proof.
  intros Hc. start Hc. rewrite pop_c. right. eexists. split; [reflexivity|]. cbn [ProofSim1.conc v_globals m_gl].
  destruct (alookup N.eqb i gl).
  - apply (A_conc opts gs bs F _ (mkM t gl h d) (v :: rest) opens reads n ext). eapply fit_same; [eapply fit_cons; eauto|auto].
  - apply (A_conc opts gs bs F _ (mkM t (ainsert i v gl) h d) (v :: rest) opens reads n ext). eapply fit_same; [eapply fit_cons; eauto|auto].
Qed.
Lemma i_set_global F ip t gl h d i v : code_at (k_fn F) ip [It (ISetGlobal i)] ->
  match alookup N.eqb i gl with
  | Some _ => goes 1 (F, ip, mkM (t ++ [v]) gl h d)
                     (F, ip +> ISetGlobal i, mkM (t ++ [v]) (ainsert i v gl) h d)
  | None => forall x, pool_get gs i = Some x -> failing (F, ip, mkM (t ++ [v]) gl h d) (ENameUndefined x) d gl
  end.
Proof.
  intros Hc. destruct (alookup N.eqb i gl) as [w|] eqn:E.
  - start Hc. rewrite peek_c. cbn [ProofSim1.conc v_globals m_gl]. rewrite E. right. eexists. split; [reflexivity|].
    apply (A_conc opts gs bs F _ (mkM (t ++ [v]) (ainsert i v gl) h d) rest opens reads n ext). eapply fit_same; eauto.
  - intros x Hx. start_f Hc. rewrite peek_c. cbn [ProofSim1.conc v_globals m_gl]. rewrite E. right.
    unfold global_name, agets, error_1. cbn [ProofSim1.conc v_gsyms]. rewrite Hx. do 2 eexists. split; [reflexivity|]. auto.
Qed.

Definition cell_value (t : list value) (u : upvalue) : option value :=
  match u with Open l => nth_error t l | Closed v => Some v end.
Lemma i_up F ip t gl h d i c u v : code_at (k_fn F) ip [It (ILoadUpvalue i)] ->
  nth_error (k_up F) (N.to_nat i) = Some c -> nth_error h c = Some u -> cell_value t u = Some v ->
  goes 1 (F, ip, mkM t gl h d) (F, ip +> ILoadUpvalue i, mkM (t ++ [v]) gl h d).
Proof.
  intros Hc H1 H2 H3. start Hc. cbn [ProofSim1.conc v_frame f_ups]. rewrite H1. unfold up_get. cbn [ProofSim1.conc v_heap m_heap]. rewrite H2.
  destruct u as [l|w]; cbn in H3.
  - rewrite (slot_c opts gs bs F _ t gl h d rest opens reads n ext l v H3). apply push_end; auto.
  - injection H3 as ->. apply (push_end opts gs bs F _ t gl h d rest opens reads n ext v Hf).
Qed.
Lemma i_set_up F ip t gl h d i c u v : code_at (k_fn F) ip [It (ISetUpvalue i)] ->
  nth_error (k_up F) (N.to_nat i) = Some c -> nth_error h c = Some u ->
  (forall l, u = Open l -> l < S (length t)) ->
  goes 1 (F, ip, mkM (t ++ [v]) gl h d)
    (F, ip +> ISetUpvalue i,
     match u with
     | Open l => mkM (upd l v (t ++ [v])) gl h d
     | Closed _ => mkM (t ++ [v]) gl (upd c (Closed v) h) d
     end).
Proof.
  intros Hc H1 H2 H3. start Hc. rewrite peek_c. cbn [ProofSim1.conc v_frame f_ups]. rewrite H1. unfold up_set. cbn [ProofSim1.conc v_heap m_heap]. rewrite H2.
  destruct u as [l|w].
  - rewrite (set_slot_c opts gs bs F _ (t ++ [v]) gl h d rest opens reads n ext l v) by (rewrite app_length; cbn; specialize (H3 l eq_refl); lia).
    right. eexists. split; [reflexivity|]. apply A_conc. eapply fit_same; eauto. apply upd_length.
  - right. eexists. split; [reflexivity|].
    apply (A_conc opts gs bs F _ (mkM (t ++ [v]) gl (upd c (Closed v) h) d) rest opens reads n ext).
    destruct Hf as [Hf1 Hf2]. split; auto. cbn [m_heap] in *. intros c'. rewrite Hf2.
    assert (c < length h) by (apply nth_error_Some; congruence).
    destruct (Nat.eq_dec c c') as [<-|Hn]; [rewrite nth_error_upd_eq, H2 by auto|rewrite nth_error_upd_neq by auto; tauto].
    split; intros [l Hl]; congruence.
Qed.

Lemma i_pop F ip t gl h d v : code_at (k_fn F) ip [It IPop] ->
  goes 1 (F, ip, mkM (t ++ [v]) gl h d) (F, ip +> IPop, mkM t gl h d).
Proof. intros Hc. start Hc. rewrite pop_c. ok. Qed.
Lemma i_pops F ip t t' gl h d k : code_at (k_fn F) ip [It (IPopMany k)] -> length t' = N.to_nat k ->
  goes 1 (F, ip, mkM (t ++ t') gl h d) (F, ip +> IPopMany k, mkM t gl h d).
Proof.
  intros Hc Hk. start Hc. unfold pop_many. cbn [ProofSim1.conc v_sp m_stk]. rewrite app_length, Hk.
  replace (_ <? _) with false by (symmetry; apply Nat.ltb_ge; lia).
  right. eexists. split; [reflexivity|].
  replace (length t + N.to_nat k - N.to_nat k) with (length t) by lia.
  replace (A (F, ip +> IPopMany k, mkM t gl h d)) with (A (F, ip +> IPopMany k, mkM t gl h d)) by auto.
  exists (t' ++ rest), opens, reads, n, ext. split.
  - unfold ProofSim1.conc, set_stack. cbn. rewrite app_assoc. reflexivity.
  - destruct Hf as [H1 H2]. split; auto. cbn in *. rewrite app_assoc. exact H1.
Qed.
Lemma i_swappop F ip t gl h d v w : code_at (k_fn F) ip [It ISwapPop] ->
  goes 1 (F, ip, mkM (t ++ [v; w]) gl h d) (F, ip +> ISwapPop, mkM (t ++ [w]) gl h d).
Proof.
  intros Hc. start Hc. unfold swap. cbn [ProofSim1.conc v_sp m_stk v_stack]. rewrite app_length. cbn [length].
  rewrite Nat.add_comm. cbn [Nat.add].
  replace ((t ++ [v; w]) ++ rest) with (t ++ v :: w :: rest) by (rewrite <- app_assoc; reflexivity).
  rewrite nth_app_0. replace (S (length t)) with (length t + 1) by lia. rewrite nth_app_r. cbn [nth_error].
  rewrite upd_app_r. replace (upd (length t) w _) with (upd (length t + 0) w (t ++ upd 1 v (v :: w :: rest))) by (rewrite Nat.add_0_r; auto).
  rewrite upd_app_r. cbn [upd].
  match goal with |- context [pop ?s] =>
    replace s with (conc F (ip + length (enc ISwapPop)) (mkM ((t ++ [w]) ++ [v]) gl h d) rest opens reads n ext) end.
  - rewrite pop_c. right. eexists. split; [reflexivity|]. apply A_conc. apply fit_cons. eapply fit_same; eauto.
    rewrite !app_length. cbn. lia.
  - unfold ProofSim1.conc, set_stack. cbn. f_equal; [rewrite <- !app_assoc; reflexivity|rewrite !app_length; cbn; lia].
Qed.

Lemma i_index F ip t gl h d i v : code_at (k_fn F) ip [It IIndexGet] ->
  leads F ip F (ip +> IIndexGet) (t ++ [i; v]) t gl h d (v_index m mfi i v).
Proof.
  intros Hc. change (t ++ [i; v]) with (t ++ [i] ++ [v]). rewrite app_assoc. unfold leads.
  destruct (v_index m mfi i v) as [r|e|] eqn:E; auto.
  - start Hc. rewrite pop_c, pop_c, E. apply push_end. auto using fit_cons.
  - start_f Hc. rewrite pop_c, pop_c, E. right. do 2 eexists. split; [reflexivity|]. auto.
Qed.
Lemma i_range F ip t gl h d a b : code_at (k_fn F) ip [It ICreateRange] ->
  leads F ip F (ip +> ICreateRange) (t ++ [a; b]) t gl h d (v_range mfi a b).
Proof.
  intros Hc. change (t ++ [a; b]) with (t ++ [a] ++ [b]). rewrite app_assoc. unfold leads.
  destruct (v_range mfi a b) as [r|e|] eqn:E; auto.
  - start Hc. unfold pop_double, abind, aret. rewrite pop_c, pop_c. cbn [fst snd]. rewrite E. apply push_end. auto using fit_cons.
  - start_f Hc. unfold pop_double, abind, aret. rewrite pop_c, pop_c. cbn [fst snd]. rewrite E. right. do 2 eexists. split; [reflexivity|]. auto.
Qed.
Lemma i_pair F ip t gl h d a b : code_at (k_fn F) ip [It ICreatePair] ->
  goes 1 (F, ip, mkM (t ++ [a; b]) gl h d) (F, ip +> ICreatePair, mkM (t ++ [VPair a b]) gl h d).
Proof.
  intros Hc. change (t ++ [a; b]) with (t ++ [a] ++ [b]). rewrite app_assoc.
  start Hc. unfold pop_double, abind, aret. rewrite pop_c, pop_c. cbn [fst snd]. rewrite pushu_c.
  right. eexists. split; [reflexivity|]. eauto using A_conc, fit_cons, fit_snoc.
Qed.
Lemma i_unary F ip t gl h d o f v : code_at (k_fn F) ip [It (IUnary o)] -> unary_fn m mfi o = Some f ->
  leads F ip F (ip +> IUnary o) (t ++ [v]) t gl h d (f v).
Proof.
  intros Hc Hu. unfold leads. destruct (f v) as [r|e|] eqn:E; auto.
  - start Hc. rewrite pop_c, Hu, E. cbn beta iota. rewrite pushu_c. right. eexists. split; [reflexivity|]. eauto using A_conc, fit_cons, fit_snoc.
  - start_f Hc. rewrite pop_c, Hu, E. right. do 2 eexists. split; [reflexivity|]. auto.
Qed.
Lemma i_binary F ip t gl h d o f a b : code_at (k_fn F) ip [It (IBinary o)] ->
  binary_fn m (h_oracle hst) mfi (fn_eq (h_depth hst) h) (o_string_max opts) (o_array_max opts) o = Some f ->
  leads F ip F (ip +> IBinary o) (t ++ [a; b]) t gl h d (f a b).
Proof.
  intros Hc Hu. change (t ++ [a; b]) with (t ++ [a] ++ [b]). rewrite app_assoc. unfold leads.
  destruct (f a b) as [r|e|] eqn:E; auto.
  - start Hc. unfold pop_double, abind, aret. rewrite pop_c, pop_c. cbn [fst snd].
    unfold feq_at. cbn [ProofSim1.conc v_heap v_opts m_heap]. rewrite Hu, E.
    change (mkVm _ _ _ _ _ _ _ _ _ _ _ _ _ _ _ _) with (conc F (ip +> IBinary o) (mkM t gl h d) (a :: b :: rest) opens reads n ext).
    rewrite pushu_c. right. eexists. split; [reflexivity|]. eauto using A_conc, fit_cons, fit_snoc.
  - start_f Hc. unfold pop_double, abind, aret. rewrite pop_c, pop_c. cbn [fst snd].
    unfold feq_at. cbn [ProofSim1.conc v_heap v_opts m_heap]. rewrite Hu, E. right. do 2 eexists. split; [reflexivity|]. auto.
Qed.

Lemma pop_items_c F ip gl h d items : forall t rest opens reads n ext,
  pop_items (length items) (conc F ip (mkM (t ++ rev items) gl h d) rest opens reads n ext)
  = AOk items (conc F ip (mkM t gl h d) (rev items ++ rest) opens reads n ext).
Proof.
  induction items as [|x items IH]; intros; cbn [pop_items length rev].
  - rewrite app_nil_r. reflexivity.
  - unfold abind, aret. rewrite app_assoc, pop_c, IH. rewrite <- app_assoc. reflexivity.
Qed.
Lemma fit_app t t' gl h d rest o : fit opts (mkM (t ++ t') gl h d) rest o -> fit (D:=D) opts (mkM t gl h d) (t' ++ rest) o.
Proof. intros [H1 H2]. split; auto. cbn in *. rewrite app_assoc. exact H1. Qed.
Lemma i_array F ip t gl h d k items : code_at (k_fn F) ip [It (ICreateArray k)] -> N.to_nat k = length items ->
  leads F ip F (ip +> ICreateArray k) (t ++ rev items) t gl h d (v_array (o_array_max opts) items).
Proof.
  intros Hc Hk. unfold leads. destruct (v_array (o_array_max opts) items) as [r|e|] eqn:E; auto.
  - start Hc. rewrite Hk, pop_items_c. cbn [ProofSim1.conc v_opts]. rewrite E.
    apply (push_end opts gs bs F _ t gl h d). apply fit_app. auto.
  - start_f Hc. rewrite Hk, pop_items_c. cbn [ProofSim1.conc v_opts]. rewrite E. right. do 2 eexists. split; [reflexivity|]. auto.
Qed.

Lemma pop_swap_out_c F ip t gl h d rest o r n e v :
  pop_swap_out (conc F ip (mkM (t ++ [v]) gl h d) rest o r n e)
  = AOk v (conc F ip (mkM t gl h d) (VNone :: rest) o r n e).
Proof.
  unfold pop_swap_out, abind, agets, aret. rewrite pop_c. cbn [ProofSim1.conc v_sp m_stk].
  unfold set_slot. cbn [ProofSim1.conc v_stack m_stk v_sp].
  replace (length t <? length (t ++ v :: rest)) with true by (symmetry; apply Nat.ltb_lt; rewrite app_length; cbn; lia).
  unfold ProofSim1.conc, set_stack. cbn. rewrite upd_at. reflexivity.
Qed.
Lemma push_items_c F ip gl h d l : forall t rest opens reads n ext, fit opts (mkM t gl h d) rest opens ->
  let x := push_items l (conc F ip (mkM t gl h d) rest opens reads n ext) in
  (exists e sp s, x = AErr e sp s /\ stopped e) \/
  exists s', x = AOk tt s' /\ A (F, ip, mkM (t ++ l) gl h d) s'.
Proof.
  induction l as [|v l IH]; intros t rest opens reads n ext Hf; cbn [push_items].
  - right. rewrite app_nil_r. eexists. split; [reflexivity|]. apply A_conc; auto.
  - unfold abind. pose proof (push_c opts gs bs F ip t gl h d rest opens reads n ext v (proj1 Hf)) as P.
    destruct rest as [|y rest].
    + destruct P as (sp & s & ->). left. do 3 eexists. split; [reflexivity|]. left; auto.
    + rewrite P. replace (t ++ v :: l) with ((t ++ [v]) ++ l) by (rewrite <- app_assoc; reflexivity).
      apply IH. eauto using fit_snoc.
Qed.
Lemma i_unpack F ip t gl h d k v : code_at (k_fn F) ip [It (IUnpack k)] ->
  match v_unpack mfi k v with
  | Ok parts => goes 1 (F, ip, mkM (t ++ [v]) gl h d) (F, ip +> IUnpack k, mkM (t ++ rev parts) gl h d)
  | Err e => failing (F, ip, mkM (t ++ [v]) gl h d) e d gl
  | Panic => True
  end.
Proof.
  intros Hc. destruct (v_unpack mfi k v) as [r|e|] eqn:E; auto.
  - start Hc. rewrite pop_swap_out_c, E. apply push_items_c. eapply fit_same; [|reflexivity]. 
    apply fit_cons in Hf. destruct Hf as [H1 H2]. split; [|exact H2]. cbn in *. rewrite app_length in *. cbn in *. exact H1.
  - start_f Hc. rewrite pop_swap_out_c, E. right. do 2 eexists. split; [reflexivity|]. auto.
Qed.

Definition with_blocks F b := mkFx (D:=D) (k_fn F) (k_up F) (k_base F) (k_frames F) b (k_exits F).
Definition with_exits F x := mkFx (D:=D) (k_fn F) (k_up F) (k_base F) (k_frames F) (k_blocks F) x.
Lemma i_result F ip t gl h d v : code_at (k_fn F) ip [It IBlockResult] ->
  goes 1 (F, ip, mkM (t ++ [v]) gl h d) (with_blocks F (v :: k_blocks F), ip +> IBlockResult, mkM t gl h d).
Proof.
  intros Hc. start Hc. rewrite pop_swap_out_c. right. eexists. split; [reflexivity|].
  apply (A_conc opts gs bs (with_blocks F (v :: k_blocks F)) _ (mkM t gl h d) (VNone :: rest) opens reads n ext).
  apply fit_cons in Hf. destruct Hf as [H1 H2]. split; [|exact H2]. cbn in *. rewrite app_length in *. cbn in *. exact H1.
Qed.
Lemma i_back F ip t gl h d v b : code_at (k_fn F) ip [It IBlockReturn] -> k_blocks F = v :: b ->
  goes 1 (F, ip, mkM t gl h d) (with_blocks F b, ip +> IBlockReturn, mkM (t ++ [v]) gl h d).
Proof.
  intros Hc Hb. start Hc. cbn [ProofSim1.conc v_blocks]. rewrite Hb.
  apply (push_end opts gs bs (with_blocks F b) _ t gl h d rest opens reads n ext v Hf).
Qed.

Lemma i_jump F ip M off : code_at (k_fn F) ip [It (IJumpForward off)] ->
  goes 1 (F, ip, M) (F, ip +> IJumpForward off + N.to_nat off, M).
Proof.
  intros Hc. start Hc. unfold jump_forward, amod. right. eexists. split; [reflexivity|].
  apply (A_conc opts gs bs F (ip +> IJumpForward off + N.to_nat off) M rest opens reads n ext Hf).
Qed.
Lemma i_jump_back F ip M off : code_at (k_fn F) ip [It (IJumpBackward off)] ->
  N.to_nat off <= ip +> IJumpBackward off ->
  goes 1 (F, ip, M) (F, ip +> IJumpBackward off - N.to_nat off, M).
Proof.
  intros Hc Hl. start Hc. cbn [ProofSim1.conc Vm.ip v_frame f_ip]. unfold Vm.ip. cbn [v_frame f_ip].
  replace (_ <? _) with false by (symmetry; apply Nat.ltb_ge; exact Hl).
  right. eexists. split; [reflexivity|].
  apply (A_conc opts gs bs F (ip +> IJumpBackward off - N.to_nat off) M rest opens reads n ext Hf).
Qed.
Lemma i_test F ip t gl h d off v : code_at (k_fn F) ip [It (IJumpIfFalse off)] ->
  match is_truthy mfi v with
  | Ok b => goes 1 (F, ip, mkM (t ++ [v]) gl h d)
                   (F, ip +> IJumpIfFalse off + (if b then 0 else N.to_nat off), mkM (t ++ [v]) gl h d)
  | Err e => failing (F, ip, mkM (t ++ [v]) gl h d) e d gl
  | Panic => True
  end.
Proof.
  intros Hc. destruct (is_truthy mfi v) as [b|e|] eqn:E; auto.
  - start Hc. rewrite peek_c, E. destruct b; right; eexists; (split; [reflexivity|]).
    + rewrite Nat.add_0_r. apply A_conc; auto.
    + apply (A_conc opts gs bs F (ip +> IJumpIfFalse off + N.to_nat off) (mkM (t ++ [v]) gl h d) rest opens reads n ext Hf).
  - start_f Hc. rewrite peek_c, E. right. do 2 eexists. split; [reflexivity|]. auto.
Qed.
Lemma i_case F ip t gl h d off v w : code_at (k_fn F) ip [It (IJumpIfNotEq off)] ->
  match geqb (fn_eq (h_depth hst) h) v w with
  | Ok b => goes 1 (F, ip, mkM (t ++ [v; w]) gl h d)
                   (F, ip +> IJumpIfNotEq off + (if b then 0 else N.to_nat off), mkM (t ++ [v]) gl h d)
  | _ => True
  end.
Proof.
  intros Hc. change (t ++ [v; w]) with (t ++ [v] ++ [w]). rewrite app_assoc.
  destruct (geqb (fn_eq (h_depth hst) h) v w) as [b|e|] eqn:E; auto.
  start Hc. unfold pop_peek, abind, aret. rewrite pop_c, peek_c. cbn [fst snd].
  unfold feq_at. cbn [ProofSim1.conc v_heap m_heap]. rewrite E. apply fit_cons in Hf.
  destruct b; right; eexists; (split; [reflexivity|]).
  - rewrite Nat.add_0_r. apply (A_conc opts gs bs F _ (mkM (t ++ [v]) gl h d) (w :: rest) opens reads n ext Hf).
  - apply (A_conc opts gs bs F (ip +> IJumpIfNotEq off + N.to_nat off) (mkM (t ++ [v]) gl h d) (w :: rest) opens reads n ext Hf).
Qed.
Lemma i_iter F ip t gl h d off i it last : code_at (k_fn F) ip [It (IIterNext off)] ->
  match v_iter m mfi i it with
  | Ok (Some v) => goes 1 (F, ip, mkM (t ++ [VLoopCtx i; it; last]) gl h d)
                     (F, ip +> IIterNext off, mkM (t ++ [VLoopCtx (i + 1); it; last; v]) gl h d)
  | Ok None => goes 1 (F, ip, mkM (t ++ [VLoopCtx i; it; last]) gl h d)
                 (F, ip +> IIterNext off + N.to_nat off, mkM (t ++ [VLoopCtx (i + 1); it; last]) gl h d)
  | Err e => failing (F, ip, mkM (t ++ [VLoopCtx i; it; last]) gl h d) e d gl
  | Panic => True
  end.
Proof.
  intros Hc.
  assert (K : forall rest opens reads n ext, fit opts (mkM (t ++ [VLoopCtx i; it; last]) gl h d) rest opens ->
    exec m hst (IIterNext off) (conc F (ip +> IIterNext off) (mkM (t ++ [VLoopCtx i; it; last]) gl h d) rest opens reads n ext)
    = abind (lift_1 (v_iter m mfi i it)) (fun r =>
       match r with
       | Some v => push v
       | None => jump_forward off
       end) (conc F (ip +> IIterNext off) (mkM (t ++ [VLoopCtx (i + 1); it; last]) gl h d) rest opens reads n ext)).
  { intros rest opens reads n ext Hf. cbn [exec]. unfold abind, agets.
    change (v_sp (conc F (ip +> IIterNext off) (mkM (t ++ [VLoopCtx i; it; last]) gl h d) rest opens reads n ext))
      with (length (t ++ [VLoopCtx i; it; last])).
    rewrite app_length. cbn [length].
    replace (_ <? 3) with false by (symmetry; apply Nat.ltb_ge; lia).
    replace (length t + 3 - 3) with (length t) by lia. replace (length t + 3 - 2) with (length t + 1) by lia.
    erewrite slot_c by (rewrite nth_app_0; reflexivity). cbn beta iota.
    rewrite set_slot_c by (rewrite app_length; cbn; lia).
    replace (upd (length t) (VLoopCtx (i + 1)) (t ++ [VLoopCtx i; it; last])) with (t ++ [VLoopCtx (i + 1); it; last])
      by (rewrite <- (Nat.add_0_r (length t)), upd_app_r; reflexivity).
    erewrite slot_c by (rewrite nth_app_r; reflexivity). reflexivity. }
  cbn [item_bytes] in K.
  assert (K2 : forall rest opens, fit opts (mkM (t ++ [VLoopCtx i; it; last]) gl h d) rest opens ->
               fit opts (mkM (t ++ [VLoopCtx (i + 1); it; last]) gl h d) rest opens).
  { intros rest opens Hf. eapply fit_same; eauto. rewrite !app_length. reflexivity. }
  destruct (v_iter m mfi i it) as [[v|]|e|] eqn:E; auto.
  - refine (go_exec m hst opts gs bs _ _ _ (It _) _ Hc _ _); [discriminate|]. intros rest opens reads n ext Hf.
    cbn [item_instr item_bytes]. rewrite (K rest opens reads n ext Hf). unfold abind. cbn [lift_1 aret].
    replace (t ++ [VLoopCtx (i + 1); it; last; v]) with ((t ++ [VLoopCtx (i + 1); it; last]) ++ [v])
      by (rewrite <- app_assoc; reflexivity). apply push_end; auto.
  - refine (go_exec m hst opts gs bs _ _ _ (It _) _ Hc _ _); [discriminate|]. intros rest opens reads n ext Hf.
    cbn [item_instr item_bytes]. rewrite (K rest opens reads n ext Hf). unfold abind. cbn [lift_1 aret].
    right. eexists. split; [reflexivity|].
    apply (A_conc opts gs bs F (ip +> IIterNext off + N.to_nat off) (mkM (t ++ [VLoopCtx (i + 1); it; last]) gl h d) rest opens reads n ext). auto.
  - refine (fail_exec m hst opts gs bs _ _ _ (It _) _ _ _ Hc _ _); [discriminate|]. intros rest opens reads n ext Hf.
    cbn [item_instr item_bytes]. rewrite (K rest opens reads n ext Hf). unfold abind. cbn [lift_1].
    right. do 2 eexists. split; [reflexivity|]. auto.
Qed.
End Machine.
