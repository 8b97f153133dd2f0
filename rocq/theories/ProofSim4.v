(** The stack, the captured variables and the store of the direct evaluation: what it
    means that they agree, and what keeps them in agreement. *)
From Verif Require Import Base RleVec Pool Vecc Float NumText Bytecode Chunk Value Ast Arith VmOps
                          Compiler Vm Items CodeRel SpecReady SpecEval ProofVars SpecRel ProofRel ProofCode6 ProofSim1 ProofSim2 ProofSim3.

Lemma grel_mono {A B} (R S : A -> B -> Prop) : (forall x y, R x y -> S x y) ->
  forall v w, grel R v w -> grel S v w.
Proof.
  intros H. induction v using gvalue_rect'; intros w Hw; inversion Hw; subst; constructor; auto.
  match goal with H : Forall2 (grel R) l ?x |- _ => rename x into l2; rename H into HA end. clear Hw.
  revert l2 HA. induction H0; intros l2 HA; inversion HA; subst; constructor; auto.
Qed.
Lemma f2_mono {A B} (R S : A -> B -> Prop) l l' : (forall x y, R x y -> S x y) -> Forall2 R l l' -> Forall2 S l l'.
Proof. intros H. induction 1; auto. Qed.

Definition ext (a b : list nat) : Prop := exists e, b = a ++ e.
Lemma ext_refl a : ext a a.
Proof. exists []. rewrite app_nil_r. auto. Qed.
Lemma ext_trans a b c : ext a b -> ext b c -> ext a c.
Proof. intros [x ->] [y ->]. exists (x ++ y). rewrite app_assoc. auto. Qed.
Lemma ext_app a b : ext a (a ++ b).
Proof. exists b. auto. Qed.
Lemma ext_nth a b i x : ext a b -> nth_error a i = Some x -> nth_error b i = Some x.
Proof. intros [e ->] H. rewrite nth_error_app1; auto. apply nth_error_Some. congruence. Qed.

Global Instance ordinary_name : naming := ordinary.

Section World.
Context (m : mode) (G : list rstring).

(** A function value: the compiled code is that of the body, and the captures are the
    cells of the variables in scope. *)
Inductive fn_rel (cv : list nat) : sfn -> mfn -> Prop :=
| fn_rel_intro c f cells Lp U outer bc L' :
    fn_name f = sf_name c -> fn_arity f = len (sf_params c) ->
    map fst Lp = rev (sf_name c :: sf_params c) ->
    ck_ops (fn_chunk f) = bytes_of bc -> Forall item_fits bc ->
    @code_stmts m ordinary_name (mkCtx G (ck_consts (fn_chunk f)) U outer) false Lp (sf_body c) bc L' ->
    Forall2 (fun x cell => exists l, alookup seqb x (sf_env c) = Some l /\ nth_error cv cell = Some l) U cells ->
    (forall x, ordinary x -> In x outer <-> alookup seqb x (sf_env c) <> None) ->
    forallb (fun e => placed true (fst e)) (sf_body c) = true ->
    Forall (fun e => @named ordinary_name (fst e)) (sf_body c) ->
    fn_rel cv c (MClo f cells).
Lemma fn_rel_ext a b c g : ext a b -> fn_rel a c g -> fn_rel b c g.
Proof.
  intros H HR. inversion HR as [? ? ? ? ? ? ? ? H1 H2 H3 H4 H5 H6 H7 H8 H9 H10]; subst. eapply fn_rel_intro; eauto.
  eapply f2_mono; [|exact H7]. intros x y (l & K1 & K2). exists l. split; auto. eapply ext_nth; eauto.
Qed.
Lemma fn_rel_info cv c g : fn_rel cv c g -> fi_type sfi c = fi_type mfi g /\ fi_text sfi c = fi_text mfi g.
Proof. destruct 1; cbn. split; auto. congruence. Qed.

Definition vr (cv : list nat) : sval -> value -> Prop := grel (fn_rel cv).
Lemma vr_ext a b v w : ext a b -> vr a v w -> vr b v w.
Proof. intros H. apply grel_mono. intros x y. apply fn_rel_ext. auto. Qed.
Lemma vrs_ext a b v w : ext a b -> Forall2 (vr a) v w -> Forall2 (vr b) v w.
Proof. intros H. apply f2_mono. intros x y. apply vr_ext. auto. Qed.

Record mem (sh : list (option nat)) (t : list value) (cv : list nat) (h : list upvalue)
    (st : list sval) : Prop := {
  me_len : length sh = length t;
  me_inj : forall i j l, nth_error sh i = Some (Some l) -> nth_error sh j = Some (Some l) -> i = j;
  me_slot : forall i l, nth_error sh i = Some (Some l) ->
    exists v w, nth_error st l = Some v /\ nth_error t i = Some w /\ vr cv v w;
  me_heap : length cv = length h;
  me_nodup : NoDup cv;
  me_cell : forall c l u, nth_error cv c = Some l -> nth_error h c = Some u ->
    match u with
    | Open j => nth_error sh j = Some (Some l)
    | Closed w => (exists v, nth_error st l = Some v /\ vr cv v w) /\
                  forall i, nth_error sh i <> Some (Some l)
    end }.

Definition nones (k : nat) : list (option nat) := repeat None k.
Lemma nth_nones k i l : nth_error (nones k) i <> Some (Some l).
Proof. revert i. induction k; intros [|i]; cbn; try discriminate. apply IHk. Qed.
Lemma nth_pad sh k i l : nth_error (sh ++ nones k) i = Some (Some l) <-> nth_error sh i = Some (Some l).
Proof.
  destruct (Nat.lt_ge_cases i (length sh)) as [H|H].
  - rewrite nth_error_app1 by auto. tauto.
  - rewrite nth_error_app2 by auto. split; intros E; [destruct (nth_nones _ _ _ E)|].
    apply nth_error_None in H. congruence.
Qed.

Lemma nth_some_lt {X} (l : list X) i x : nth_error l i = Some x -> i < length l.
Proof. intros H. apply nth_error_Some. congruence. Qed.

Lemma mem_swap sh t cv h st ws ws' k k' : mem (sh ++ nones k) (t ++ ws) cv h st -> length sh = length t ->
  length ws' = k' -> mem (sh ++ nones k') (t ++ ws') cv h st.
Proof.
  intros [A1 A2 A3 A4 A5 A6] Hl Hk. constructor; auto.
  - rewrite !app_length. unfold nones. rewrite repeat_length. lia.
  - intros i j l Hi Hj. rewrite nth_pad in Hi, Hj. apply (A2 i j l); rewrite nth_pad; auto.
  - intros i l Hi. rewrite nth_pad in Hi. destruct (A3 i l) as (v & w & V1 & V2 & V3); [rewrite nth_pad; auto|].
    exists v, w. split; auto. split; auto. pose proof (nth_some_lt _ _ _ Hi).
    rewrite nth_error_app1 in V2 |- * by lia. auto.
  - intros c l u Hc Hu. specialize (A6 c l u Hc Hu). destruct u as [j|w].
    + rewrite nth_pad in A6 |- *. auto.
    + destruct A6 as [B1 B2]. split; auto. intros i E. apply (B2 i). rewrite nth_pad in E |- *. auto.
Qed.
Lemma mem_push sh t cv h st ws : mem sh t cv h st -> mem (sh ++ nones (length ws)) (t ++ ws) cv h st.
Proof.
  intros H. apply (mem_swap sh t cv h st [] ws 0 (length ws)); auto.
  - cbn. rewrite !app_nil_r. auto.
  - apply (me_len _ _ _ _ _ H).
Qed.
Lemma mem_unpush sh t cv h st ws k : mem (sh ++ nones k) (t ++ ws) cv h st -> length sh = length t -> mem sh t cv h st.
Proof.
  intros H Hl. pose proof (mem_swap sh t cv h st ws [] k 0 H Hl eq_refl) as K. cbn in K. rewrite !app_nil_r in K. auto.
Qed.

Lemma mem_loc sh t cv h st c l : mem sh t cv h st -> nth_error cv c = Some l -> l < length st.
Proof.
  intros [A1 A2 A3 A4 A5 A6] Hc. destruct (nth_error h c) as [u|] eqn:E.
  - specialize (A6 c l u Hc E). destruct u as [j|w].
    + destruct (A3 _ _ A6) as (v & w & V1 & _). eapply nth_some_lt; eauto.
    + destruct A6 as [(v & V1 & _) _]. eapply nth_some_lt; eauto.
  - apply nth_error_None in E. apply nth_some_lt in Hc. lia.
Qed.

Lemma nth_at {X} (a : list X) x b : nth_error (a ++ x :: b) (length a) = Some x.
Proof. rewrite nth_app_0. reflexivity. Qed.
Lemma nth_mid_ne {X} (a : list X) x y b i : i <> length a -> nth_error (a ++ x :: b) i = nth_error (a ++ y :: b) i.
Proof.
  intros H. destruct (Nat.lt_ge_cases i (length a)); [rewrite !nth_error_app1 by auto; auto|].
  rewrite !nth_error_app2 by auto. destruct (i - length a) eqn:E; [lia|auto].
Qed.
Lemma nth_snoc {X} (a : list X) x i y : nth_error (a ++ [x]) i = Some y ->
  nth_error a i = Some y \/ i = length a /\ x = y.
Proof.
  intros H. destruct (Nat.lt_ge_cases i (length a)) as [Hi|Hi].
  - rewrite nth_error_app1 in H by auto. auto.
  - rewrite nth_error_app2 in H by auto. destruct (i - length a) as [|k] eqn:E.
    + injection H as <-. right. split; auto. lia.
    + destruct k; discriminate.
Qed.
Lemma nth_snoc_l {X} (a : list X) x i y : nth_error a i = Some y -> nth_error (a ++ [x]) i = Some y.
Proof. intros H. rewrite nth_error_app1; auto. eapply nth_some_lt; eauto. Qed.

(** A value on the stack becomes a variable. *)
Lemma mem_promote sh s2 t w t2 cv h st v :
  mem (sh ++ None :: s2) (t ++ w :: t2) cv h st -> length sh = length t -> vr cv v w ->
  mem (sh ++ Some (length st) :: s2) (t ++ w :: t2) cv h (st ++ [v]).
Proof.
  intros M Hl Hv. destruct M as [A1 A2 A3 A4 A5 A6].
  assert (Old : forall i l, i <> length sh -> nth_error (sh ++ Some (length st) :: s2) i = Some (Some l) ->
            nth_error (sh ++ None :: s2) i = Some (Some l)).
  { intros i l Hi H. rewrite (nth_mid_ne sh _ None) in H by auto. auto. }
  assert (New : forall i l, nth_error (sh ++ None :: s2) i = Some (Some l) -> i <> length sh).
  { intros i l H ->. rewrite nth_at in H. discriminate. }
  constructor; auto.
  - rewrite !app_length in *. cbn in *. lia.
  - intros i j l Hi Hj.
    destruct (Nat.eq_dec i (length sh)) as [->|Ni], (Nat.eq_dec j (length sh)) as [->|Nj]; auto.
    + rewrite nth_at in Hi. injection Hi as <-. apply Old in Hj; auto. destruct (A3 _ _ Hj) as (? & ? & K & _).
      apply nth_some_lt in K. lia.
    + rewrite nth_at in Hj. injection Hj as <-. apply Old in Hi; auto. destruct (A3 _ _ Hi) as (? & ? & K & _).
      apply nth_some_lt in K. lia.
    + eapply A2; eauto.
  - intros i l Hi. destruct (Nat.eq_dec i (length sh)) as [->|Ni].
    + rewrite nth_at in Hi. injection Hi as <-. exists v, w. rewrite nth_at. split; auto.
      rewrite Hl, nth_at. auto.
    + apply Old in Hi; auto. destruct (A3 _ _ Hi) as (v' & w' & V1 & V2 & V3). exists v', w'.
      split; [apply nth_snoc_l; auto|auto].
  - intros c l u Hc Hu. specialize (A6 c l u Hc Hu). destruct u as [j|x].
    + rewrite <- (nth_mid_ne sh None) by eauto. auto.
    + destruct A6 as [(v' & V1 & V2) B]. split; [exists v'; split; auto; apply nth_snoc_l; auto|].
      intros i E. destruct (Nat.eq_dec i (length sh)) as [->|Ni]; [|eapply B; eauto].
      rewrite nth_at in E. injection E as <-. apply nth_some_lt in V1. lia.
Qed.

(** Assignments. *)
Lemma mem_write_slot sh t cv h st j l v w : mem sh t cv h st -> nth_error sh j = Some (Some l) -> vr cv v w ->
  mem sh (upd j w t) cv h (upd l v st).
Proof.
  intros [A1 A2 A3 A4 A5 A6] Hj Hv. destruct (A3 _ _ Hj) as (v0 & w0 & K1 & K2 & _).
  apply nth_some_lt in K1, K2. constructor; auto.
  - rewrite upd_length. auto.
  - intros i l' Hi. destruct (Nat.eq_dec i j) as [->|Ni].
    + assert (l' = l) by congruence. subst l'. exists v, w. rewrite !nth_error_upd_eq by auto. auto.
    + destruct (A3 _ _ Hi) as (v' & w' & V1 & V2 & V3). exists v', w'.
      assert (l <> l') by (intros ->; apply Ni; eapply A2; eauto).
      rewrite !nth_error_upd_neq by auto. auto.
  - intros c l' u Hc Hu. specialize (A6 c l' u Hc Hu). destruct u as [i|x]; auto.
    destruct A6 as [(v' & V1 & V2) B]. split; auto. exists v'. rewrite nth_error_upd_neq; auto.
    intros ->. eapply B; eauto.
Qed.
Lemma mem_write_cell sh t cv h st c l x v w : mem sh t cv h st -> nth_error cv c = Some l ->
  nth_error h c = Some (Closed x) -> vr cv v w ->
  mem sh t cv (upd c (Closed w) h) (upd l v st).
Proof.
  intros M Hc Hh Hv. pose proof (mem_loc _ _ _ _ _ _ _ M Hc) as Ll. destruct M as [A1 A2 A3 A4 A5 A6].
  pose proof (A6 _ _ _ Hc Hh) as [_ B]. pose proof (nth_some_lt _ _ _ Hh) as Lc. constructor; auto.
  - intros i l' Hi. destruct (A3 _ _ Hi) as (v' & w' & V1 & V2 & V3). exists v', w'.
    rewrite nth_error_upd_neq; auto. intros ->. eapply B; eauto.
  - rewrite upd_length. auto.
  - intros c' l' u Hc' Hu. destruct (Nat.eq_dec c c') as [<-|Nc].
    + rewrite nth_error_upd_eq in Hu by auto. injection Hu as <-. assert (l' = l) by congruence. subst l'.
      split; auto. exists v. rewrite nth_error_upd_eq by auto. auto.
    + rewrite nth_error_upd_neq in Hu by auto. specialize (A6 _ _ _ Hc' Hu). destruct u as [i|y]; auto.
      destruct A6 as [(v' & V1 & V2) B']. split; auto. exists v'. rewrite nth_error_upd_neq; auto.
      intros ->. apply Nc. eapply nodup_nth; eauto.
Qed.

(** Capturing a variable. *)
Lemma mem_capture sh t cv h st j l : mem sh t cv h st -> nth_error sh j = Some (Some l) ->
  (forall c, nth_error h c <> Some (Open j)) -> mem sh t (cv ++ [l]) (h ++ [Open j]) st.
Proof.
  intros [A1 A2 A3 A4 A5 A6] Hj Hn. assert (E : ext cv (cv ++ [l])) by apply ext_app. constructor; auto.
  - intros i l' Hi. destruct (A3 _ _ Hi) as (v' & w' & V1 & V2 & V3). exists v', w'. repeat split; auto. eapply vr_ext; eauto.
  - rewrite !app_length. cbn. lia.
  - apply nodup_snoc; auto. intros Hin. apply In_nth_error in Hin as [c Hc].
    destruct (nth_error h c) as [u|] eqn:Eu; [|apply nth_error_None in Eu; apply nth_some_lt in Hc; lia].
    specialize (A6 _ _ _ Hc Eu). destruct u as [i|x].
    + assert (i = j) by (eapply A2; eauto). subst i. eapply Hn; eauto.
    + destruct A6 as [_ B]. eapply B; eauto.
  - intros c l' u Hc Hu. apply nth_snoc in Hu as [Hu|[-> <-]].
    + rewrite nth_error_app1 in Hc by (apply nth_some_lt in Hu; lia). specialize (A6 _ _ _ Hc Hu).
      destruct u as [i|x]; auto. destruct A6 as [(v' & V1 & V2) B]. split; auto. exists v'. split; auto. eapply vr_ext; eauto.
    + rewrite <- A4, nth_at in Hc. injection Hc as <-. auto.
Qed.

(** Variables going out of scope. *)
Lemma mem_drop1 sh s t w cv h st : mem (sh ++ [s]) (t ++ [w]) cv h st -> length sh = length t ->
  (forall c, nth_error h c <> Some (Open (length t))) -> mem sh t cv h st.
Proof.
  intros [A1 A2 A3 A4 A5 A6] Hl Hn. constructor; auto.
  - intros i j l Hi Hj. apply (A2 i j l); apply nth_snoc_l; auto.
  - intros i l Hi. destruct (A3 i l) as (v' & w' & V1 & V2 & V3); [apply nth_snoc_l; auto|].
    exists v', w'. repeat split; auto. apply nth_some_lt in Hi. rewrite nth_error_app1 in V2 by lia. auto.
  - intros c l u Hc Hu. specialize (A6 _ _ _ Hc Hu). destruct u as [j|x].
    + apply nth_snoc in A6 as [A6|[-> _]]; auto. rewrite Hl in Hu. destruct (Hn _ Hu).
    + destruct A6 as [K B]. split; auto. intros i E. apply (B i). apply nth_snoc_l. auto.
Qed.
Lemma mem_close1 sh s t w cv h st : mem (sh ++ [s]) (t ++ [w]) cv h st -> length sh = length t ->
  mem sh t cv (close_slot (length t) w h) st.
Proof.
  intros [A1 A2 A3 A4 A5 A6] Hl. constructor; auto.
  - intros i j l Hi Hj. apply (A2 i j l); apply nth_snoc_l; auto.
  - intros i l Hi. destruct (A3 i l) as (v' & w' & V1 & V2 & V3); [apply nth_snoc_l; auto|].
    exists v', w'. repeat split; auto. apply nth_some_lt in Hi. rewrite nth_error_app1 in V2 by lia. auto.
  - unfold close_slot. rewrite map_length. auto.
  - intros c l u Hc Hu. rewrite close_slot_nth in Hu. destruct (nth_error h c) as [[j|x]|] eqn:Eh; try discriminate.
    + specialize (A6 _ _ _ Hc Eh). cbn in A6. destruct (Nat.eqb_spec j (length t)) as [->|Nj].
      * injection Hu as <-. split.
        -- destruct (A3 _ _ A6) as (v' & w' & V1 & V2 & V3). rewrite nth_at in V2. injection V2 as <-. eauto.
        -- intros i E. assert (i = length t) by (eapply A2; eauto; apply nth_snoc_l; auto).
           subst i. apply nth_some_lt in E. lia.
      * injection Hu as <-. apply nth_snoc in A6 as [A6|[-> _]]; auto. lia.
    + injection Hu as <-. specialize (A6 _ _ _ Hc Eh). destruct A6 as [K B]. split; auto.
      intros i E. apply (B i). apply nth_snoc_l. auto.
Qed.
Lemma mem_close_from sh t cv h st b : mem sh t cv h st -> b <= length t ->
  mem (firstn b sh) (firstn b t) cv (close_from b t h) st.
Proof.
  intros [A1 A2 A3 A4 A5 A6] Hb.
  assert (F : forall {X} (l : list X) i x, nth_error (firstn b l) i = Some x -> i < b /\ nth_error l i = Some x).
  { intros X l i x H. rewrite nth_firstn in H. destruct (Nat.ltb_spec i b); [auto|discriminate]. }
  assert (F' : forall {X} (l : list X) i, i < b -> nth_error (firstn b l) i = nth_error l i).
  { intros X l i H. rewrite nth_firstn. destruct (Nat.ltb_spec i b); [auto|lia]. }
  constructor; auto.
  - rewrite !firstn_length. lia.
  - intros i j l Hi Hj. apply F in Hi as [_ Hi], Hj as [_ Hj]. eauto.
  - intros i l Hi. apply F in Hi as [Hi1 Hi]. destruct (A3 _ _ Hi) as (v' & w' & V1 & V2 & V3).
    exists v', w'. repeat split; auto. rewrite F'; auto.
  - unfold close_from. rewrite map_length. auto.
  - intros c l u Hc Hu. rewrite close_from_nth in Hu. destruct (nth_error h c) as [[j|x]|] eqn:Eh; try discriminate.
    + specialize (A6 _ _ _ Hc Eh). cbn in A6. destruct (A3 _ _ A6) as (v' & w' & V1 & V2 & V3). rewrite V2 in Hu.
      destruct (Nat.leb_spec b j).
      * injection Hu as <-. split; [eauto|]. intros i E. apply F in E as [E1 E].
        assert (i = j) by (eapply A2; eauto). lia.
      * injection Hu as <-. rewrite F'; auto.
    + injection Hu as <-. specialize (A6 _ _ _ Hc Eh). destruct A6 as [K B]. split; auto.
      intros i E. apply F in E as [_ E]. eapply B; eauto.
Qed.

Lemma mem_one_cell sh t cv h st : mem sh t cv h st -> one_cell h.
Proof.
  intros [A1 A2 A3 A4 A5 A6] c c' j Hc Hc'.
  assert (exists l, nth_error cv c = Some l) as [l El].
  { destruct (nth_error cv c) eqn:E; eauto. apply nth_error_None in E. apply nth_some_lt in Hc. lia. }
  assert (exists l, nth_error cv c' = Some l) as [l' El'].
  { destruct (nth_error cv c') eqn:E; eauto. apply nth_error_None in E. apply nth_some_lt in Hc'. lia. }
  pose proof (A6 _ _ _ El Hc) as K. pose proof (A6 _ _ _ El' Hc') as K'. cbn in K, K'.
  assert (l = l') by congruence. subst l'. eapply nodup_nth; eauto.
Qed.
Lemma mem_cv sh t cv h st c u : mem sh t cv h st -> nth_error h c = Some u -> exists l, nth_error cv c = Some l.
Proof.
  intros [A1 A2 A3 A4 A5 A6] Hc. destruct (nth_error cv c) eqn:E; eauto.
  apply nth_error_None in E. apply nth_some_lt in Hc. lia.
Qed.
Lemma mem_open sh t cv h st c j : mem sh t cv h st -> nth_error h c = Some (Open j) ->
  exists l, nth_error sh j = Some (Some l).
Proof.
  intros M Hc. destruct (mem_cv _ _ _ _ _ _ _ M Hc) as [l Hl]. exists l.
  exact (me_cell _ _ _ _ _ M _ _ _ Hl Hc).
Qed.
Lemma mem_open_lt sh t cv h st c j : mem sh t cv h st -> nth_error h c = Some (Open j) -> j < length t.
Proof.
  intros M Hc. destruct (mem_open _ _ _ _ _ _ _ M Hc) as [l Hl]. apply nth_some_lt in Hl.
  rewrite (me_len _ _ _ _ _ M) in Hl. auto.
Qed.
(** What is read through a cell. *)
Lemma mem_read sh t cv h st c l u : mem sh t cv h st -> nth_error cv c = Some l -> nth_error h c = Some u ->
  exists v w, nth_error st l = Some v /\ cell_value t u = Some w /\ vr cv v w.
Proof.
  intros M Hc Hu. pose proof (me_cell _ _ _ _ _ M _ _ _ Hc Hu) as K. destruct u as [j|w]; cbn.
  - apply (me_slot _ _ _ _ _ M _ _ K).
  - destruct K as [(v & K1 & K2) _]. eauto.
Qed.
End World.
Arguments nones : simpl never.
