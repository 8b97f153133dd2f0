(** The agreement between the machine and the direct evaluation, and what a construct
    comes to on both sides. *)
From Verif Require Import Base RleVec Pool Vecc Float NumText Bytecode Chunk Value Ast Arith VmOps
                          Compiler Vm Items CodeRel SpecReady SpecEval ProofVars SpecRel ProofRel ProofCode6 ProofSim1 ProofSim2 ProofSim3 ProofSim4.

Lemma slot_of_none L x : slot_of L x = None <-> ~ In x (map fst L).
Proof.
  induction L as [|[y b] L IH]; cbn; [tauto|]. destruct (seqb y x) eqn:E.
  - apply seqb_eq in E. split; [discriminate|tauto].
  - rewrite IH. assert (y <> x) by (intros ->; rewrite (proj2 (seqb_eq x x)) in E; [discriminate|auto]). tauto.
Qed.
Lemma slot_of_lt L x i : slot_of L x = Some i -> i < length L.
Proof.
  induction L as [|[y b] L IH]; cbn; [discriminate|]. destruct (seqb y x); [intros [= <-]; lia|].
  intros H. apply IH in H. lia.
Qed.
Lemma seqb_neq x y : x <> y -> seqb x y = false.
Proof. intros H. destruct (seqb x y) eqn:E; auto. apply seqb_eq in E. congruence. Qed.
Lemma seqb_refl x : seqb x x = true.
Proof. apply seqb_eq. auto. Qed.

Section Sim.
Context {D : Type} (m : mode) (hst : host D) (opts : options) (gs : pool rstring)
        (bs : list (N * builtin D)) (G : list rstring).
Notation goes := (goes m hst opts gs bs).
Notation failing := (failing m hst opts gs bs).
Notation finishes := (finishes m hst opts gs bs).
Notation lasts := (lasts m hst opts gs bs).
Notation leads := (leads m hst opts gs bs).
Notation "ip '+>' i" := (ip + length (item_bytes (It i))) (at level 50).
Notation vr := (vr m G).
Notation mem := (mem m G).
Notation sst := (@sst D).
Implicit Types (F : @fixed D).

Record world := mkW { w_mov : mov (D:=D); w_sh : list (option nat); w_cv : list nat; w_st : sst }.
Definition stk w := m_stk (w_mov w).

(** What a running function knows of the functions below it. *)
Record level := mkLv { l_base : nat; l_sh : list (option nat); l_stk : list value; l_cv : list nat;
                       l_fl : nat -> Prop }.

Definition flagged (P : level) (L : locals) (j : nat) : Prop :=
  (j < l_base P /\ l_fl P j) \/ exists i x, j = l_base P + i /\ nth_error (rev L) i = Some (x, true).
Definition globs (cv : list nat) (s : sst) (gl : list (N * value)) : Prop :=
  forall x, orel (vr cv) (global x s)
                 (match pool_id seqb gs x with Some g => alookup N.eqb g gl | None => None end).

Record Inv (P : level) (L : locals) (w : world) : Prop := {
  iv_mem : mem (w_sh w) (stk w) (w_cv w) (m_heap (w_mov w)) (ss_store (w_st w));
  iv_base : l_base P <= length (stk w);
  iv_sh : firstn (l_base P) (w_sh w) = l_sh P;
  iv_low : forall i, nth_error (l_sh P) i = Some None -> nth_error (stk w) i = nth_error (l_stk P) i;
  iv_cv : ext (l_cv P) (w_cv w);
  iv_glob : globs (w_cv w) (w_st w) (m_gl (w_mov w));
  iv_data : ss_data (w_st w) = m_data (w_mov w);
  iv_flag : forall c j, nth_error (m_heap (w_mov w)) c = Some (Open j) -> flagged P L j }.

(** What is on the stack below stays, as far as it is not a variable. *)
Record grown (w w' : world) (add : list (option nat)) : Prop := {
  gw_sh : w_sh w' = w_sh w ++ add;
  gw_kept : forall i, nth_error (w_sh w) i = Some None -> nth_error (stk w') i = nth_error (stk w) i;
  gw_cv : ext (w_cv w) (w_cv w') }.
Definition tops (w : world) (vs : list sval) : Prop :=
  exists t ws, stk w = t ++ ws /\ Forall2 (vr (w_cv w)) vs ws.
Definition pushed (w : world) (vs : list sval) (w' : world) : Prop :=
  grown w w' (nones (length vs)) /\ tops w' vs.

Lemma grown_refl w : grown w w [].
Proof. constructor; auto; [rewrite app_nil_r; auto|apply ext_refl]. Qed.
Lemma grown_trans w w1 w2 a b : grown w w1 a -> grown w1 w2 b -> grown w w2 (a ++ b).
Proof.
  intros [A1 A2 A3] [B1 B2 B3]. constructor.
  - rewrite B1, A1, app_assoc. auto.
  - intros i Hi. rewrite B2; auto. rewrite A1. rewrite nth_error_app1; auto. eapply nth_some_lt; eauto.
  - eapply ext_trans; eauto.
Qed.
Lemma iv_len P L w : Inv P L w -> length (w_sh w) = length (stk w).
Proof. intros H. apply (me_len _ _ _ _ _ _ _ (iv_mem _ _ _ H)). Qed.
Lemma pushed_nil w : pushed w [] w.
Proof. split; [apply grown_refl|]. exists (stk w), []. rewrite app_nil_r. auto. Qed.

Lemma nones_app a b : nones a ++ nones b = nones (a + b).
Proof. unfold nones. rewrite repeat_app. auto. Qed.
Lemma nones_length k : length (nones k) = k.
Proof. apply repeat_length. Qed.
Lemma nth_nones_lt k i : i < k -> nth_error (nones k) i = Some None.
Proof. revert i. induction k; intros i H; [lia|]. destruct i; cbn; auto. apply IHk. lia. Qed.

Lemma grown_pushed P L P' L' w w1 w2 add vs vs' : Inv P L w1 -> Inv P' L' w2 ->
  grown w w1 (add ++ nones (length vs)) -> tops w1 vs -> pushed w1 vs' w2 ->
  grown w w2 (add ++ nones (length (vs ++ vs'))) /\ tops w2 (vs ++ vs').
Proof.
  intros I1 I2 G1 (t1 & ws1 & E1 & F1) [G2 (t2 & ws2 & E2 & F2)]. split.
  - rewrite app_length, <- nones_app, app_assoc. eapply grown_trans; eauto.
  - pose proof (iv_len _ _ _ I1) as L1. pose proof (iv_len _ _ _ I2) as L2.
    pose proof (f2_length _ _ _ F1) as K1. pose proof (f2_length _ _ _ F2) as K2.
    assert (Lt : length t2 = length (stk w1)).
    { rewrite (gw_sh _ _ _ G2), app_length, nones_length, E2, app_length in L2. lia. }
    exists (firstn (length t1) t2), (ws1 ++ ws2). split.
    + rewrite E2, app_assoc. f_equal. rewrite <- (firstn_skipn (length t1) t2) at 1. f_equal.
      apply list_ext. intros i.
      rewrite E1, app_length in Lt.
      destruct (Nat.lt_ge_cases i (length ws1)) as [Hi|Hi].
      * rewrite <- (firstn_skipn (length t1) t2) in E2.
        assert (X : nth_error (stk w2) (length t1 + i) = nth_error (stk w1) (length t1 + i)).
        { apply (gw_kept _ _ _ G2). rewrite (gw_sh _ _ _ G1), nth_error_app2.
          - rewrite nth_error_app2.
            + apply nth_nones_lt. rewrite E1, app_length in L1. rewrite (gw_sh _ _ _ G1), !app_length, nones_length in L1. lia.
            + rewrite E1, app_length in L1. rewrite (gw_sh _ _ _ G1), !app_length, nones_length in L1. lia.
          - rewrite E1, app_length in L1. rewrite (gw_sh _ _ _ G1), !app_length, nones_length in L1. lia. }
        rewrite E1, E2, <- app_assoc in X.
        assert (Lf : length (firstn (length t1) t2) = length t1) by (rewrite firstn_length; lia).
        rewrite nth_error_app2 in X by lia. rewrite Lf in X.
        rewrite (nth_error_app2 t1) in X by lia.
        replace (length t1 + i - length t1) with i in X by lia.
        rewrite nth_error_app1 in X by (rewrite skipn_length; lia). exact X.
      * rewrite !(proj2 (nth_error_None _ _)); auto. rewrite skipn_length. lia.
    + apply Forall2_app; auto. eapply vrs_ext; [apply (gw_cv _ _ _ G2)|auto].
Qed.
Lemma pushed_trans P L P' L' w w1 w2 vs vs' : Inv P L w1 -> Inv P' L' w2 ->
  pushed w vs w1 -> pushed w1 vs' w2 -> pushed w (vs ++ vs') w2.
Proof. intros I1 I2 [G1 T1] H2. exact (grown_pushed P L P' L' w w1 w2 [] vs vs' I1 I2 G1 T1 H2). Qed.

(** Replacing the values on top. *)
Definition retop (w0 w : world) (t ws : list value) (d : D) : world :=
  mkW (mkM (t ++ ws) (m_gl (w_mov w)) (m_heap (w_mov w)) d)
      (w_sh w0 ++ nones (length ws)) (w_cv w) (put_data d (w_st w)).
Lemma put_data_same P L w : Inv P L w -> put_data (m_data (w_mov w)) (w_st w) = w_st w.
Proof. intros H. rewrite <- (iv_data _ _ _ H). destruct (w_st w). reflexivity. Qed.
Lemma pushed_split P L P0 L0 w0 w vs : Inv P0 L0 w0 -> Inv P L w -> pushed w0 vs w ->
  exists t ws, stk w = t ++ ws /\ Forall2 (vr (w_cv w)) vs ws /\ length t = length (w_sh w0) /\ length t = length (stk w0).
Proof.
  intros I0 I [[E _ _] (t & ws & Et & F)]. exists t, ws. pose proof (iv_len _ _ _ I) as K.
  pose proof (iv_len _ _ _ I0). rewrite E, Et, !app_length, nones_length in K.
  pose proof (f2_length _ _ _ F). repeat split; auto; lia.
Qed.
Lemma replace_top P L P0 L0 w0 w vs t ws vs' ws' d : Inv P0 L0 w0 -> l_base P <= length (stk w0) -> Inv P L w ->
  pushed w0 vs w -> stk w = t ++ ws -> length t = length (w_sh w0) -> Forall2 (vr (w_cv w)) vs' ws' ->
  let w' := retop w0 w t ws' d in Inv P L w' /\ pushed w0 vs' w'.
Proof.
  intros I0 Hb I [[E K X] _] Et Lt F. pose proof (iv_len _ _ _ I0) as L0'. cbv zeta. split.
  - destruct I. constructor; auto; cbn.
    + apply (mem_swap _ _ (w_sh w0) t (w_cv w) (m_heap (w_mov w)) (ss_store (w_st w)) ws ws' (length vs)); auto.
      rewrite <- E, <- Et. auto.
    + unfold stk. cbn. rewrite app_length. unfold stk in *. lia.
    + rewrite firstn_app. replace (l_base P - length (w_sh w0)) with 0 by lia. cbn.
      rewrite app_nil_r. rewrite <- iv_sh0, E, firstn_app. replace (l_base P - length (w_sh w0)) with 0 by lia.
      cbn. rewrite app_nil_r. auto.
    + intros i Hi. pose proof (nth_some_lt _ _ _ Hi) as Hi'. rewrite <- iv_sh0, firstn_length in Hi'.
      rewrite <- iv_low0 by auto. rewrite Et. unfold stk. cbn. rewrite !nth_error_app1; auto; lia.
  - split.
    + constructor; cbn; auto.
      * rewrite (f2_length _ _ _ F). auto.
      * intros i Hi. rewrite <- K by auto. rewrite Et. unfold stk. cbn. pose proof (nth_some_lt _ _ _ Hi).
        rewrite !nth_error_app1; auto; lia.
    + exists t, ws'. cbn. auto.
Qed.

(** ** Scopes *)
Definition env_ok (X : ctx) F (P : level) (L : locals) (r : env) (w : world) : Prop :=
  forall x, ordinary x ->
  match slot_of L x with
  | Some i => exists l, alookup seqb x r = Some l /\ nth_error (w_sh w) (l_base P + i) = Some (Some l)
  | None => (In x (x_outer X) <-> alookup seqb x r <> None) /\
            forall k, nth_error (x_ups X) k = Some x ->
              exists c l, nth_error (k_up F) k = Some c /\ nth_error (w_cv w) c = Some l /\
                          alookup seqb x r = Some l
  end.
Record here (X : ctx) F (P : level) (L : locals) (r : env) (w : world) : Prop := {
  hr_globals : x_globals X = G;
  hr_consts : x_consts X = ck_consts (fn_chunk (k_fn F));
  hr_base : k_base F = l_base P;
  hr_inv : Inv P L w;
  hr_env : env_ok X F P L r w }.
Lemma env_grown X F P L r w w' add : env_ok X F P L r w -> grown w w' add -> env_ok X F P L r w'.
Proof.
  intros H [E K C] x Hx. specialize (H x Hx). destruct (slot_of L x).
  - destruct H as (l & H1 & H2). exists l. split; auto. rewrite E, nth_error_app1; auto. eapply nth_some_lt; eauto.
  - destruct H as [H1 H2]. split; auto. intros k Hk. destruct (H2 k Hk) as (c & l & K1 & K2 & K3). exists c, l.
    split; auto. split; auto. eapply ext_nth; eauto.
Qed.
Lemma here_grown X F P L r w w' add : here X F P L r w -> Inv P L w' -> grown w w' add -> here X F P L r w'.
Proof. intros [H1 H2 H3 H4 H5] I Gw. constructor; auto. eapply env_grown; eauto. Qed.

(** ** What a construct comes to *)
Definition sim {A} (P : level) (n : nat) F (ip : nat) (w : world) (ip' : nat) (o : out (D:=D) A)
    (Q : A -> world -> Prop) : Prop :=
  match o with
  | Got a s => exists k w', goes k (F, ip, w_mov w) (F, ip', w_mov w') /\ w_st w' = s /\ Q a w'
  | Returned v s => exists k ip1 w', goes k (F, ip, w_mov w) (F, ip1, w_mov w') /\ w_st w' = s /\
      code_at (k_fn F) ip1 [It IReturn] /\ exists L sh t x, Inv P L w' /\ w_sh w' = sh ++ [None] /\
        stk w' = t ++ [x] /\ vr (w_cv w') v x /\ l_base P <= length t
  | Failed e s => exists gl cv, failing (F, ip, w_mov w) e (ss_data s) gl /\ globs cv s gl
  | Unspecified => True
  | More => lasts n (F, ip, w_mov w)
  end.

Lemma sim_goes {A} P n F ip w k ip1 w1 ip' (o : out A) Q :
  goes k (F, ip, w_mov w) (F, ip1, w_mov w1) -> sim P n F ip1 w1 ip' o Q -> sim P n F ip w ip' o Q.
Proof.
  intros Hg. destruct o; cbn; auto.
  - intros (j & w' & H & R). exists (k + j), w'. split; auto. eapply goes_trans; eauto.
  - intros (j & ip2 & w' & H & R). exists (k + j), ip2, w'. split; auto. eapply goes_trans; eauto.
  - intros (gl & cv & H & R). exists gl, cv. split; auto. eapply goes_fails; eauto.
  - intros H. eapply lasts_le; [|eapply goes_lasts; eauto]. lia.
Qed.
Lemma sim_seq {A B} P n F ip w ip1 ip' (x : out A) (k : A -> sst -> out B) Q1 Q :
  sim P n F ip w ip1 x Q1 ->
  (forall a w1, Q1 a w1 -> sim P n F ip1 w1 ip' (k a (w_st w1)) Q) ->
  sim P n F ip w ip' (seq x k) Q.
Proof.
  destruct x; cbn [seq]; auto. intros (j & w' & H & <- & HQ) Hk. eapply sim_goes; eauto.
Qed.
Lemma sim_post {A} P n F ip w ip' (x : out A) (Q Q' : A -> world -> Prop) : sim P n F ip w ip' x Q ->
  (forall a w', Q a w' -> Q' a w') -> sim P n F ip w ip' x Q'.
Proof. destruct x; cbn; auto. intros (j & w' & H & E & HQ) K. eauto 6. Qed.
Lemma sim_got {A} P n F ip w (a : A) (Q : A -> world -> Prop) : Q a w -> sim P n F ip w ip (Got a (w_st w)) Q.
Proof. intros H. exists 0, w. split; [apply goes_0|auto]. Qed.
Lemma sim_step {A} P n F ip w k ip' w' (a : A) s (Q : A -> world -> Prop) :
  goes k (F, ip, w_mov w) (F, ip', w_mov w') -> w_st w' = s -> Q a w' -> sim P n F ip w ip' (Got a s) Q.
Proof. intros. exists k, w'. auto. Qed.

(** A result of an operation on the values on top. *)
Lemma sim_lift P L P0 L0 n F ip w0 w ip' vs t ws (r : res sval) (r' : res value) :
  Inv P0 L0 w0 -> l_base P <= length (stk w0) -> Inv P L w -> pushed w0 vs w ->
  stk w = t ++ ws -> length t = length (w_sh w0) ->
  rr (vr (w_cv w)) r r' ->
  leads F ip F ip' (t ++ ws) t (m_gl (w_mov w)) (m_heap (w_mov w)) (m_data (w_mov w)) r' ->
  sim P n F ip w ip' (lift r (w_st w)) (fun v w' => Inv P L w' /\ pushed w0 [v] w').
Proof.
  intros I0 Hb I Hp Et Lt Hr Hl. unfold stk in Et. pose proof (put_data_same _ _ _ I) as Es.
  destruct (w_mov w) as [t0 gl h d] eqn:Ew. cbn in *. subst t0.
  destruct r as [v|e|], r' as [x|e'|]; cbn in *; try contradiction; auto.
  - destruct (replace_top P L P0 L0 w0 w vs t ws [v] [x] d I0 Hb I Hp) as [I' P']; auto.
    { unfold stk. rewrite Ew. auto. }
    exists 1, (retop w0 w t [x] d). split; auto.
    unfold retop. rewrite Ew. cbn. exact Hl.
  - subst e'. exists gl, (w_cv w). rewrite Ew. pose proof (iv_data _ _ _ I) as E. rewrite Ew in E. cbn in E.
    rewrite E. split; auto. pose proof (iv_glob _ _ _ I) as K. rewrite Ew in K. exact K.
Qed.
Lemma sim_err {A} P L n F ip w ip' e (Q : A -> world -> Prop) : Inv P L w ->
  failing (F, ip, w_mov w) e (m_data (w_mov w)) (m_gl (w_mov w)) -> sim P n F ip w ip' (Failed e (w_st w)) Q.
Proof.
  intros I H. exists (m_gl (w_mov w)), (w_cv w). rewrite (iv_data _ _ _ I). split; auto. apply (iv_glob _ _ _ I).
Qed.
End Sim.
