(** Variables, captures and scopes on both sides. *)
From Verif Require Import Base RleVec Pool Vecc Float NumText Bytecode Chunk Value Ast Arith VmOps
                          Compiler Vm Items CodeRel SpecReady SpecEval ProofVars SpecRel ProofRel ProofCode6 ProofSim1 ProofSim2 ProofSim3 ProofSim4
                          ProofSim5.

Lemma flagged_app P new L j : flagged P L j -> flagged P (new ++ L) j.
Proof.
  intros [H|(i & x & H1 & H2)]; [left; auto|]. right. exists i, x. split; auto.
  rewrite rev_app_distr, nth_error_app1; auto. eapply nth_some_lt; eauto.
Qed.
Lemma flagged_split P new L j : flagged P (new ++ L) j ->
  flagged P L j \/ exists i x, j = l_base P + length L + i /\ nth_error (rev new) i = Some (x, true).
Proof.
  intros [H|(i & x & H1 & H2)]; [left; left; auto|]. rewrite rev_app_distr in H2.
  destruct (Nat.lt_ge_cases i (length L)) as [Hi|Hi].
  - rewrite nth_error_app1 in H2 by (rewrite rev_length; auto). left. right. eauto.
  - rewrite nth_error_app2, rev_length in H2 by (rewrite rev_length; auto). right. exists (i - length L), x. split; auto. lia.
Qed.
Lemma flagged_lt P L j : flagged P L j -> j < l_base P + length L.
Proof.
  intros [[H _]|(i & x & -> & H)]; [lia|]. apply nth_some_lt in H. rewrite rev_length in H. lia.
Qed.

Lemma open_dec h j : (exists c, nth_error h c = Some (Open j)) \/ (forall c, nth_error h c <> Some (Open j)).
Proof.
  induction h as [|u h IH].
  - right. intros [|c]; discriminate.
  - destruct IH as [[c Hc]|IH]; [left; exists (S c); auto|].
    destruct u as [l|v]; [destruct (Nat.eq_dec l j) as [->|Hn]; [left; exists 0; auto|]|];
      right; intros [|c]; cbn; auto; congruence.
Qed.

Section Sim.
Context {D : Type} (m : mode) (hst : host D) (opts : options) (gs : pool rstring)
        (bs : list (N * builtin D)) (G : list rstring).
Notation goes := (goes m hst opts gs bs).
Notation failing := (failing m hst opts gs bs).
Notation finishes := (finishes m hst opts gs bs).
Notation lasts := (lasts m hst opts gs bs).
Notation leads := (leads m hst opts gs bs).
Notation "ip '+>' i" := (ip + length (item_bytes (It i))) (at level 50).
Notation vr := (vr m G).
Notation mem := (mem m G).
Notation sst := (@sst D).
Notation Inv := (Inv m gs G).
Notation here := (here m gs G).
Notation pushed := (pushed m G).
Notation tops := (tops m G).
Notation sim := (sim m hst opts gs bs G).
Notation globs := (globs m gs G).
Implicit Types (F : @fixed D) (w : @world D).

(** ** Declarations *)
Lemma bind_one X F P L r w x b v s k t y ys : here X F P L r w ->
  w_sh w = s ++ None :: nones k -> stk w = t ++ y :: ys -> length t = length s ->
  length s = l_base P + length L -> vr (w_cv w) v y ->
  here X F P ((x, b) :: L) ((x, length (ss_store (w_st w))) :: r)
       (mkW (w_mov w) (s ++ Some (length (ss_store (w_st w))) :: nones k) (w_cv w)
            (put_store (ss_store (w_st w) ++ [v]) (w_st w))).
Proof using.
  intros [H1 H2 H3 [A1 A2 A3 A4 A5 A6 A7 A8] H5] Es Et Lt Ls Hv. constructor; auto.
  - constructor; cbn; auto.
    + unfold stk in *. cbn in *. rewrite Et. apply mem_promote; auto. rewrite <- Es, <- Et. exact A1.
    + rewrite <- A3, Es, !firstn_app. replace (l_base P - length s) with 0 by lia. auto.
    + intros c j Hc. apply (flagged_app P [(x, b)]). eauto.
  - intros z Hz. specialize (H5 z Hz). cbn [slot_of fst]. cbn [alookup].
    destruct (seqb x z) eqn:Exz.
    + apply seqb_eq in Exz. subst z. rewrite seqb_refl. exists (length (ss_store (w_st w))). split; auto.
      cbn. rewrite <- Ls. apply nth_at.
    + assert (Ezx : seqb z x = false).
      { apply seqb_neq. intros ->. rewrite seqb_refl in Exz. discriminate. }
      rewrite Ezx. destruct (slot_of L z) as [i|].
      * destruct H5 as (l & K1 & K2). exists l. split; auto. cbn. rewrite Es in K2.
        rewrite <- (nth_mid_ne s None); auto. intros Ei. rewrite Ei, nth_at in K2. discriminate.
      * destruct H5 as [K1 K2]. split; auto.
Qed.
Lemma bind_many X F P ys : forall l new L r w s t, here X F P L r w ->
  map fst new = rev (map fst l) ->
  w_sh w = s ++ nones (length l) -> stk w = t ++ ys -> length t = length s ->
  length s = l_base P + length L -> Forall2 (vr (w_cv w)) (map snd l) ys ->
  exists w' locs, here X F P (new ++ L) (fst (bind_all l r (w_st w))) w' /\
    w_mov w' = w_mov w /\ w_st w' = snd (bind_all l r (w_st w)) /\ w_cv w' = w_cv w /\
    w_sh w' = s ++ map Some locs /\ length locs = length l.
Proof using.
  induction ys as [|y ys IH]; intros l new L r w s t H En Es Et Lt Ls Hf.
  - inversion Hf as [E|]; subst. destruct l; [|discriminate]. cbn in *. apply map_eq_nil in En. subst new.
    exists w, []. cbn. rewrite Es. unfold nones. cbn. auto 8.
  - inversion Hf as [|v ? vs ? Hv Hvs E]; subst. destruct l as [|[x v'] l]; [discriminate|]. cbn in E.
    injection E as E0 E. subst v'. cbn [map fst rev] in En.
    apply map_eq_app in En as (new1 & new2 & -> & En1 & En2).
    destruct new2 as [|[x' b] [|]]; try discriminate. cbn in En2. injection En2 as ->.
    cbn [length] in Es. change (nones (S (length l))) with (None :: nones (length l)) in Es.
    pose proof (bind_one X F P L r w x b v s (length l) t y ys H Es Et Lt Ls Hv) as K.
    destruct (IH l new1 _ _ _ (s ++ [Some (length (ss_store (w_st w)))]) (t ++ [y]) K) as (w' & locs & H' & E1 & E2 & E3 & E4 & E5).
    + auto.
    + cbn. rewrite <- app_assoc. auto.
    + unfold stk in *. cbn. rewrite <- app_assoc. auto.
    + rewrite !app_length. cbn. lia.
    + rewrite app_length. cbn. lia.
    + cbn. subst vs. auto.
    + cbn [w_mov w_st w_cv] in *. exists w', (length (ss_store (w_st w)) :: locs).
      cbn [bind_all]. rewrite <- app_assoc. cbn [app].
      split; [exact H'|]. split; [auto|]. split; [auto|]. split; [auto|]. split.
      * rewrite E4, <- app_assoc. auto.
      * cbn. auto.
Qed.

(** ** Captures *)
Lemma capture_all X F P L r caps U : Forall2 (cap_ok X L) caps U -> forall w, here X F P L r w ->
  exists cells h' cv',
    let w' := mkW (mkM (stk w) (m_gl (w_mov w)) h' (m_data (w_mov w))) (w_sh w) cv' (w_st w) in
    caps_to (k_base F) (k_up F) (m_heap (w_mov w)) caps cells h' /\ ext (w_cv w) cv' /\
    here X F P L r w' /\
    Forall2 (fun x cell => exists l, alookup seqb x r = Some l /\ nth_error cv' cell = Some l) U cells.
Proof using.
  induction 1 as [|c x caps U Hc HU IH]; intros w H.
  - exists [], (m_heap (w_mov w)), (w_cv w). cbn. split; [constructor|]. split; [apply ext_refl|]. split; auto.
    unfold stk. destruct w as [[] ? ? ?]. exact H.
  - destruct Hc as [Ho Hc]. pose proof (hr_env _ _ _ _ _ _ _ _ _ H x Ho) as He. destruct c as [i loc]. cbn [fst snd] in Hc. destruct loc.
    + destruct Hc as [Hs Hn]. rewrite Hs in He. destruct He as (l & El & Esh).
      destruct (open_dec (m_heap (w_mov w)) (l_base P + N.to_nat i)) as [[cell Hcell]|Hno].
      * destruct (IH w H) as (cells & h' & cv' & K1 & K2 & K3 & K4).
        exists (cell :: cells), h', cv'. cbv zeta. split; [|split; [auto|split; [auto|]]].
        -- econstructor; eauto. rewrite (hr_base _ _ _ _ _ _ _ _ _ H). auto.
        -- constructor; auto. exists l. split; auto. eapply ext_nth; eauto.
           pose proof (iv_mem _ _ _ _ _ _ (hr_inv _ _ _ _ _ _ _ _ _ H)) as M.
           destruct (mem_cv _ _ _ _ _ _ _ _ _ M Hcell) as [l' Hl'].
           pose proof (me_cell _ _ _ _ _ _ _ M _ _ _ Hl' Hcell) as K. cbn in K. congruence.
      * set (w1 := mkW (mkM (stk w) (m_gl (w_mov w)) (m_heap (w_mov w) ++ [Open (l_base P + N.to_nat i)]) (m_data (w_mov w))) (w_sh w) (w_cv w ++ [l]) (w_st w)).
        pose proof (ext_app (w_cv w) [l]) as Ex.
        assert (H1 : here X F P L r w1).
        { destruct H as [H1 H2 H3 [A1 A2 A3 A4 A5 A6 A7 A8] H5]. constructor; auto.
          - constructor; auto.
            + apply mem_capture; auto.
            + eapply ext_trans; eauto.
            + intros z. specialize (A6 z). unfold w1. cbn. destruct (global z (w_st w)), (match pool_id seqb gs z with Some g => _ | None => _ end); cbn in *; auto.
              eapply vr_ext; eauto.
            + cbn. intros c j Hcj. apply nth_snoc in Hcj as [Hcj|[_ [= <-]]]; [eauto|]. right. eauto.
          - eapply env_grown; [exact H5|]. constructor; cbn; auto. rewrite app_nil_r. auto. }
        destruct (IH w1 H1) as (cells & h' & cv' & K1 & K2 & K3 & K4).
        exists (length (m_heap (w_mov w)) :: cells), h', cv'. cbv zeta. split; [|split; [|split; [auto|]]].
        -- pose proof (hr_base _ _ _ _ _ _ _ _ _ H) as Eb. rewrite Eb in *. apply ct_new; auto.
        -- eapply ext_trans; eauto.
        -- constructor; auto. exists l. split; auto. eapply ext_nth; eauto. cbn.
           rewrite <- (me_heap _ _ _ _ _ _ _ (iv_mem _ _ _ _ _ _ (hr_inv _ _ _ _ _ _ _ _ _ H))). apply nth_at.
    + destruct Hc as (Hs & _ & Hk). rewrite Hs in He. destruct He as [_ He].
      destruct (He _ Hk) as (cell & l & E1 & E2 & E3).
      destruct (IH w H) as (cells & h' & cv' & K1 & K2 & K3 & K4).
      exists (cell :: cells), h', cv'. cbv zeta. split; [|split; [auto|split; [auto|]]].
      * econstructor; eauto.
      * constructor; auto. exists l. split; auto. eapply ext_nth; eauto.
Qed.

(** Pushing one value. *)
Definition pushw (w : @world D) (y : value) : world :=
  mkW (mkM (stk w ++ [y]) (m_gl (w_mov w)) (m_heap (w_mov w)) (m_data (w_mov w))) (w_sh w ++ [None])
      (w_cv w) (w_st w).
Lemma push_world P L w v y : Inv P L w -> vr (w_cv w) v y ->
  Inv P L (pushw w y) /\ pushed w [v] (pushw w y).
Proof using.
  intros I Hv. pose proof (put_data_same _ _ _ _ _ _ I) as Es.
  destruct (replace_top m gs G P L P L w w [] (stk w) [] [v] [y] (m_data (w_mov w)) I) as [I' P']; auto.
  - apply (iv_base _ _ _ _ _ _ I).
  - apply pushed_nil.
  - rewrite app_nil_r. auto.
  - rewrite (iv_len _ _ _ _ _ _ I). auto.
  - unfold retop in *. rewrite Es in *. auto.
Qed.
Lemma goes_mov {k} F ip w ip' t gl h d : goes k (F, ip, mkM (stk w) (m_gl (w_mov w)) (m_heap (w_mov w)) (m_data (w_mov w))) (F, ip', mkM t gl h d) ->
  goes k (F, ip, w_mov w) (F, ip', mkM t gl h d).
Proof using. unfold stk. destruct (w_mov w). auto. Qed.
Lemma mov_eta w : mkM (stk w) (m_gl (w_mov w)) (m_heap (w_mov w)) (m_data (w_mov w)) = w_mov w.
Proof using. unfold stk. destruct (w_mov w). auto. Qed.
Lemma mov_top w t ws : stk w = t ++ ws ->
  w_mov w = mkM (t ++ ws) (m_gl (w_mov w)) (m_heap (w_mov w)) (m_data (w_mov w)).
Proof using. intros <-. symmetry. apply mov_eta. Qed.

Lemma sim_fun X F P L r w ip off f x args body caps : here X F P L r w ->
  nth_error (x_consts X) off = Some (VFn (MFun f)) ->
  @code_fun m ordinary_name X L x args body f caps -> code_at (k_fn F) ip [make_fun off caps] ->
  forallb (fun e => placed true (fst e)) body = true -> Forall (fun e => @named ordinary_name (fst e)) body ->
  exists w', goes 1 (F, ip, w_mov w) (F, ip + length (item_bytes (make_fun off caps)), w_mov w') /\
    w_st w' = w_st w /\ Inv P L w' /\ pushed w [VFn (mkSfn x args body r)] w'.
Proof using.
  intros H Hoff Hf Hc Hpl Hnm.
  inversion Hf as [X0 L0 x0 args0 body0 f0 caps0 Lp U bc L' B1 B2 B3 B4 B5 B6 B7 B8 B9]; subst.
  destruct (capture_all X F P L r caps U B6 w H) as (cells & h' & cv' & K1 & K2 & K3 & K4). cbv zeta in K3.
  set (w1 := mkW (mkM (stk w) (m_gl (w_mov w)) h' (m_data (w_mov w))) (w_sh w) cv' (w_st w)) in *.
  assert (Hrel : vr cv' (VFn (mkSfn (fn_name f) args body r)) (VFn (MClo f cells))).
  { constructor. rewrite (hr_globals _ _ _ _ _ _ _ _ _ H) in B9.
    eapply (fn_rel_intro m G cv' (mkSfn (fn_name f) args body r) f cells Lp U); eauto.
    intros y Hy. cbn [sf_env]. rewrite in_app_iff. pose proof (hr_env _ _ _ _ _ _ _ _ _ H y Hy) as He.
    destruct (slot_of L y) as [i|] eqn:Ei.
    - destruct He as (l & El & _). rewrite El. split; [congruence|]. intros _. left.
      destruct (in_dec (list_eq_dec N.eq_dec) y (map fst L)) as [|Hn]; auto.
      apply slot_of_none in Hn. congruence.
    - destruct He as [He _]. rewrite <- He. apply slot_of_none in Ei. tauto. }
  assert (G1 : grown w w1 []) by (constructor; cbn; auto; rewrite app_nil_r; auto).
  destruct (push_world P L w1 _ _ (hr_inv _ _ _ _ _ _ _ _ _ K3) Hrel) as [I' [G' T']].
  exists (pushw w1 (VFn (MClo f cells))). split; [|split; [auto|split; [auto|]]].
  - rewrite (hr_consts _ _ _ _ _ _ _ _ _ H) in Hoff. apply goes_mov. unfold pushw, w1, stk at 2. cbn.
    destruct caps as [|c caps]; cbn [make_fun] in *.
    + inversion K1; subst. inversion B6; subst. eapply i_function; eauto. rewrite Nat2N.id. auto.
    + eapply i_closure; eauto.
      * rewrite Nat2N.id. auto.
      * rewrite B4. unfold len. rewrite Nat2N.id. auto.
      * eapply mem_one_cell. apply (iv_mem _ _ _ _ _ _ (hr_inv _ _ _ _ _ _ _ _ _ H)).
  - split; auto. apply (grown_trans _ _ _ _ _ G1 G').
Qed.

(** ** Leaving a scope *)
Lemma run_flush F ip q t pend gl h d : code_at (k_fn F) ip (flush q) -> length pend = q ->
  exists k, goes k (F, ip, mkM (t ++ pend) gl h d) (F, ip + size (flush q), mkM t gl h d).
Proof using.
  intros Hc Hl. destruct q as [|[|q]]; cbn [flush] in *.
  - destruct pend; [|discriminate]. exists 0. rewrite app_nil_r. cbn. rewrite Nat.add_0_r. apply goes_0.
  - destruct pend as [|y [|]]; try discriminate. exists 1. rewrite size_cons, size_nil, Nat.add_0_r. apply i_pop. auto.
  - exists 1. rewrite size_cons, size_nil, Nat.add_0_r. apply i_pops; auto. rewrite Nat2N.id. auto.
Qed.
Lemma run_pops F gl d cv st : forall new q ip t news pend sh shn h,
  code_at (k_fn F) ip (pops (map snd new) q) -> length news = length new -> length pend = q ->
  mem (sh ++ shn) (t ++ news) cv h st -> length sh = length t -> length shn = length news ->
  (forall c j, nth_error h c = Some (Open j) ->
     j < length t \/ exists i (x : rstring), j = length t + i /\ nth_error (rev new) i = Some (x, true)) ->
  exists k h', goes k (F, ip, mkM (t ++ news ++ pend) gl h d)
                      (F, ip + size (pops (map snd new) q), mkM t gl h' d) /\
    mem sh t cv h' st /\ (forall c j, nth_error h' c = Some (Open j) -> nth_error h c = Some (Open j) /\ j < length t).
Proof using.
  induction new as [|[x b] new IH]; intros q ip t news pend sh shn h Hc Ln Lp M Lt Ls Hfl.
  - destruct news; [|discriminate]. destruct shn; [|discriminate]. cbn [map pops app] in *. rewrite !app_nil_r in M.
    destruct (run_flush F ip q t pend gl h d Hc Lp) as [k Hk]. exists k, h. split; auto. split; auto.
    intros c j Hj. split; auto. eapply mem_open_lt; eauto.
  - destruct (exists_last (l:=news)) as (news' & y & ->); [intros ->; discriminate|].
    destruct (exists_last (l:=shn)) as (shn' & s & ->); [intros ->; rewrite app_length in Ls; cbn in Ls; lia|].
    rewrite app_length in Ln. do 2 rewrite app_length in Ls. cbn [length] in Ln, Ls. rewrite !app_assoc in M.
    assert (Ln' : length news' = length new) by (cbn in Ln; lia). assert (Ls' : length shn' = length news') by lia.
    destruct b; cbn [map snd pops] in *.
    + apply code_app in Hc as [Hc1 Hc2]. apply code_cons in Hc2 as [Hc2 Hc3].
      destruct (run_flush F ip q (t ++ news' ++ [y]) pend gl h d Hc1 Lp) as [k1 Hk1].
      pose proof (i_close m hst opts gs bs F _ (t ++ news') gl h d y Hc2) as Hk2. rewrite <- app_assoc in Hk2.
      apply mem_close1 in M; [|rewrite !app_length; lia].
      destruct (IH 0 _ t news' [] sh shn' (close_slot (length (t ++ news')) y h) Hc3) as (k3 & h' & Hk3 & M' & Hfl'); auto.
      { intros c j Hj. rewrite close_slot_nth in Hj. destruct (nth_error h c) as [[l|z]|] eqn:Eh; try discriminate.
        destruct (Nat.eqb_spec l (length (t ++ news'))); [discriminate|]. injection Hj as ->.
        destruct (Hfl _ _ Eh) as [|(i & z & -> & Hi)]; auto. right. exists i, z. split; auto.
        cbn [rev] in Hi. apply nth_snoc in Hi as [Hi|[-> _]]; auto. exfalso. rewrite rev_length in *.
        rewrite app_length in *. lia. }
      exists (k1 + (1 + k3)), h'. split; [|split; [auto|]].
      * eapply goes_trans; [rewrite <- !app_assoc in *; exact Hk1|]. eapply goes_trans; [exact Hk2|].
        rewrite app_nil_r in Hk3. rewrite size_app, size_cons, Nat.add_assoc, Nat.add_assoc. exact Hk3.
      * intros c j Hj. destruct (Hfl' c j Hj) as [K1 K2]. split; auto. rewrite close_slot_nth in K1.
        destruct (nth_error h c) as [[l|z]|] eqn:Eh; try discriminate.
        destruct (l =? length (t ++ news')); congruence.
    + assert (Hno : forall c, nth_error h c <> Some (Open (length (t ++ news')))).
      { intros c Hx. destruct (Hfl _ _ Hx) as [Hx'|(i & z & Ei & Hi)]; rewrite app_length in *; [lia|].
        assert (i = length new) by lia. subst i. cbn [rev] in Hi. rewrite <- (rev_length new), nth_at in Hi. discriminate. }
      apply mem_drop1 in M; auto; [|rewrite !app_length; lia].
      destruct (IH (S q) ip t news' (y :: pend) sh shn' h Hc) as (k3 & h' & Hk3 & M' & Hfl'); auto.
      { cbn. lia. }
      { intros c j Hj. destruct (Hfl _ _ Hj) as [|(i & z & -> & Hi)]; auto. right. exists i, z. split; auto.
        cbn [rev] in Hi. apply nth_snoc in Hi as [Hi|[_ Hi]]; [auto|discriminate]. }
      exists k3, h'. split; auto. rewrite <- app_assoc. exact Hk3.
Qed.
Lemma with_blocks_same F b v : k_blocks F = b -> with_blocks (with_blocks F (v :: b)) b = F.
Proof using. intros <-. destruct F. reflexivity. Qed.

Lemma sim_exit P L new F ip w w2 add v P0 L0 : Inv P0 L0 w -> l_base P <= length (stk w) -> k_base F = l_base P ->
  code_at (k_fn F) ip (exit_code (map snd new)) ->
  Inv P (new ++ L) w2 -> grown w w2 (add ++ [None]) -> length add = length new -> tops w2 [v] ->
  (new <> [] -> length (stk w) = l_base P + length L) ->
  exists k w3, goes k (F, ip, w_mov w2) (F, ip + size (exit_code (map snd new)), w_mov w3) /\
    w_st w3 = w_st w2 /\ Inv P L w3 /\ pushed w [v] w3.
Proof using.
  intros I0 Hb0 Hb Hc I2 G2 Ll Ht Hal. destruct new as [|nb new].
  - destruct add; [|discriminate]. exists 0, w2. cbn [map exit_code size bytes_of flat_map length]. rewrite Nat.add_0_r.
    split; [apply goes_0|]. split; auto. split; auto. split; auto.
  - specialize (Hal ltac:(discriminate)). set (fl := nb :: new) in *.
    assert (Efl : exit_code (map snd fl) = It IBlockResult :: pops (map snd fl) 0 ++ [It IBlockReturn]) by reflexivity.
    rewrite Efl in *. apply code_cons in Hc as [Hc1 Hc2]. apply code_app in Hc2 as [Hc2 Hc3].
    destruct Ht as (t0 & ws & Et & Hf). inversion Hf as [|? y ? ? Hv Hn]; subst. inversion Hn; subst. clear Hn Hf.
    pose proof (iv_len _ _ _ _ _ _ I2) as L2. pose proof (iv_len _ _ _ _ _ _ I0) as Lw.
    destruct G2 as [Es Kp Ex].
    rewrite Es, Et, !app_length in L2. cbn [length] in L2.
    set (t := firstn (length (w_sh w)) t0). set (news := skipn (length (w_sh w)) t0).
    assert (Etn : t0 = t ++ news) by (unfold t, news; rewrite firstn_skipn; auto).
    assert (Lt : length (w_sh w) = length t) by (unfold t; rewrite firstn_length; lia).
    assert (Ln : length news = length fl) by (unfold news; rewrite skipn_length; lia).
    destruct I2 as [A1 A2 A3 A4 A5 A6 A7 A8].
    assert (M : mem (w_sh w ++ add) (t ++ news) (w_cv w2) (m_heap (w_mov w2)) (ss_store (w_st w2))).
    { rewrite <- Etn. apply (mem_unpush m G _ _ _ _ _ [y] 1); [|rewrite app_length; lia].
      rewrite <- Et, <- app_assoc. unfold nones. cbn [repeat]. rewrite <- Es. exact A1. }
    destruct (run_pops (with_blocks F (y :: k_blocks F)) (m_gl (w_mov w2)) (m_data (w_mov w2)) (w_cv w2) (ss_store (w_st w2)) fl 0
                (ip +> IBlockResult) t news [] (w_sh w) add (m_heap (w_mov w2)) Hc2) as (k & h' & Hk & M' & Hfl'); auto.
    { lia. }
    { intros c j Hj. specialize (A8 c j Hj). apply flagged_split in A8 as [A8|(i & z & -> & Hz)].
      - left. apply flagged_lt in A8. lia.
      - right. exists i, z. split; auto. lia. }
    rewrite app_nil_r in Hk.
    exists (1 + (k + 1)), (mkW (mkM (t ++ [y]) (m_gl (w_mov w2)) h' (m_data (w_mov w2))) (w_sh w ++ [None]) (w_cv w2) (w_st w2)).
    split; [|split; [reflexivity|]].
    + rewrite (mov_top w2 t0 [y] Et). eapply goes_trans; [apply i_result; exact Hc1|]. rewrite Etn.
      eapply goes_trans; [exact Hk|].
      pose proof (i_back m hst opts gs bs (with_blocks F (y :: k_blocks F)) _ t (m_gl (w_mov w2)) h' (m_data (w_mov w2)) y (k_blocks F) Hc3 eq_refl) as Hback.
      rewrite with_blocks_same in Hback by auto.
      rewrite size_cons, size_app, size_cons, size_nil, Nat.add_0_r, !Nat.add_assoc. exact Hback.
    + assert (Hkeep : forall i, i < length t -> nth_error (t ++ [y]) i = nth_error (stk w2) i).
      { intros i Hi. rewrite Et, Etn, <- app_assoc. rewrite !nth_error_app1; auto. }
      split.
      * constructor; cbn; auto.
        -- apply (mem_push m G (w_sh w) t (w_cv w2) h' (ss_store (w_st w2)) [y]). exact M'.
        -- unfold stk. cbn. rewrite app_length. lia.
        -- rewrite firstn_app. replace (l_base P - length (w_sh w)) with 0 by lia. cbn. rewrite app_nil_r.
           rewrite <- A3, Es, firstn_app. replace (l_base P - length (w_sh w)) with 0 by lia. cbn. rewrite app_nil_r. auto.
        -- intros i Hi. pose proof (nth_some_lt _ _ _ Hi) as Hi'. rewrite <- A3, firstn_length in Hi'.
           rewrite <- A4 by auto. unfold stk at 1. cbn. apply Hkeep. lia.
        -- intros c j Hj. destruct (Hfl' c j Hj) as [K1 K2]. specialize (A8 c j K1).
           apply flagged_split in A8 as [A8|(i & z & -> & Hz)]; auto. lia.
      * split.
        -- constructor; cbn; auto. intros i Hi. rewrite <- Kp by auto. unfold stk at 1. cbn. apply Hkeep.
           apply nth_some_lt in Hi. lia.
        -- exists t, [y]. split; auto.
Qed.
(** ** Variables *)
Hypothesis HG : forall g x, nth_error G g = Some x -> pool_id seqb gs x = Some (N.of_nat g).
Hypothesis HP : forall g x, pool_id seqb gs x = Some g -> pool_get gs g = Some x.
Lemma glob_get x g : nth_error G g = Some x -> pool_get gs (N.of_nat g) = Some x.
Proof using HG HP. intros H. apply HP, HG. auto. Qed.

Lemma sim_read X F P L r w ip n x rf : here X F P L r w -> ordinary x -> resolves X L x rf ->
  code_at (k_fn F) ip [It (get_instr rf)] ->
  sim P n F ip w (ip +> get_instr rf) (read_var x r (w_st w)) (fun v w' => Inv P L w' /\ pushed w [v] w').
Proof using HG HP.
  intros H Ho Hr Hc. pose proof (hr_env _ _ _ _ _ _ _ _ _ H x Ho) as He.
  pose proof (hr_inv _ _ _ _ _ _ _ _ _ H) as I. pose proof (iv_mem _ _ _ _ _ _ I) as M. unfold read_var.
  assert (Go : forall v y, vr (w_cv w) v y ->
    goes 1 (F, ip, mkM (stk w) (m_gl (w_mov w)) (m_heap (w_mov w)) (m_data (w_mov w)))
           (F, ip +> get_instr rf, mkM (stk w ++ [y]) (m_gl (w_mov w)) (m_heap (w_mov w)) (m_data (w_mov w))) ->
    sim P n F ip w (ip +> get_instr rf) (Got v (w_st w)) (fun v w' => Inv P L w' /\ pushed w [v] w')).
  { intros v y Hv Hg. destruct (push_world P L w v y I Hv) as [I' P'].
    eapply (sim_step m hst opts gs bs G P n F ip w 1 _ (pushw w y)); auto. }
  destruct Hr as [i Hs|k Hs Hin Hk|g Hs Hin Hg]; rewrite Hs in He; cbn [get_instr] in *.
  - destruct He as (l & -> & Esh). destruct (me_slot _ _ _ _ _ _ _ M _ _ Esh) as (v & y & E1 & E2 & E3).
    rewrite E1. cbn [the_value]. eapply Go; [exact E3|]. eapply i_local; eauto.
    rewrite Nat2N.id, (hr_base _ _ _ _ _ _ _ _ _ H). auto.
  - destruct He as [_ He]. destruct (He _ Hk) as (c & l & E1 & E2 & ->).
    assert (exists u, nth_error (m_heap (w_mov w)) c = Some u) as [u Eu].
    { destruct (nth_error (m_heap (w_mov w)) c) eqn:E; eauto. apply nth_error_None in E.
      rewrite <- (me_heap _ _ _ _ _ _ _ M) in E. apply nth_some_lt in E2. lia. }
    destruct (mem_read _ _ _ _ _ _ _ _ _ _ M E2 Eu) as (v & y & V1 & V2 & V3). rewrite V1. cbn [the_value].
    eapply Go; [exact V3|]. eapply i_up; eauto. rewrite Nat2N.id. auto.
  - destruct He as [He _]. destruct (alookup seqb x r) eqn:Er; [exfalso; apply Hin, He; congruence|].
    rewrite (hr_globals _ _ _ _ _ _ _ _ _ H) in Hg. pose proof (iv_glob _ _ _ _ _ _ I x) as Gx. rewrite (HG _ _ Hg) in Gx.
    pose proof (i_global m hst opts gs bs F ip (stk w) (m_gl (w_mov w)) (m_heap (w_mov w)) (m_data (w_mov w)) _ Hc) as Hi.
    destruct (global x (w_st w)) as [v|], (alookup N.eqb (N.of_nat g) (m_gl (w_mov w))) as [y|]; cbn in Gx; try contradiction.
    + eapply Go; eauto.
    + eapply sim_err; [exact I|]. rewrite mov_eta in Hi. apply Hi. apply glob_get; auto.
Qed.

Lemma pool_inj x y g : pool_id seqb gs x = Some g -> pool_id seqb gs y = Some g -> x = y.
Proof using HP. intros H1 H2. apply HP in H1, H2. congruence. Qed.
Lemma globs_insert cv (s : sst) gl x g v y : globs cv s gl -> nth_error G g = Some x -> vr cv v y ->
  globs cv (put_globals (ainsert x v (ss_globals s)) s) (ainsert (N.of_nat g) y gl).
Proof using HG HP.
  intros H Hg Hv z. specialize (H z). unfold global in *. cbn [ss_globals put_globals]. unfold ainsert. cbn [alookup].
  destruct (seqb z x) eqn:E.
  - apply seqb_eq in E. subst z. rewrite (HG _ _ Hg), N.eqb_refl. exact Hv.
  - destruct (pool_id seqb gs z) as [g'|] eqn:Ez; auto. destruct (N.eqb_spec g' (N.of_nat g)); auto. subst g'.
    rewrite (pool_inj z x (N.of_nat g)) in E; auto. rewrite seqb_refl in E. discriminate.
Qed.

Lemma sim_write X F P L r w0 w ip n x v rf P0 L0 : Inv P0 L0 w0 -> l_base P <= length (stk w0) -> here X F P L r w -> ordinary x -> resolves X L x rf ->
  pushed w0 [v] w -> code_at (k_fn F) ip [It (set_instr rf)] ->
  sim P n F ip w (ip +> set_instr rf) (write_var x v r (w_st w)) (fun v' w' => Inv P L w' /\ pushed w0 [v'] w').
Proof using HG HP.
  intros I0 Hb0 H Ho Hr Hp Hc. pose proof (hr_env _ _ _ _ _ _ _ _ _ H x Ho) as He.
  pose proof (hr_inv _ _ _ _ _ _ _ _ _ H) as I. pose proof (iv_mem _ _ _ _ _ _ I) as M. unfold write_var.
  destruct (pushed_split m gs G P L P0 L0 w0 w [v] I0 I Hp) as (t & ws & Et & Hf & Lt & Lt').
  inversion Hf as [|? y ? ? Hv Hn]; subst. inversion Hn; subst. clear Hn Hf.
  pose proof (mov_top w t [y] Et) as Em.
  destruct Hp as [[Esh Hk Hx] _]. cbn [length] in Esh.
  (* a write to a variable on the stack *)
  assert (Slot : forall j l, nth_error (w_sh w) j = Some (Some l) ->
    goes 1 (F, ip, mkM (t ++ [y]) (m_gl (w_mov w)) (m_heap (w_mov w)) (m_data (w_mov w)))
           (F, ip +> set_instr rf, mkM (upd j y (t ++ [y])) (m_gl (w_mov w)) (m_heap (w_mov w)) (m_data (w_mov w))) ->
    sim P n F ip w (ip +> set_instr rf) (Got v (put_store (upd l v (ss_store (w_st w))) (w_st w)))
        (fun v' w' => Inv P L w' /\ pushed w0 [v'] w')).
  { intros j l Hj Hg. rewrite <- Em in Hg.
    assert (Lj : j < length t).
    { rewrite Esh in Hj. apply (proj1 (nth_pad (w_sh w0) 1 j l)) in Hj. apply nth_some_lt in Hj. lia. }
    exists 1, (mkW (mkM (upd j y (t ++ [y])) (m_gl (w_mov w)) (m_heap (w_mov w)) (m_data (w_mov w))) (w_sh w) (w_cv w) (put_store (upd l v (ss_store (w_st w))) (w_st w))).
    split; [exact Hg|]. split; [reflexivity|].
    assert (Keep : forall i, nth_error (w_sh w) i = Some None -> nth_error (upd j y (t ++ [y])) i = nth_error (stk w) i).
    { intros i Hi. rewrite Et. apply nth_error_upd_neq. congruence. }
    split.
    - destruct I as [A1 A2 A3 A4 A5 A6 A7 A8]. constructor; cbn; auto.
      + unfold stk. cbn. rewrite <- Et. apply mem_write_slot; auto.
      + unfold stk. cbn. rewrite upd_length, <- Et. auto.
      + intros i Hi. rewrite <- A4 by auto. unfold stk at 1. cbn. apply Keep.
        pose proof (nth_some_lt _ _ _ Hi) as K. rewrite <- A3 in Hi. rewrite <- A3, firstn_length in K.
        rewrite nth_firstn in Hi. destruct (i <? l_base P); [auto|discriminate].
    - split.
      + constructor; cbn; auto. intros i Hi. rewrite <- Hk by auto. unfold stk at 1. cbn. apply Keep.
        rewrite Esh, nth_error_app1; auto. eapply nth_some_lt; eauto.
      + exists (upd j y t), [y]. unfold stk. cbn. rewrite upd_app_l by auto. split; auto. }
  destruct Hr as [i Hs|k Hs Hin Hk'|g Hs Hin Hg]; rewrite Hs in He; cbn [set_instr] in *.
  - destruct He as (l & -> & Ei). eapply Slot; [exact Ei|].
    rewrite <- (hr_base _ _ _ _ _ _ _ _ _ H). replace (k_base F + i) with (k_base F + N.to_nat (N.of_nat i)) by (rewrite Nat2N.id; auto).
    eapply i_set_local; eauto. rewrite Nat2N.id, (hr_base _ _ _ _ _ _ _ _ _ H).
    apply nth_some_lt in Ei. rewrite (iv_len _ _ _ _ _ _ I), Et, app_length in Ei. cbn in Ei. lia.
  - destruct He as [_ He]. destruct (He _ Hk') as (c & l & E1 & E2 & ->).
    assert (exists u, nth_error (m_heap (w_mov w)) c = Some u) as [u Eu].
    { destruct (nth_error (m_heap (w_mov w)) c) eqn:E; eauto. apply nth_error_None in E.
      rewrite <- (me_heap _ _ _ _ _ _ _ M) in E. apply nth_some_lt in E2. lia. }
    pose proof (me_cell _ _ _ _ _ _ _ M _ _ _ E2 Eu) as K.
    pose proof (i_set_up m hst opts gs bs F ip t (m_gl (w_mov w)) (m_heap (w_mov w)) (m_data (w_mov w)) _ c u y Hc) as Hi.
    rewrite Nat2N.id in Hi. specialize (Hi E1 Eu).
    destruct u as [j|z].
    + eapply Slot; [exact K|]. apply Hi. intros l' [= <-]. apply nth_some_lt in K.
      rewrite (iv_len _ _ _ _ _ _ I), Et, app_length in K. cbn in K. lia.
    + exists 1, (mkW (mkM (t ++ [y]) (m_gl (w_mov w)) (upd c (Closed y) (m_heap (w_mov w))) (m_data (w_mov w))) (w_sh w) (w_cv w) (put_store (upd l v (ss_store (w_st w))) (w_st w))).
      split; [rewrite Em; cbn; apply Hi; discriminate|]. split; [reflexivity|]. split.
      * destruct I as [A1 A2 A3 A4 A5 A6 A7 A8]. constructor; cbn; auto.
        -- unfold stk. cbn. rewrite <- Et. eapply mem_write_cell; eauto.
        -- unfold stk. cbn. rewrite <- Et. auto.
        -- intros i Hi'. rewrite <- A4 by auto. rewrite Et. reflexivity.
        -- intros c' j Hj. apply (A8 c'). destruct (Nat.eq_dec c c') as [<-|Hn].
           ++ rewrite nth_error_upd_eq in Hj by (eapply nth_some_lt; eauto). discriminate.
           ++ rewrite nth_error_upd_neq in Hj by auto. auto.
      * split.
        -- constructor; cbn; auto. intros i Hi'. rewrite <- Hk by auto. rewrite Et. reflexivity.
        -- exists t, [y]. split; auto.
  - destruct He as [He _]. destruct (alookup seqb x r) eqn:Er; [exfalso; apply Hin, He; congruence|].
    rewrite (hr_globals _ _ _ _ _ _ _ _ _ H) in Hg. pose proof (iv_glob _ _ _ _ _ _ I x) as Gx. rewrite (HG _ _ Hg) in Gx.
    pose proof (i_set_global m hst opts gs bs F ip t (m_gl (w_mov w)) (m_heap (w_mov w)) (m_data (w_mov w)) _ y Hc) as Hi.
    destruct (global x (w_st w)) as [v0|], (alookup N.eqb (N.of_nat g) (m_gl (w_mov w))) as [y0|]; cbn in Gx; try contradiction.
    + exists 1, (mkW (mkM (t ++ [y]) (ainsert (N.of_nat g) y (m_gl (w_mov w))) (m_heap (w_mov w)) (m_data (w_mov w))) (w_sh w) (w_cv w) (put_globals (ainsert x v (ss_globals (w_st w))) (w_st w))).
      split; [rewrite Em; cbn; apply Hi|]. split; [reflexivity|]. split.
      * destruct I as [A1 A2 A3 A4 A5 A6 A7 A8]. constructor; cbn; auto.
        -- unfold stk. cbn. rewrite <- Et. auto.
        -- unfold stk. cbn. rewrite <- Et. auto.
        -- intros i Hi'. rewrite <- A4 by auto. rewrite Et. reflexivity.
        -- apply globs_insert; auto.
      * split.
        -- constructor; cbn; auto. intros i Hi'. rewrite <- Hk by auto. rewrite Et. reflexivity.
        -- exists t, [y]. split; auto.
    + eapply sim_err; [exact I|]. rewrite Em. cbn. apply Hi. apply glob_get; auto.
Qed.

End Sim.
