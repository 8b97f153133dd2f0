(** Compiled code does what the direct evaluation says: machines set up by a host, and the
    statement about [run]. *)
From Verif Require Import Base RleVec Pool Vecc Float NumText Bytecode Chunk Value Ast Arith VmOps
                          Compiler Vm Items CodeRel CodeSize SpecParse SpecReady SpecRel SpecVm SpecEval SpecContainers ContainerHist
                          ProofContainers ProofVm4 ProofVm5 ProofVars ProofRel ProofCode ProofCode6 ProofCode7 ProofHeight2 ProofSim1
                          ProofSim4 ProofSim5 ProofSim12.

Ltac Zify.zify_post_hook ::= Z.div_mod_to_equations.

Definition room (p : pool rstring) : Prop := length (p_entries p) <= N.to_nat 65536.
Lemma room_id p x i : room p -> index_of seqb x (p_entries p) = Some i -> pool_id_from i = N.of_nat i.
Proof.
  intros H Hi. apply pool_id_from_small. apply index_of_lt in Hi; [|exact seqb_eq]. unfold room in H. lia.
Qed.
(** Maps from numbers of names. *)
Section Named.
Context {V : Type}.
Definition by_name (p : pool rstring) (mp : list (N * V)) (x : rstring) : option V :=
  match pool_id seqb p x with Some g => alookup N.eqb g mp | None => None end.
Definition keyed (p : pool rstring) (mp : list (N * V)) : Prop :=
  forall g, alookup N.eqb g mp <> None -> N.to_nat g < length (p_entries p).
Lemma add_named p n mp : pool_inv seqb p -> room (fst (pool_add seqb p n)) -> keyed p mp ->
  let q := fst (pool_add seqb p n) in let id := snd (pool_add seqb p n) in
  pool_inv seqb q /\ room p /\ (exists l, p_entries q = p_entries p ++ l) /\ keyed q mp /\
  (forall x, by_name q mp x = by_name p mp x) /\
  forall v, keyed q (ainsert id v mp) /\
    forall x, by_name q (ainsert id v mp) x = if seqb x n then Some v else by_name p mp x.
Proof.
  intros Hp Hr Hk q id. pose proof (pool_add_inv seqb seqb_eq p n Hp) as Hq.
  destruct (pool_add_spec' p n Hp) as (l & E & Hl & i & Hi & Hs). fold q id in E, Hq, Hr, Hs.
  assert (Hrp : room p) by (unfold room in *; rewrite E, app_length in Hr; lia).
  rewrite <- E in Hi. rewrite (room_id q n i Hr Hi) in Hs.
  assert (Li : i < length (p_entries q)) by (eapply index_of_lt; [exact seqb_eq|eauto]).
  assert (K1 : keyed q mp) by (intros g Hg; rewrite E, app_length; specialize (Hk g Hg); lia).
  assert (Kn : pool_id seqb q n = Some id) by (rewrite (pool_id_index _ _ Hq), Hi; cbn; rewrite (room_id q n i Hr Hi); congruence).
  assert (Kx : forall x, seqb x n = false -> pool_id seqb q x = pool_id seqb p x /\ pool_id seqb q x <> Some id).
  { intros x Hx. assert (Ei : index_of seqb x (p_entries q) = index_of seqb x (p_entries p)).
    { rewrite E. destruct (index_of seqb x (p_entries p)) as [j|] eqn:Ej.
      - apply index_of_app_l. auto.
      - rewrite (index_of_app_r seqb) by auto. destruct Hl as [->| ->]; cbn; auto. rewrite Hx. auto. }
    rewrite (pool_id_index _ _ Hq), (pool_id_index _ _ Hp), Ei. split; auto.
    destruct (index_of seqb x (p_entries p)) as [j|] eqn:Ej; cbn; [|discriminate].
    rewrite Hs, (room_id p x j Hrp Ej). intros [= H]. apply Nnat.Nat2N.inj in H. subst j.
    pose proof (index_of_nth seqb seqb_eq _ _ _ Ei) as N1. pose proof (index_of_nth seqb seqb_eq _ _ _ Hi) as N2.
    rewrite N1 in N2. injection N2 as ->. rewrite seqb_refl in Hx. discriminate. }
  assert (Kp : by_name q mp n = by_name p mp n).
  { unfold by_name. rewrite Kn. destruct (pool_id seqb p n) as [g|] eqn:Eg.
    - unfold id, pool_add. unfold pool_id in Eg. rewrite Eg. reflexivity.
    - destruct (alookup N.eqb id mp) eqn:El; auto. exfalso.
      assert (Hlt : N.to_nat id < length (p_entries p)) by (apply Hk; congruence).
      unfold id, pool_add in Hlt. unfold pool_id in Eg. rewrite Eg in Hlt. cbn in Hlt.
      rewrite pool_id_from_small in Hlt; [lia|]. unfold q, pool_add in Hr. rewrite Eg in Hr. unfold room in Hr. cbn in Hr.
      rewrite app_length in Hr. cbn in Hr. lia. }
  split; auto. split; auto. split; eauto. split; auto. split.
  - intros x. destruct (seqb x n) eqn:Ex; [apply seqb_eq in Ex as ->; auto|].
    unfold by_name. destruct (Kx x Ex) as [-> _]. auto.
  - intros v. split.
    + intros g. rewrite alookup_ainsert. destruct (N.eqb g id) eqn:Eg; [|apply K1].
      apply N.eqb_eq in Eg as ->. intros _. lia.
    + intros x. destruct (seqb x n) eqn:Ex.
      * apply seqb_eq in Ex as ->. unfold by_name. rewrite Kn, alookup_ainsert, N.eqb_refl. auto.
      * unfold by_name. destruct (Kx x Ex) as [E1 E2]. rewrite E1 in *. destruct (pool_id seqb p x) as [g|]; auto.
        rewrite alookup_ainsert. replace (N.eqb g id) with false; auto. symmetry. apply N.eqb_neq. congruence.
Qed.
(** A name that has a number already. *)
Lemma put_named p n mp id v : pool_inv seqb p -> room p -> keyed p mp -> pool_id seqb p n = Some id ->
  keyed p (ainsert id v mp) /\ forall x, by_name p (ainsert id v mp) x = if seqb x n then Some v else by_name p mp x.
Proof.
  intros Hp Hr Hk Hi. assert (E : pool_add seqb p n = (p, id)) by (unfold pool_add; unfold pool_id in Hi; rewrite Hi; auto).
  pose proof (add_named p n mp Hp) as K. rewrite E in K. cbn [fst snd] in K. destruct (K Hr Hk) as (_ & _ & _ & _ & _ & H). apply H.
Qed.
End Named.

Section Start.
Context {D : Type} (m : mode) (hst : host D).
Implicit Types (s : vm D) (st : sst (D:=D)).

Record start_ok (sc : script) (b : rstring -> option (sbuiltin (D:=D))) st s : Prop := {
  so_pool : pool_inv seqb (v_gsyms s);
  so_syms : exists k, p_entries (v_gsyms s) = p_entries (sc_globals sc) ++ k;
  so_bkeys : keyed (v_gsyms s) (v_builtins s);
  so_builtins : forall x, same_builtin (b x) (by_name (v_gsyms s) (v_builtins s) x);
  so_gkeys : keyed (v_gsyms s) (v_globals s);
  so_globals : forall x, orel plain_value (global x st) (by_name (v_gsyms s) (v_globals s) x);
  so_store : ss_store st = [];
  so_data : ss_data st = v_data s;
  so_frame : v_frame s = mkFrame (sc_function sc) [] 0 0;
  so_frames : v_frames s = [];
  so_exits : v_exits s = [];
  so_blocks : v_blocks s = [];
  so_opens : v_opens s = [];
  so_heap : v_heap s = [];
  so_sp : v_sp s = 0;
  so_stack : length (v_stack s) = o_stack_size (v_opts s) }.

Lemma builtin_list_entries l s : pool_inv seqb (v_gsyms s) ->
  exists k, p_entries (v_gsyms (add_builtins_list l s)) = p_entries (v_gsyms s) ++ k.
Proof.
  revert s. induction l as [|[n b] l IH]; intros s Hp; cbn [add_builtins_list].
  - exists []. rewrite app_nil_r. auto.
  - pose proof (pool_add_inv seqb seqb_eq (v_gsyms s) n Hp) as Hq. destruct (pool_add_spec' (v_gsyms s) n Hp) as (k1 & E1 & _).
    destruct (pool_add seqb (v_gsyms s) n) as [p id]. cbn [fst] in *.
    destruct (IH (set_builtins (ainsert id b (v_builtins s)) (set_gsyms p s)) Hq) as (k & ->).
    cbn [v_gsyms set_gsyms set_builtins]. rewrite E1, <- app_assoc. eauto.
Qed.

Lemma start_builtins sc l l' : Forall2 (fun x y => fst x = fst y /\ same_builtin (Some (snd x)) (Some (snd y))) l l' ->
  forall b st s, start_ok sc b st s -> room (v_gsyms (add_builtins_list l' s)) ->
  start_ok sc (fold_left with_builtin l b) st (add_builtins_list l' s).
Proof.
  induction 1 as [|[n f] [n' g] l l' [En Hb] _ IH]; intros b st s Hs Hr; auto. cbn [fst snd] in *. subst n'.
  cbn [fold_left add_builtins_list] in *. destruct Hs.
  pose proof (add_named (v_gsyms s) n (v_builtins s) so_pool0) as K.
  pose proof (add_named (v_gsyms s) n (v_globals s) so_pool0) as K'.
  pose proof (pool_add_inv seqb seqb_eq (v_gsyms s) n so_pool0) as Hq.
  destruct (pool_add seqb (v_gsyms s) n) as [p id]. cbn [fst snd] in *.
  assert (Hrp : room p).
  { destruct (builtin_list_entries l' (set_builtins (ainsert id g (v_builtins s)) (set_gsyms p s)) Hq) as (k & E).
    unfold room in *. rewrite E, app_length in Hr. cbn in Hr. lia. }
  destruct (K Hrp so_bkeys0) as (_ & _ & (k & Ek) & _ & _ & Kb). destruct (K' Hrp so_gkeys0) as (_ & _ & _ & Kg1 & Kg2 & _).
  apply IH; auto. constructor; cbn; auto.
  - destruct so_syms0 as [k2 E2]. rewrite Ek, E2, <- app_assoc. eauto.
  - apply Kb.
  - intros x. rewrite (proj2 (Kb g)). unfold with_builtin. cbn [fst snd]. destruct (seqb x n); auto.
  - intros x. rewrite Kg2. auto.
Qed.

Lemma global_put x n v st : global x (put_globals (ainsert n v (ss_globals st)) st) =
  if seqb x n then Some v else global x st.
Proof. reflexivity. Qed.

Lemma starts_ok sc b st s : pool_inv seqb (sc_globals sc) -> starts sc b st s ->
  pool_inv seqb (v_gsyms s) /\ (room (v_gsyms s) -> start_ok sc b st s).
Proof.
  intros Hp. induction 1 as [d o|l l' b st s H [IH1 IH2] Hl|n v w b st s H [IH1 IH2] Hv|n v w b st s s' H [IH1 IH2] Hv Hs].
  - split; auto. intros _. constructor; cbn; auto.
    + exists []. rewrite app_nil_r. auto.
    + intros g Hg. exfalso. apply Hg. auto.
    + intros x. unfold by_name. destruct pool_id; exact Logic.I.
    + intros g Hg. exfalso. apply Hg. auto.
    + intros x. unfold by_name. destruct pool_id; exact Logic.I.
    + rewrite repeat_length. auto.
  - split.
    + clear - IH1. revert s IH1. induction l' as [|[n g] l' IH]; intros s Hs; auto. cbn [add_builtins_list].
      pose proof (pool_add_inv seqb seqb_eq (v_gsyms s) n Hs). destruct (pool_add seqb (v_gsyms s) n). apply IH. auto.
    + intros Hr. eapply start_builtins; eauto. apply IH2.
      destruct (builtin_list_entries l' s IH1) as (k & E). unfold room in *. rewrite E, app_length in Hr. lia.
  - unfold insert_global. pose proof (pool_add_inv seqb seqb_eq (v_gsyms s) n IH1) as Hq.
    pose proof (add_named (V := builtin D) (v_gsyms s) n (v_builtins s) IH1) as K.
    pose proof (add_named (V := value) (v_gsyms s) n (v_globals s) IH1) as K'.
    destruct (pool_add_spec' (v_gsyms s) n IH1) as (k & Ek & _).
    destruct (pool_add seqb (v_gsyms s) n) as [p id]. cbn [fst snd] in *. split; auto. intros Hr. cbn [v_gsyms set_globals set_gsyms] in Hr.
    assert (Hrs : room (v_gsyms s)) by (unfold room in *; rewrite Ek, app_length in Hr; lia).
    destruct (IH2 Hrs). destruct (K Hr so_bkeys0) as (_ & _ & _ & Kb1 & Kb2 & _).
    destruct (K' Hr so_gkeys0) as (_ & _ & _ & _ & _ & Kg). constructor; cbn -[global]; auto.
    + destruct so_syms0 as [k2 E2]. rewrite Ek, E2, <- app_assoc. eauto.
    + intros x. rewrite Kb2. auto.
    + apply Kg.
    + intros x. rewrite (proj2 (Kg w)), global_put. destruct (seqb x n); [exact Hv|auto].
  - unfold set_external in Hs. destruct (pool_id seqb (v_gsyms s) n) as [id|] eqn:Ei; [|discriminate].
    destruct (existsb _ _); [|discriminate]. injection Hs as <-. split; auto. intros Hr. destruct (IH2 Hr).
    destruct (put_named (v_gsyms s) n (v_globals s) id w IH1 Hr so_gkeys0 Ei) as [K1 K2]. constructor; cbn -[global]; auto.
    intros x. rewrite K2, global_put. destruct (seqb x n); [exact Hv|auto].
Qed.

(** ** From steps to runs *)
Lemma loop_steps k s s1 j : steps m hst k s s1 -> loop m hst (k + j) s = loop m hst j s1.
Proof. induction 1; cbn; auto. rewrite H. auto. Qed.
Lemma steps_out k s s' : steps m hst k s s' -> forall j, j <= k -> exists s1, loop m hst j s = ROut s1.
Proof.
  induction 1; intros j Hj.
  - destruct j; [|lia]. eexists. reflexivity.
  - destruct j; [eexists; reflexivity|]. cbn. rewrite H. apply IHsteps. lia.
Qed.
Lemma limits_run s : limits m hst (set_count 0 0 s) -> stopped_by_limit m hst s.
Proof.
  intros (k & s1 & e & sp & s2 & H1 & H2 & H3). exists (k + 1), e, sp, s2. split; auto.
  unfold run. rewrite (loop_steps _ _ _ _ H1). cbn. rewrite H2. auto.
Qed.

Lemma named_names ast : ordinary_names ast -> @all_named ordinary_name ast.
Proof.
  intros H. unfold all_named. eapply Forall_impl; [|exact H]. intros e He b Hb. specialize (He b Hb). exact He.
Qed.
Lemma vr_same G cv v w : vr m G cv v w -> same_value v w.
Proof.
  apply grel_mono. intros f g Hf. inversion Hf; subst. split; cbn; [congruence|]. unfold len in *. lia.
Qed.
Lemma plain_vr G cv v w : plain_value v w -> vr m G cv v w.
Proof. apply grel_mono. intros f g []. Qed.

Theorem whole_program ast sc b st s fuel :
  compile m ast = COk sc -> weights ast <= N.to_nat 65535 -> placed_program ast -> ordinary_names ast ->
  starts sc b st s -> length (p_entries (v_gsyms s)) <= N.to_nat 65536 ->
  stopped_by_limit m hst s \/
  agrees m hst fuel (eval m (h_oracle hst) (v_opts s) (h_enter hst) (h_leave hst) b fuel ast st) s.
Proof.
  intros Hc Hw Hpl Hn Hs Hr. destruct (@compile_code_named ordinary_name m ast sc Hc Hw (named_names _ Hn)) as (code & C).
  destruct C. destruct (starts_ok _ _ _ _ sc_glob Hs) as [_ Ho]. specialize (Ho Hr). clear Hs. destruct Ho.
  set (G := p_entries (sc_globals sc)) in *. destruct so_syms0 as [k Ek].
  assert (HG : forall g x, nth_error G g = Some x -> pool_id seqb (v_gsyms s) x = Some (N.of_nat g)).
  { intros g x Hx. rewrite (pool_id_index _ _ so_pool0). assert (Hi : index_of seqb x (p_entries (v_gsyms s)) = Some g).
    { apply index_of_unique; [exact seqb_eq|apply so_pool0|]. rewrite Ek, nth_error_app1; auto. apply nth_error_Some. congruence. }
    rewrite Hi. cbn. rewrite (room_id _ _ _ Hr Hi). auto. }
  assert (HP : forall g x, pool_id seqb (v_gsyms s) x = Some g -> pool_get (v_gsyms s) g = Some x).
  { intros g x Hx. rewrite (pool_id_index _ _ so_pool0) in Hx. destruct (index_of seqb x (p_entries (v_gsyms s))) as [i|] eqn:Hi; [|discriminate].
    cbn in Hx. injection Hx as <-. rewrite (room_id _ _ _ Hr Hi). unfold pool_get. rewrite Nnat.Nat2N.id. eapply index_of_nth; eauto. exact seqb_eq. }
  assert (HB : forall g x, nth_error G g = Some x -> same_builtin (b x) (alookup N.eqb (N.of_nat g) (v_builtins s))).
  { intros g x Hx. specialize (so_builtins0 x). unfold by_name in so_builtins0. rewrite (HG g x Hx) in so_builtins0. exact so_builtins0. }
  assert (Hgl : globs m (v_gsyms s) G [] st (v_globals s)).
  { intros x. specialize (so_globals0 x). unfold by_name in so_globals0.
    destruct (global x st), (match pool_id seqb (v_gsyms s) x with Some g => alookup N.eqb g (v_globals s) | None => None end); cbn in *; auto.
    apply plain_vr. auto. }
  pose proof (top_level m hst (v_opts s) (v_gsyms s) (v_builtins s) G b HG HP HB ast (sc_function sc) code st (v_globals s) (v_data s) fuel
    sc_ops sc_fits sc_code Hpl (named_names _ Hn) so_store0 so_data0 Hgl) as T.
  assert (HA : A (v_opts s) (v_gsyms s) (v_builtins s) (start_fixed (sc_function sc), 0, mkM [] (v_globals s) [] (v_data s)) (set_count 0 0 s)).
  { exists (v_stack s), [], 0, 0, (v_externals s). split.
    - destruct s; cbn in *. subst. reflexivity.
    - split; auto. intros c. cbn. split; [tauto|]. intros (l & Hl). destruct c; discriminate. }
  assert (Hstate : forall cv st' gl' s2, globs m (v_gsyms s) G cv st' gl' -> v_data s2 = ss_data st' -> v_globals s2 = gl' ->
            v_gsyms s2 = v_gsyms s -> same_state st' s2).
  { intros cv st' gl' s2 H1 H2 H3 H4. split; auto. intros x. specialize (H1 x). unfold global_of. rewrite H3, H4.
    destruct (global x st'), (match pool_id seqb (v_gsyms s) x with Some g => alookup N.eqb g gl' | None => None end); cbn in *; auto.
    eapply vr_same; eauto. }
  cbv zeta in T. unfold agrees.
  destruct (eval m (h_oracle hst) (v_opts s) (h_enter hst) (h_leave hst) b fuel ast st) as [v st'|v st'|e st'| |]; auto.
  - destruct T as (x & cv & gl' & T & Hv & Hg). destruct (T _ HA) as [Hl|(j & s1 & s2 & J1 & J2 & J3 & J4 & J5)]; [left; apply limits_run; auto|].
    right. exists (j + 1), x, s2. split; [unfold run; rewrite (loop_steps _ _ _ _ J1); cbn; rewrite J2; auto|]. split; [eapply vr_same; eauto|eauto].
  - destruct T as (cv & gl' & T & Hg). destruct (T _ HA) as [Hl|(j & s1 & sp & s2 & J1 & J2 & J3 & J4 & J5)]; [left; apply limits_run; auto|].
    right. exists (j + 1), sp, s2. split; [unfold run; rewrite (loop_steps _ _ _ _ J1); cbn; rewrite J2; auto|eauto].
  - destruct (T _ HA) as [Hl|(j & s' & J1 & J2)]; [left; apply limits_run; auto|]. right. intros k0 Hk0. unfold run.
    eapply steps_out; eauto. lia.
Qed.
End Start.
