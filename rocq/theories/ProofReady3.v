(** Compiled code never leads the machine astray (C03). *)
From Verif Require Import Base RleVec Pool Vecc Float NumText Bytecode Chunk Value Ast Arith VmOps
                          Compiler Vm Items CodeRel CodeSize SpecParse SpecReady SpecRel ProofRel ProofHeight ProofHeight2
                          ProofCode ProofHeight4 ProofReady ProofReady2.

Ltac Zify.zify_post_hook ::= Z.div_mod_to_equations.

Section Code.
Context (strict : bool).

(** The code of a function, with the states it can be in. *)
Record code_ok (f : function) (bc : list item) (W : nat -> hst -> Prop) : Prop := {
  co_ops : ck_ops (fn_chunk f) = bytes_of bc;
  co_fits : Forall item_fits bc;
  co_flow : forall p z, W p z -> exists pre i post, bc = pre ++ i :: post /\ p = size pre /\
    flow strict W nowhere (size bc) (size pre + ilen i) i z;
  co_const : forall off, In (It (ILoadConst off)) bc -> exists v,
    nth_error (ck_consts (fn_chunk f)) (N.to_nat off) = Some v /\ forall g, ~ fn_in g v;
  co_fun : forall off, In (It (ICreateFunction off)) bc -> exists g,
    nth_error (ck_consts (fn_chunk f)) (N.to_nat off) = Some (VFn (MFun g)) /\
    fn_upcount g = 0%N /\ fun_ok strict (S (N.to_nat (fn_arity g))) g;
  co_clo : forall off caps, In (ItClo off caps) bc -> exists g,
    nth_error (ck_consts (fn_chunk f)) (N.to_nat off) = Some (VFn (MFun g)) /\
    fn_upcount g = len caps /\ fun_ok strict (S (N.to_nat (fn_arity g))) g /\
    Forall (fun c => snd c = false -> N.to_nat (fst c) < N.to_nat (fn_upcount f)) caps;
  co_ups : forall k, In (It (ILoadUpvalue k)) bc \/ In (It (ISetUpvalue k)) bc ->
    N.to_nat k < N.to_nat (fn_upcount f) }.

Lemma fun_ok_code h f : fun_ok strict h f -> exists bc W, code_ok f bc W /\ W 0 (h, false).
Proof using.
  intros H. destruct H as [h f bc H1 H2 (W & S & F) H4 H5 H6 H7]. exists bc, W. split; [constructor; auto|].
  destruct S as [S|(d & _ & [])]; exact S.
Qed.

Definition good (g : mfn) : Prop := exists f us, g = MClo f us /\
  fun_ok strict (S (N.to_nat (fn_arity f))) f /\ length us = N.to_nat (fn_upcount f).

Lemma size_pos x : item_fits x -> 0 < ilen x.
Proof using.
  intros H. unfold ilen. destruct x as [i|i caps]; cbn [item_bytes]; [|cbn; lia].
  destruct H as [H _]. destruct i; cbn [enc fits] in *; try (cbn; lia).
  - destruct (unary_opcode o); [cbn; lia|congruence].
  - destruct (binary_opcode o); [cbn; lia|congruence].
Qed.

Section Fn.
Context (f : function) (bc : list item) (W : nat -> hst -> Prop) (OK : code_ok f bc W).

Lemma goes_W t y : goes W nowhere (size bc) t y -> W t y.
Proof using. intros [H|(d & _ & [])]; exact H. Qed.

Lemma dec pre i post : bc = pre ++ i :: post ->
  decode (ck_ops (fn_chunk f)) (size pre) = Ok (item_instr i, size pre + length (enc (item_instr i))) /\
  size pre < length (ck_ops (fn_chunk f)) /\
  length (enc (item_instr i)) + trailer (fn_chunk f) (item_instr i) = ilen i.
Proof using OK.
  intros E. pose proof (co_fits _ _ _ OK) as Hf. rewrite (co_ops _ _ _ OK). rewrite E in Hf. replace (bytes_of bc) with (bytes_of (pre ++ i :: post)) by (rewrite E; reflexivity).
  assert (Hi : item_fits i) by (rewrite Forall_forall in Hf; apply Hf, in_or_app; right; left; auto).
  split; [apply item_decode; auto|]. split.
  - change (length (bytes_of (pre ++ i :: post))) with (size (pre ++ i :: post)). rewrite size_app, size_cons.
    pose proof (size_pos _ Hi). unfold ilen in *. lia.
  - destruct i as [i|off caps]; unfold ilen; cbn [item_instr item_bytes].
    + destruct i; cbn [trailer]; try lia. destruct Hi as [_ Hi]. exfalso. apply (Hi i). reflexivity.
    + destruct (co_clo _ _ _ OK off caps) as (g & Hg & Hu & _); [rewrite E; apply in_or_app; right; left; auto|].
      cbn [trailer]. rewrite Hg, Hu, app_length, length_caps. unfold len. lia.
Qed.

Lemma bound pre post : bc = pre ++ post -> boundary (fn_chunk f) (size pre).
Proof using OK.
  revert post. induction pre as [|x pre IH] using rev_ind; intros post E; [constructor|].
  rewrite <- app_assoc in E. destruct (dec pre x post E) as (D1 & D2 & D3).
  replace (size (pre ++ [x])) with (size pre + length (enc (item_instr x)) + trailer (fn_chunk f) (item_instr x)).
  - econstructor; eauto.
  - rewrite size_app, size_cons, size_nil. unfold ilen in D3. lia.
Qed.

Lemma W_in p z : W p z -> p < length (ck_ops (fn_chunk f)) /\ boundary (fn_chunk f) p.
Proof using OK.
  intros H. destruct (co_flow _ _ _ OK p z H) as (pre & i & post & E & -> & _).
  split; [apply (dec pre i post E)|]. eapply bound; eauto.
Qed.
End Fn.

Section Machine.
Context {D : Type} (m : mode) (hst : host D).
Notation vm := (vm D).

Fixpoint frames_ok (l : list frame) (base : nat) : Prop :=
  match l with
  | [] => True
  | fr :: rest => exists bc W, code_ok (f_fn fr) bc W /\ f_st fr <= base /\
      W (f_ip fr) (base + 1 - f_st fr, false) /\ length (f_ups fr) = N.to_nat (fn_upcount (f_fn fr)) /\
      frames_ok rest (f_st fr)
  end.

Record inv (s : vm) : Prop := {
  iv_vals : vals good s;
  iv_code : exists bc W b, code_ok (f_fn (v_frame s)) bc W /\ f_st (v_frame s) <= v_sp s /\
    W (ip s) (v_sp s - f_st (v_frame s), b) /\ length (v_blocks s) = (if (b : bool) then 1 else 0);
  iv_ups : length (f_ups (v_frame s)) = N.to_nat (fn_upcount (f_fn (v_frame s)));
  iv_frames : frames_ok (v_frames s) (f_st (v_frame s)) }.

Lemma inv_next (s s' : vm) bc W b p h : vals good s' -> code_ok (f_fn (v_frame s)) bc W ->
  v_frames s' = v_frames s -> v_frame s' = fr_set_ip p (v_frame s) ->
  length (f_ups (v_frame s)) = N.to_nat (fn_upcount (f_fn (v_frame s))) ->
  frames_ok (v_frames s) (f_st (v_frame s)) ->
  W p (h, b) -> v_sp s' = f_st (v_frame s) + h -> length (v_blocks s') = (if (b : bool) then 1 else 0) -> inv s'.
Proof using.
  intros V C F1 F2 U FR HW Hsp Hb. constructor; auto.
  - exists bc, W, b. rewrite F2. cbn. unfold ip. rewrite F2. cbn. rewrite Hsp. split; [auto|]. split; [lia|].
    split; [|auto]. replace (f_st (v_frame s) + h - f_st (v_frame s)) with h by lia. exact HW.
  - rewrite F2. exact U.
  - rewrite F1, F2. exact FR.
Qed.

Lemma const_nth (c : chunk value) k v : chunk_get_constant c k = Ok v -> nth_error (ck_consts c) (N.to_nat k) = Some v.
Proof using. unfold chunk_get_constant. destruct (nth_error _ _); congruence. Qed.

Theorem inv_step s s' : inv s -> step m hst s = SNext s' -> inv s'.
Proof using.
  intros [V (bc & W & b & C & Hst & HW & Hb) U FR] E. unfold step in E.
  pose proof (tick_spec hst good s V) as T. unfold wp in T. destruct (tick hst s) as [u s1| |]; try discriminate.
  destruct T as [V1 F1 G1 B1 S1]. destruct (_ <=? _); [discriminate|].
  assert (Hcc : cur_chunk s1 = fn_chunk (f_fn (v_frame s))) by (unfold cur_chunk, fr_chunk; rewrite G1; auto).
  assert (Hip : ip s1 = ip s) by (unfold ip; rewrite G1; auto).
  rewrite Hcc, Hip in E. destruct (co_flow _ _ _ C _ _ HW) as (pre & x & post & Ebc & Ep & Hf).
  destruct (dec _ _ _ C pre x post Ebc) as (D1 & D2 & D3). rewrite Ep, D1 in E.
  set (next := size pre + length (enc (item_instr x))) in *.
  set (s2 := set_ip next s1) in *.
  assert (V2 : vals good s2) by (apply vals_ip; auto).
  set (h := v_sp s - f_st (v_frame s)) in *.
  destruct Hf as (Ho & Hslot & Hf).
  assert (Hsp : v_sp s2 = f_st (v_frame s) + h) by (cbn; rewrite S1; unfold h; lia).
  assert (Hfr2 : v_frame s2 = fr_set_ip next (v_frame s)) by (cbn; rewrite G1; auto).
  assert (Hfs2 : v_frames s2 = v_frames s) by (cbn; auto).
  assert (Hb2 : v_blocks s2 = v_blocks s) by (cbn; auto).
  assert (Hc2 : cur_chunk s2 = fn_chunk (f_fn (v_frame s))) by (unfold cur_chunk, fr_chunk; rewrite Hfr2; auto).
  assert (Hip2 : ip s2 = next) by (unfold ip; rewrite Hfr2; auto).
  assert (Hin : In x bc) by (rewrite Ebc; apply in_or_app; right; left; auto).
  assert (G : forall t y, goes W nowhere (size bc) t y -> W t y) by (apply goes_W).
  assert (At : forall p k y s3, at_ip good s2 s3 p k -> W p (y, b) -> k = f_st (v_frame s) + y -> s3 = s' -> inv s').
  { intros p k y s3 (V3 & F3 & G3 & B3 & S3) Hw Hk <-. eapply (inv_next s s3 bc W b p y); auto; try congruence.
    - rewrite G3, Hfr2. reflexivity. }
  assert (Plain : is_plain (item_instr x) -> goes W nowhere (size bc) (size pre + ilen x)
            (h - operands (item_instr x) + results (item_instr x), b) ->
            match exec m hst (item_instr x) s2 with AOk _ s' => SNext s' | AErr e sp s' => SErr e sp s' | APanic => SPanic end = SNext s' ->
            inv s').
  { intros Hp Hg Ex.
    assert (Ht : trailer (fn_chunk (f_fn (v_frame s))) (item_instr x) = 0).
    { destruct x as [i|off caps]; cbn [item_instr] in *; [destruct i; auto; contradiction|contradiction]. }
    pose proof (exec_plain m hst good (item_instr x) s2 Hp V2 ltac:(lia)) as P.
    assert (P1 : wp (exec m hst (item_instr x)) s2 (fun _ s' => moved good s2 s' (v_sp s2 - operands (item_instr x) + results (item_instr x)))).
    { apply P.
      - intros k v Ek Ev. rewrite Hc2 in Ev. apply const_nth in Ev. destruct x as [i|off caps]; cbn in Ek; [subst i|discriminate].
        destruct (co_const _ _ _ C k Hin) as (v' & Hv & Hno). assert (v' = v) as -> by congruence.
        intros g Hg'. exfalso. eapply Hno; eauto.
      - intros k g Ek Ev. rewrite Hc2 in Ev. apply const_nth in Ev. destruct x as [i|off caps]; cbn in Ek; [subst i|discriminate].
        destruct (co_fun _ _ _ C k Hin) as (g' & Hg' & Hu & Hok). assert (g' = g) as -> by congruence.
        exists g, []. split; [auto|]. split; [auto|]. rewrite Hu. reflexivity. }
    unfold wp in P1. destruct (exec m hst (item_instr x) s2) as [[] s3| |]; try discriminate. injection Ex as ->.
    eapply At; [apply moved_at; exact P1| |rewrite Hsp|reflexivity]; [rewrite Hip2; unfold next; rewrite Ht, Nat.add_0_r in D3; rewrite D3; apply G; exact Hg|lia]. }
  assert (Ht0 : (forall k, item_instr x <> ICreateClosure k) -> size pre + ilen x = next).
  { intros Hk. rewrite <- D3. destruct (item_instr x) eqn:Ei; cbn [trailer]; unfold next; rewrite ?Ei; try lia. exfalso. eapply Hk; eauto. }
  destruct (item_instr x) eqn:Ei; try (apply Plain; [exact I|exact Hf|exact E]); cbn [operands] in Ho; cbv beta iota in Hf, E.
  - (* Halt *) contradiction.
  - (* Return *) subst b. destruct (return_spec m hst good s2 s' V2 E) as (fr & rest & R1 & R2 & R3 & R4 & R5 & R6).
    rewrite Hfs2 in R1. rewrite R1 in FR. destruct FR as (bc' & W' & C' & Hst' & HW' & U' & FR').
    assert (Hst2 : f_st (v_frame s2) = f_st (v_frame s)) by (rewrite Hfr2; auto).
    constructor; auto.
    + exists bc', W', false. unfold ip. rewrite R4, R6, Hst2. split; [auto|]. split; [lia|].
      split; [replace (S (f_st (v_frame s))) with (f_st (v_frame s) + 1) by lia; exact HW'|]. rewrite R5, Hb2. exact Hb.
    + rewrite R4. exact U'.
    + rewrite R3, R4. exact FR'.
  - (* CreateClosure *) destruct x as [i0|off caps]; cbn in Ei.
    { subst i0. pose proof (co_fits _ _ _ C) as Hfit. rewrite Forall_forall in Hfit. specialize (Hfit _ Hin). destruct Hfit as [_ K].
      exfalso. eapply K; reflexivity. }
    injection Ei as ->. destruct (co_clo _ _ _ C i caps Hin) as (g & Hg & Hu & Hok & _).
    pose proof (exec_clo m hst good i g s2 V2) as P. unfold wp in P.
    destruct (exec m hst (ICreateClosure i) s2) as [[] s3| |]; try discriminate. injection E as ->.
    eapply At; [apply P| | |reflexivity].
    + rewrite Hc2. unfold chunk_get_constant. rewrite Hg. reflexivity.
    + intros us Hus. exists g, us. auto.
    + rewrite Hip2. cbn [trailer] in D3. rewrite Hg in D3. cbn [operands results] in Hf.
      replace (next + 3 * N.to_nat (fn_upcount g)) with (size pre + ilen (ItClo i caps)) by (unfold next; lia). apply G. exact Hf.
    + lia.
  - (* CallFunction *) destruct Hf as [-> Hg]. pose proof (exec_call m hst good argc s2 V2) as P. unfold wp in P.
    destruct (exec m hst (ICallFunction argc) s2) as [[] s3| |]; try discriminate. injection E as ->.
    destruct P as (c & f & ups & Hv & -> & -> & Hn & V3 & F3 & G3 & B3 & S3).
    destruct (Hv c (fi_fn c)) as (f & us & -> & Hok & Hus). cbn [mfn_function] in *.
    destruct (fun_ok_code _ _ Hok) as (bc' & W' & C' & HW').
    assert (Hbase : v_sp s2 - N.to_nat argc - 1 = f_st (v_frame s) + (h - N.to_nat argc - 1)) by lia.
    constructor; auto.
    + exists bc', W', false. unfold ip. rewrite G3, S3, B3, Hb2, Hsp. cbn [f_fn f_st f_ip]. split; [auto|]. split; [lia|].
      split; [|exact Hb]. rewrite <- Hn in HW'. replace (_ - _) with (S (N.to_nat argc)) by lia. exact HW'.
    + rewrite G3. exact Hus.
    + rewrite F3, G3. cbn [f_st frames_ok]. exists bc, W. rewrite Hfr2. cbn [fr_set_ip f_fn f_st f_ip f_ups]. split; [auto|].
      split; [lia|]. split; [|split; [auto|rewrite Hfs2; exact FR]].
      rewrite <- (Ht0 ltac:(discriminate)). apply G. replace (_ + 1 - _) with (h - N.to_nat argc) by lia. exact Hg.
  - (* BlockResult *) destruct Hf as [-> Hg]. pose proof (exec_result m hst good s2 V2) as P. unfold wp in P.
    destruct (exec m hst IBlockResult s2) as [[] s3| |]; try discriminate. injection E as ->.
    destruct P as (v & V3 & F3 & G3 & B3 & S3). eapply (inv_next s s' bc W true next (h - 1)); auto; try congruence.
    + rewrite <- (Ht0 ltac:(discriminate)). auto.
    + lia.
    + rewrite B3, Hb2. cbn. congruence.
  - (* BlockReturn *) destruct Hf as [-> Hg]. pose proof (exec_breturn m hst good s2 V2) as P. unfold wp in P.
    destruct (exec m hst IBlockReturn s2) as [[] s3| |]; try discriminate. injection E as ->.
    destruct P as (v & V3 & F3 & G3 & B3 & S3). eapply (inv_next s s' bc W false next (h + 1)); auto; try congruence.
    + rewrite <- (Ht0 ltac:(discriminate)). auto.
    + lia.
    + rewrite Hb2 in B3. rewrite B3 in Hb. cbn in Hb. lia.
  - (* JumpIfFalse *) destruct Hf as [G0 G2]. rewrite (Ht0 ltac:(discriminate)) in *.
    pose proof (exec_if m hst good off s2 V2) as P. unfold wp in P.
    destruct (exec m hst (IJumpIfFalse off) s2) as [[] s3| |]; try discriminate. injection E as ->.
    rewrite Hip2 in P. destruct P as [P|P]; (eapply At; [exact P|apply G; eassumption|lia|reflexivity]).
  - (* JumpIfNotEq *) destruct Hf as [G0 G2]. rewrite (Ht0 ltac:(discriminate)) in *.
    pose proof (exec_neq m hst good off s2 V2) as P. unfold wp in P.
    destruct (exec m hst (IJumpIfNotEq off) s2) as [[] s3| |]; try discriminate. injection E as ->.
    rewrite Hip2 in P. destruct P as [P|P]; (eapply At; [exact P|apply G; eassumption|lia|reflexivity]).
  - (* JumpForward *) rewrite (Ht0 ltac:(discriminate)) in *.
    pose proof (exec_jump m hst good off s2 V2) as P. unfold wp in P.
    destruct (exec m hst (IJumpForward off) s2) as [[] s3| |]; try discriminate. injection E as ->.
    rewrite Hip2 in P. eapply At; [exact P|apply G; eassumption|lia|reflexivity].
  - (* JumpBackward *) destruct Hf as [G0 G2]. rewrite (Ht0 ltac:(discriminate)) in *.
    pose proof (exec_back m hst good off s2 V2) as P. unfold wp in P.
    destruct (exec m hst (IJumpBackward off) s2) as [[] s3| |]; try discriminate. injection E as ->.
    rewrite Hip2 in P. eapply At; [exact P|apply G; eassumption|lia|reflexivity].
  - (* IterNext *) destruct Hf as [G0 G2]. rewrite (Ht0 ltac:(discriminate)) in *.
    pose proof (exec_iter m hst good off s2 V2) as P. unfold wp in P.
    destruct (exec m hst (IIterNext off) s2) as [[] s3| |]; try discriminate. injection E as ->.
    rewrite Hip2 in P. destruct P as [P|P]; (eapply At; [exact P|apply G; eassumption|lia|reflexivity]).
Qed.

Lemma inv_reach s s' : inv s -> reach m hst s s' -> inv s'.
Proof using. intros H R. induction R; auto. eapply inv_step; eauto. Qed.

Lemma inv_ready s : inv s -> ready s.
Proof using.
  intros [V (bc & W & b & C & Hst & HW & Hb) U FR]. set (h := v_sp s - f_st (v_frame s)) in *.
  destruct (W_in _ _ _ C _ _ HW) as [In1 Bd1].
  destruct (co_flow _ _ _ C _ _ HW) as (pre & x & post & Ebc & Ep & Ho & Hslot & Hf).
  destruct (dec _ _ _ C pre x post Ebc) as (D1 & D2 & D3).
  set (next := size pre + length (enc (item_instr x))) in *.
  assert (Hin : In x bc) by (rewrite Ebc; apply in_or_app; right; left; auto).
  assert (G : forall t y, goes W nowhere (size bc) t y -> t < length (ck_ops (cur_chunk s)) /\ boundary (cur_chunk s) t).
  { intros t y Hg. apply goes_W in Hg. eapply (W_in _ _ _ C); eauto. }
  assert (Hn : size pre + ilen x = next + trailer (cur_chunk s) (item_instr x)) by (unfold next, cur_chunk, fr_chunk; lia).
  constructor; [exact In1|exact Bd1|].
  exists (item_instr x), next. change (cur_chunk s) with (fn_chunk (f_fn (v_frame s))). rewrite Ep.
  split; [exact D1|]. split; [lia|]. split; [|split; [|split; [|split]]].
  - intros Ei. rewrite Ei in Hf. destruct Hf as [-> _]. intros K. rewrite K in Hb. discriminate.
  - intros k Hk. destruct x as [i|off caps]; cbn [item_instr] in Hk.
    + destruct i; try discriminate; injection Hk as <-.
      * destruct (co_const _ _ _ C _ Hin) as (v & Hv & _). congruence.
      * destruct (co_fun _ _ _ C _ Hin) as (v & Hv & _). congruence.
      * pose proof (co_fits _ _ _ C) as Hfit. rewrite Forall_forall in Hfit. destruct (Hfit _ Hin) as [_ K]. exfalso. eapply K; reflexivity.
    + injection Hk as <-. destruct (co_clo _ _ _ C _ _ Hin) as (v & Hv & _). congruence.
  - intros k Hk. rewrite U. destruct x as [i|off caps]; cbn [item_instr] in Hk; [|discriminate].
    destruct i; try discriminate; injection Hk as <-; apply (co_ups _ _ _ C); auto.
  - intros N1 N2 N3. change (fn_chunk (f_fn (v_frame s))) with (cur_chunk s). rewrite <- Hn.
    destruct (item_instr x) eqn:Ei; cbv beta iota in Hf;
      try (exfalso; contradiction); try (exfalso; eapply N2; reflexivity); try (exfalso; eapply N3; reflexivity);
      try (exfalso; apply N1; reflexivity);
      try (destruct Hf as [Hf1 Hf2]); eapply G; eassumption.
  - intros Hj. change (fn_chunk (f_fn (v_frame s))) with (cur_chunk s).
    assert (Hn0 : size pre + ilen x = next) by (rewrite Hn; destruct (item_instr x); try discriminate; cbn; lia).
    rewrite Hn0 in Hf.
    destruct (item_instr x) eqn:Ei; try discriminate; cbv beta iota in Hf; cbn [jump_target];
      try (destruct Hf as [Hf1 Hf2]; eexists; split; [reflexivity|]; eapply G; eassumption).
    + eexists; split; [reflexivity|]; eapply G; eassumption.
    + destruct Hf as [Hf1 Hf2]. replace (next <? N.to_nat off) with false by (symmetry; apply Nat.ltb_ge; lia).
      eexists; split; [reflexivity|]. eapply G; eassumption.
Qed.

Lemma inv_slots s : strict = true -> inv s -> slots_ready s.
Proof using.
  intros Hs [V (bc & W & b & C & Hst & HW & Hb) U FR] i next k Hd Hk. set (h := v_sp s - f_st (v_frame s)) in *.
  destruct (co_flow _ _ _ C _ _ HW) as (pre & x & post & Ebc & Ep & Ho & Hslot & Hf).
  destruct (dec _ _ _ C pre x post Ebc) as (D1 & D2 & D3).
  change (cur_chunk s) with (fn_chunk (f_fn (v_frame s))) in Hd. rewrite Ep, D1 in Hd. injection Hd as <- _.
  specialize (Hslot Hs). destruct x as [i|off caps]; cbn [item_instr] in Hk; [|discriminate].
  destruct i; try discriminate; injection Hk as <-; cbn in Hslot; lia.
Qed.

Lemma prepared_inv sc s : fun_ok strict 0 (sc_function sc) -> fn_upcount (sc_function sc) = 0%N ->
  prepared sc s -> inv s.
Proof using.
  intros Hf Hu. destruct (fun_ok_code _ _ Hf) as (bc & W & C & HW).
  assert (Vok : forall v : value, (forall f, ~ fn_in f v) -> vok good v) by (intros v Hv g Hg; exfalso; eapply Hv; eauto).
  induction 1 as [d o|s l H [V K U FR] Hl|s n v H [V K U FR] Hv|s n v s' H [V K U FR] Hv E|s H [V K U FR]].
  - constructor; cbn.
    + constructor; cbn; auto. apply Forall_forall. intros v Hv. apply repeat_spec in Hv. subst. apply vok_none.
    + exists bc, W, false. cbn. auto.
    + rewrite Hu. reflexivity.
    + exact I.
  - assert (G : forall (l : list (rstring * builtin D)) s, inv s -> Forall (fun nb => honest_builtin (snd nb)) l -> inv (add_builtins_list l s)).
    { clear. induction l as [|[n b] t IH]; intros s Hs Hl; cbn; auto. inversion Hl; subst.
      destruct (pool_add seqb (v_gsyms s) n) as [p id]. apply IH; auto. destruct Hs as [[] K U FR].
      constructor; auto. constructor; auto. cbn. apply (ainsert_forall (fun b => honest_builtin b)); auto. }
    apply G; auto. constructor; auto.
  - unfold insert_global. destruct (pool_add _ _ _) as [p id]. destruct V. constructor; auto. constructor; auto.
    cbn. apply (ainsert_forall (vok good)); auto.
  - unfold set_external in E. destruct (pool_id _ _ _); [|discriminate]. destruct (existsb _ _); [|discriminate].
    injection E as <-. destruct V. constructor; auto. constructor; auto. cbn. apply (ainsert_forall (vok good)); auto.
  - destruct V. constructor; auto. constructor; auto.
Qed.
End Machine.
End Code.

Lemma main_ready {D} m (hst : host D) ast sc s0 s : compile m ast = COk sc -> weights ast <= u16max ->
  complete_program ast -> prepared sc s0 -> reach m hst s0 s -> ready s.
Proof.
  intros Hc Hw Hp H0 HR. apply (inv_ready false). eapply inv_reach; [|exact HR].
  eapply prepared_inv; [eapply script_heights; eauto; discriminate| |exact H0].
  destruct (ProofCode7.compile_code m ast sc Hc Hw) as [code []]; auto.
Qed.
Lemma main_slots {D} m (hst : host D) ast sc s0 s : compile m ast = COk sc -> weights ast <= u16max ->
  complete_program ast -> (forall n sp, In (n, sp) ast -> tame n) -> prepared sc s0 -> reach m hst s0 s -> slots_ready s.
Proof.
  intros Hc Hw Hp Ht H0 HR. apply (inv_slots true); [reflexivity|]. eapply inv_reach; [|exact HR].
  eapply prepared_inv; [eapply script_heights; eauto| |exact H0].
  destruct (ProofCode7.compile_code m ast sc Hc Hw) as [code []]; auto.
Qed.
