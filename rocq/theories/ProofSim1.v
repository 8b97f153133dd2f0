(** The machine on compiled code, one lemma per instruction: states without the parts
    that do not matter for what a program means (clock readings, the unused part of the
    stack, the order of the open captures). *)
From Verif Require Import Base RleVec Pool Vecc Float NumText Bytecode Chunk Value Ast Arith VmOps
                          Compiler Vm Items SpecVm ProofVars.

(** The instructions [c] stand in function [f] at position [ip]. *)
Definition code_at (f : function) (ip : nat) (c : list item) : Prop :=
  exists pre post, ck_ops (fn_chunk f) = bytes_of (pre ++ c ++ post) /\
                   Forall item_fits (pre ++ c ++ post) /\ size pre = ip.

Lemma code_app f ip a b : code_at f ip (a ++ b) -> code_at f ip a /\ code_at f (ip + size a) b.
Proof.
  intros (pre & post & H1 & H2 & H3). rewrite <- app_assoc in H1, H2. split.
  - exists pre, (b ++ post). auto.
  - exists (pre ++ a), post. rewrite <- app_assoc, size_app, H3. auto.
Qed.
Lemma code_cons f ip x b : code_at f ip (x :: b) ->
  code_at f ip [x] /\ code_at f (ip + length (item_bytes x)) b.
Proof.
  intros H. apply (code_app f ip [x] b) in H. rewrite size_cons, size_nil, Nat.add_0_r in H. exact H.
Qed.

Lemma enc_pos i : fits i -> 0 < length (enc i).
Proof.
  destruct i; cbn [enc]; intros H; try (cbn; lia).
  - cbn in H. destruct (unary_opcode o); [cbn; lia|congruence].
  - cbn in H. destruct (binary_opcode o); [cbn; lia|congruence].
Qed.
Lemma code_decode f ip x : code_at f ip [x] ->
  decode (ck_ops (fn_chunk f)) ip = Ok (item_instr x, ip + length (enc (item_instr x))) /\
  (chunk_len (fn_chunk f) <=? ip) = false.
Proof.
  intros (pre & post & H1 & H2 & H3). cbn [app] in *. subst ip.
  apply Forall_app in H2 as [_ H2]. inversion H2; subst.
  rewrite H1. split; [apply item_decode; auto|].
  unfold chunk_len. rewrite H1. apply Nat.leb_gt. change (length (bytes_of (pre ++ x :: post))) with (size (pre ++ x :: post)).
  rewrite size_app, size_cons.
  enough (0 < length (item_bytes x)) by lia.
  destruct x as [i|i caps]; cbn [item_bytes item_fits] in *.
  - apply enc_pos. tauto.
  - rewrite app_length. cbn. lia.
Qed.

Section Machine.
Context {D : Type} (m : mode) (hst : host D) (opts : options) (gs : pool rstring)
        (bs : list (N * builtin D)).

Record fixed := mkFx { k_fn : function; k_up : list nat; k_base : nat; k_frames : list frame;
                       k_blocks : list value; k_exits : list (xfn D) }.
Record mov := mkM { m_stk : list value; m_gl : list (N * value); m_heap : list upvalue; m_data : D }.
Definition conf := (fixed * nat * mov)%type.

Definition conc (F : fixed) (ip : nat) (M : mov) (rest : list value) (opens : list nat)
    (reads n : nat) (ext : list N) : vm D :=
  mkVm (m_data M) bs (k_exits F) (k_blocks F) (m_gl M) gs ext opens (m_heap M) (k_frames F)
       (mkFrame (k_fn F) (k_up F) ip (k_base F)) (m_stk M ++ rest) (length (m_stk M)) reads n opts.

Definition fit (M : mov) (rest : list value) (opens : list nat) : Prop :=
  length (m_stk M ++ rest) = o_stack_size opts /\
  forall c, In c opens <-> exists l, nth_error (m_heap M) c = Some (Open l).
Definition A (c : conf) (s : vm D) : Prop :=
  let '(F, ip, M) := c in
  exists rest opens reads n ext, s = conc F ip M rest opens reads n ext /\ fit M rest opens.

(** ** Runs *)
Inductive steps : nat -> vm D -> vm D -> Prop :=
| st_0 s : steps 0 s s
| st_S k s s1 s2 : step m hst s = SNext s1 -> steps k s1 s2 -> steps (S k) s s2.
Lemma steps_trans a b s s1 s2 : steps a s s1 -> steps b s1 s2 -> steps (a + b) s s2.
Proof. induction 1; cbn; eauto using steps. Qed.

Definition stopped (e : error) : Prop := e = EStackOverflow \/ exists l, e = ERuntimeLimit l.
Definition limits (s : vm D) : Prop :=
  exists k s1 e sp s2, steps k s s1 /\ step m hst s1 = SErr e sp s2 /\ stopped e.
Lemma limits_back k s s1 : steps k s s1 -> limits s1 -> limits s.
Proof.
  intros H (j & s2 & e & sp & s3 & H1 & H2 & H3). exists (k + j), s2, e, sp, s3.
  split; auto. eapply steps_trans; eauto.
Qed.

Definition goes (k : nat) (c c' : conf) : Prop :=
  forall s, A c s -> limits s \/ exists s', steps k s s' /\ A c' s'.
Definition failing (c : conf) (e : error) (d : D) (gl : list (N * value)) : Prop :=
  forall s, A c s -> limits s \/
    exists k s1 sp s2, steps k s s1 /\ step m hst s1 = SErr e sp s2 /\
                       v_data s2 = d /\ v_globals s2 = gl /\ v_gsyms s2 = gs.
Definition finishes (c : conf) (v : value) (d : D) (gl : list (N * value)) : Prop :=
  forall s, A c s -> limits s \/
    exists k s1 s2, steps k s s1 /\ step m hst s1 = SDone v s2 /\
                    v_data s2 = d /\ v_globals s2 = gl /\ v_gsyms s2 = gs.
Definition lasts (n : nat) (c : conf) : Prop :=
  forall s, A c s -> limits s \/ exists k s', n <= k /\ steps k s s'.

Lemma goes_0 c : goes 0 c c.
Proof. intros s H. right. exists s. split; [constructor|auto]. Qed.
Lemma goes_trans a b c c1 c2 : goes a c c1 -> goes b c1 c2 -> goes (a + b) c c2.
Proof.
  intros H1 H2 s Hs. destruct (H1 s Hs) as [|(s1 & K1 & A1)]; auto.
  destruct (H2 s1 A1) as [L|(s2 & K2 & A2)]; [left; eapply limits_back; eauto|].
  right. exists s2. split; auto. eapply steps_trans; eauto.
Qed.
Lemma goes_fails k c c1 e d gl : goes k c c1 -> failing c1 e d gl -> failing c e d gl.
Proof.
  intros H1 H2 s Hs. destruct (H1 s Hs) as [|(s1 & K1 & A1)]; auto.
  destruct (H2 s1 A1) as [L|(j & s2 & sp & s3 & K2 & R)]; [left; eapply limits_back; eauto|].
  right. exists (k + j), s2, sp, s3. split; auto. eapply steps_trans; eauto.
Qed.
Lemma goes_finishes k c c1 v d gl : goes k c c1 -> finishes c1 v d gl -> finishes c v d gl.
Proof.
  intros H1 H2 s Hs. destruct (H1 s Hs) as [|(s1 & K1 & A1)]; auto.
  destruct (H2 s1 A1) as [L|(j & s2 & s3 & K2 & R)]; [left; eapply limits_back; eauto|].
  right. exists (k + j), s2, s3. split; auto. eapply steps_trans; eauto.
Qed.
Lemma goes_lasts k n c c1 : goes k c c1 -> lasts n c1 -> lasts (k + n) c.
Proof.
  intros H1 H2 s Hs. destruct (H1 s Hs) as [|(s1 & K1 & A1)]; auto.
  destruct (H2 s1 A1) as [L|(j & s2 & K2 & R)]; [left; eapply limits_back; eauto|].
  right. exists (k + j), s2. split; [lia|]. eapply steps_trans; eauto.
Qed.
Lemma lasts_0 c : lasts 0 c.
Proof. intros s _. right. exists 0, s. split; [lia|constructor]. Qed.
Lemma lasts_le n n' c : n' <= n -> lasts n c -> lasts n' c.
Proof. intros H1 H2 s Hs. destruct (H2 s Hs) as [|(k & s' & K & R)]; auto. right. exists k, s'. split; [lia|auto]. Qed.

(** ** One step *)
Lemma step_item F ip M rest opens reads n ext x : code_at (k_fn F) ip [x] ->
  let s := conc F ip M rest opens reads n ext in
  limits s \/ exists reads' n',
    step m hst s =
      let s' := conc F (ip + length (enc (item_instr x))) M rest opens reads' n' ext in
      match item_instr x with
      | IReturn => do_return m hst s'
      | _ => match exec m hst (item_instr x) s' with
             | AOk _ s' => SNext s'
             | AErr e sp s' => SErr e sp s'
             | APanic => SPanic
             end
      end.
Proof.
  intros Hc. cbv zeta. destruct (code_decode _ _ _ Hc) as [Hd Hl].
  assert (K : forall s1 : vm D, cur_chunk s1 = fn_chunk (k_fn F) -> Vm.ip s1 = ip ->
    (if chunk_len (cur_chunk s1) <=? Vm.ip s1 then
        SErr EInstructionOverflow (chunk_get_span (cur_chunk s1) (Vm.ip s1)) s1
      else
        match decode (ck_ops (cur_chunk s1)) (Vm.ip s1) with
        | Ok (i, ip') =>
            match i with
            | IReturn => do_return m hst (set_ip ip' s1)
            | _ => match exec m hst i (set_ip ip' s1) with
                   | AOk _ s' => SNext s'
                   | AErr e sp s' => SErr e sp s'
                   | APanic => SPanic
                   end
            end
        | _ => SPanic
        end) = let s' := set_ip (ip + length (enc (item_instr x))) s1 in
      match item_instr x with
      | IReturn => do_return m hst s'
      | _ => match exec m hst (item_instr x) s' with
             | AOk _ s' => SNext s'
             | AErr e sp s' => SErr e sp s'
             | APanic => SPanic
             end
      end).
  { intros s1 E1 E2. rewrite E1, E2, Hl, Hd. reflexivity. }
  destruct (64 <? n) eqn:En.
  - destruct (o_max_runtime opts <? h_clock hst reads)%N eqn:El.
    + left. exists 0. do 4 eexists. split; [constructor|]. split.
      * unfold step, tick, has_runtime_exceeded, abind, agets, amod. cbn [conc v_n v_reads v_opts set_count].
        rewrite En. cbn beta iota. cbn [conc v_n v_reads v_opts set_count]. rewrite El. unfold errorf. reflexivity.
      * right. eauto.
    + right. exists (S reads), 0. unfold step, tick, has_runtime_exceeded, abind, agets, amod.
      cbn [conc v_n v_reads v_opts set_count]. rewrite En. cbn beta iota.
      cbn [conc v_n v_reads v_opts set_count]. rewrite El. unfold aret. cbn beta iota. apply K; reflexivity.
  - right. exists reads, (S n). unfold step, tick, abind, agets, amod.
    cbn [conc v_n v_reads v_opts set_count]. rewrite En. cbn beta iota. apply K; reflexivity.
Qed.

Lemma go_exec F ip M x c' : code_at (k_fn F) ip [x] -> item_instr x <> IReturn ->
  (forall rest opens reads n ext, fit M rest opens ->
     let r := exec m hst (item_instr x) (conc F (ip + length (enc (item_instr x))) M rest opens reads n ext) in
     (exists e sp s, r = AErr e sp s /\ stopped e) \/ exists s', r = AOk tt s' /\ A c' s') ->
  goes 1 (F, ip, M) c'.
Proof.
  intros Hc Hi H s (rest & opens & reads & n & ext & -> & Hf).
  destruct (step_item F ip M rest opens reads n ext x Hc) as [|(reads' & n' & E)]; auto.
  assert (E' : step m hst (conc F ip M rest opens reads n ext) =
    match exec m hst (item_instr x) (conc F (ip + length (enc (item_instr x))) M rest opens reads' n' ext) with
             | AOk _ s' => SNext s'
             | AErr e sp s' => SErr e sp s'
             | APanic => SPanic
             end).
  { rewrite E. cbv zeta. destruct (item_instr x); try reflexivity. congruence. }
  clear E. destruct (H rest opens reads' n' ext Hf) as [(e & sp & s & Er & St)|(s' & Er & Ha)]; rewrite Er in E'.
  - left. exists 0. do 4 eexists. split; [constructor|]. split; eauto.
  - right. exists s'. split; auto. econstructor; [eauto|constructor].
Qed.

Lemma fail_exec F ip M x e d gl : code_at (k_fn F) ip [x] -> item_instr x <> IReturn ->
  (forall rest opens reads n ext, fit M rest opens ->
     let r := exec m hst (item_instr x) (conc F (ip + length (enc (item_instr x))) M rest opens reads n ext) in
     (exists e sp s, r = AErr e sp s /\ stopped e) \/
     exists sp s', r = AErr e sp s' /\ v_data s' = d /\ v_globals s' = gl /\ v_gsyms s' = gs) ->
  failing (F, ip, M) e d gl.
Proof.
  intros Hc Hi H s (rest & opens & reads & n & ext & -> & Hf).
  destruct (step_item F ip M rest opens reads n ext x Hc) as [|(reads' & n' & E)]; auto.
  assert (E' : step m hst (conc F ip M rest opens reads n ext) =
    match exec m hst (item_instr x) (conc F (ip + length (enc (item_instr x))) M rest opens reads' n' ext) with
             | AOk _ s' => SNext s'
             | AErr e sp s' => SErr e sp s'
             | APanic => SPanic
             end).
  { rewrite E. cbv zeta. destruct (item_instr x); try reflexivity. congruence. }
  clear E. destruct (H rest opens reads' n' ext Hf) as [(e' & sp & s & Er & St)|(sp & s' & Er & Ha)]; rewrite Er in E'.
  - left. exists 0. do 4 eexists. split; [constructor|]. split; eauto.
  - right. exists 0. do 3 eexists. split; [constructor|]. split; eauto.
Qed.

(** ** Stack operations *)
Lemma push_c F ip t gl h d rest o r n e v :
  length (t ++ rest) = o_stack_size opts ->
  match rest with
  | [] => exists sp s, push v (conc F ip (mkM t gl h d) rest o r n e) = AErr EStackOverflow sp s
  | _ :: rest' => push v (conc F ip (mkM t gl h d) rest o r n e)
                  = AOk tt (conc F ip (mkM (t ++ [v]) gl h d) rest' o r n e)
  end.
Proof.
  intros H. unfold push. cbn [conc v_opts v_sp m_stk v_stack].
  destruct rest as [|x rest'].
  - rewrite app_nil_r in H. rewrite H, Nat.leb_refl. unfold error_0. eauto.
  - rewrite app_length in H. cbn in H.
    replace (o_stack_size opts <=? length t) with false by (symmetry; apply Nat.leb_gt; lia).
    replace (length t <? length (t ++ x :: rest')) with true
      by (symmetry; apply Nat.ltb_lt; rewrite app_length; cbn; lia).
    unfold conc, set_stack. cbn. f_equal. f_equal.
    + rewrite <- (Nat.add_0_r (length t)), upd_app_r. cbn. rewrite <- app_assoc. reflexivity.
    + rewrite app_length. cbn. lia.
Qed.
Lemma pushu_c F ip t gl h d x rest o r n e v :
  push_unchecked v (conc F ip (mkM t gl h d) (x :: rest) o r n e)
  = AOk tt (conc F ip (mkM (t ++ [v]) gl h d) rest o r n e).
Proof.
  unfold push_unchecked. cbn [conc v_opts v_sp m_stk v_stack].
  replace (length t <? length (t ++ x :: rest)) with true
      by (symmetry; apply Nat.ltb_lt; rewrite app_length; cbn; lia).
  unfold conc, set_stack. cbn. f_equal. f_equal.
  + rewrite <- (Nat.add_0_r (length t)), upd_app_r. cbn. rewrite <- app_assoc. reflexivity.
  + rewrite app_length. cbn. lia.
Qed.
Lemma pop_c F ip t gl h d rest o r n e v :
  pop (conc F ip (mkM (t ++ [v]) gl h d) rest o r n e)
  = AOk v (conc F ip (mkM t gl h d) (v :: rest) o r n e).
Proof.
  unfold pop. cbn [conc v_sp m_stk]. rewrite app_length, Nat.add_comm. cbn [length Nat.add].
  unfold slot, conc, set_stack. cbn. rewrite <- app_assoc, nth_app_0. reflexivity.
Qed.
Lemma peek_c F ip t gl h d rest o r n e v :
  peek (conc F ip (mkM (t ++ [v]) gl h d) rest o r n e)
  = AOk v (conc F ip (mkM (t ++ [v]) gl h d) rest o r n e).
Proof.
  unfold peek, peekn. cbn [conc v_sp m_stk]. rewrite app_length, Nat.add_comm. cbn [length Nat.add].
  replace (S (length t) <? 1) with false by (symmetry; apply Nat.ltb_ge; lia).
  unfold slot, conc. cbn. rewrite !Nat.sub_0_r, <- app_assoc, nth_app_0. reflexivity.
Qed.
Lemma slot_c F ip t gl h d rest o r n e i v : nth_error t i = Some v ->
  slot i (conc F ip (mkM t gl h d) rest o r n e)
  = AOk v (conc F ip (mkM t gl h d) rest o r n e).
Proof.
  intros H. unfold slot. cbn [conc v_stack m_stk]. rewrite nth_error_app1; [rewrite H; auto|].
  apply nth_error_Some. congruence.
Qed.
Lemma set_slot_c F ip t gl h d rest o r n e i v : i < length t ->
  set_slot i v (conc F ip (mkM t gl h d) rest o r n e)
  = AOk tt (conc F ip (mkM (upd i v t) gl h d) rest o r n e).
Proof.
  intros H. unfold set_slot. cbn [conc v_stack m_stk].
  replace (i <? length (t ++ rest)) with true by (symmetry; apply Nat.ltb_lt; rewrite app_length; lia).
  unfold conc, set_stack. cbn. rewrite upd_length, upd_app_l by auto. reflexivity.
Qed.

Lemma fit_cons t gl h d v rest o : fit (mkM (t ++ [v]) gl h d) rest o -> fit (mkM t gl h d) (v :: rest) o.
Proof. intros [H1 H2]. split; auto. cbn in *. rewrite <- app_assoc in H1. exact H1. Qed.
Lemma fit_snoc t gl h d v v' rest o : fit (mkM t gl h d) (v :: rest) o -> fit (mkM (t ++ [v']) gl h d) rest o.
Proof. intros [H1 H2]. split; auto. cbn in *. rewrite !app_length in *. cbn in *. lia. Qed.
Lemma fit_same t t' gl gl' h d d' rest o : fit (mkM t gl h d) rest o -> length t' = length t ->
  fit (mkM t' gl' h d') rest o.
Proof. intros [H1 H2] H. split; auto. cbn in *. rewrite !app_length in *. lia. Qed.
Lemma A_conc F ip M rest opens r n e : fit M rest opens -> A (F, ip, M) (conc F ip M rest opens r n e).
Proof. intros H. do 5 eexists. split; [reflexivity|auto]. Qed.
Hint Resolve fit_cons fit_snoc A_conc : core.

(** Ending with a push. *)
Definition pushing (F : fixed) (ip : nat) (M : mov) (v : value) : mov :=
  mkM (m_stk M ++ [v]) (m_gl M) (m_heap M) (m_data M).
Lemma push_end F ip t gl h d rest o r n e v : fit (mkM t gl h d) rest o ->
  let x := push v (conc F ip (mkM t gl h d) rest o r n e) in
  (exists e sp s, x = AErr e sp s /\ stopped e) \/
  exists s', x = AOk tt s' /\ A (F, ip, mkM (t ++ [v]) gl h d) s'.
Proof.
  intros Hf x. unfold x. pose proof (push_c F ip t gl h d rest o r n e v (proj1 Hf)) as P.
  destruct rest as [|y rest].
  - left. destruct P as (sp & s & ->). do 3 eexists. split; eauto. left; auto.
  - right. rewrite P. eexists. split; eauto.
Qed.
End Machine.
