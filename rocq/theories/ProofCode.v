(** The compiler satisfies the relation of CodeRel.v. *)
From Verif Require Import Base RleVec Pool Vecc Float NumText Bytecode Chunk Value Ast Arith VmOps
                          Compiler Vm Items CodeRel SpecContainers ContainerHist ProofContainers
                          ProofValue ProofCompiler.

Ltac Zify.zify_post_hook ::= Z.div_mod_to_equations.

Notation u16max := (N.to_nat 65535).

(** ** Small facts *)
Definition pre {A} (a b : list A) : Prop := exists t, b = a ++ t.
Lemma pre_refl {A} (a : list A) : pre a a. Proof. exists []. rewrite app_nil_r. reflexivity. Qed.
Lemma pre_trans {A} (a b c : list A) : pre a b -> pre b c -> pre a c.
Proof. intros [t ->] [u ->]. exists (t ++ u). rewrite app_assoc. reflexivity. Qed.
Lemma pre_app {A} (a t : list A) : pre a (a ++ t). Proof. exists t. reflexivity. Qed.
Lemma pre_nth {A} (a b : list A) i x : pre a b -> nth_error a i = Some x -> nth_error b i = Some x.
Proof. intros [t ->] H. rewrite nth_error_app1; auto. apply nth_error_Some. congruence. Qed.
Lemma pre_len {A} (a b : list A) : pre a b -> length a <= length b.
Proof. intros [t ->]. rewrite app_length. lia. Qed.

Lemma F2_refl {A} (R : A -> A -> Prop) l : (forall x, R x x) -> Forall2 R l l.
Proof. intros H. induction l; constructor; auto. Qed.
Lemma F2_trans {A} (R : A -> A -> Prop) a b c :
  (forall x y z, R x y -> R y z -> R x z) -> Forall2 R a b -> Forall2 R b c -> Forall2 R a c.
Proof.
  intros HR H. revert c. induction H; intros c Hc; inversion Hc; subst; constructor; eauto.
Qed.
Lemma F2_app_split {A B} (R : A -> B -> Prop) a1 a2 b : Forall2 R (a1 ++ a2) b ->
  exists b1 b2, b = b1 ++ b2 /\ Forall2 R a1 b1 /\ Forall2 R a2 b2.
Proof.
  revert b; induction a1 as [|x a1 IH]; intros b H; cbn in H.
  - exists [], b. auto.
  - inversion H as [|x0 y a b0 Hx Ht]; subst. destruct (IH _ Ht) as (b1 & b2 & -> & Ha & Hb).
    exists (y :: b1), b2. repeat split; auto.
Qed.
Lemma F2_len {A B} (R : A -> B -> Prop) a b : Forall2 R a b -> length a = length b.
Proof. induction 1; cbn; auto. Qed.
Lemma F2_nth {A B} (R : A -> B -> Prop) a b i x : Forall2 R a b -> nth_error a i = Some x ->
  exists y, nth_error b i = Some y /\ R x y.
Proof.
  intros H. revert i. induction H; intros [|i] E; cbn in *; try discriminate.
  - injection E as <-. eauto.
  - eauto.
Qed.
Lemma F2_impl {A B} (R R' : A -> B -> Prop) a b :
  (forall x y, R x y -> R' x y) -> Forall2 R a b -> Forall2 R' a b.
Proof. intros H. induction 1; constructor; auto. Qed.
Lemma F2_map {A B C D} (R : C -> D -> Prop) (f : A -> C) (g : B -> D) a b :
  Forall2 (fun x y => R (f x) (g y)) a b -> Forall2 R (map f a) (map g b).
Proof. induction 1; cbn; constructor; auto. Qed.
Lemma F2_rev {A B} (R : A -> B -> Prop) a b : Forall2 R a b -> Forall2 R (rev a) (rev b).
Proof. induction 1; cbn; [constructor|]. apply Forall2_app; auto. Qed.

Lemma bind_inv {A B} (x : M A) (k : A -> M B) c b c' :
  bind x k c = (COk b, c') -> exists a c1, x c = (COk a, c1) /\ k a c1 = (COk b, c').
Proof.
  unfold bind. destruct (x c) as [[a|e sp|] c1]; intros H; try discriminate. eauto.
Qed.
Lemma ret_inv {A} (a b : A) c c' : ret a c = (COk b, c') -> a = b /\ c = c'.
Proof. intros H. injection H. auto. Qed.
Ltac mb H := let a := fresh "a" in let c1 := fresh "c1" in let H1 := fresh "H1" in
  apply bind_inv in H; destruct H as (a & c1 & H1 & H).

(** ** Views of the state *)
Section Naming.
Context {P : naming}.
Definition view1 (x : local) : rstring * bool := (l_name x, l_captured x).
Definition view (l : level) : locals := map view1 (lv_locals l).
Definition outer_of (ls : list level) : list rstring :=
  flat_map (fun l => map l_name (lv_locals l)) ls.
Definition opsof (c : compiler) : bytes := ck_ops (lv_chunk (c_level c)).
Definition loc (c : compiler) : list local := lv_locals (c_level c).

Lemma view_names l : map fst (view l) = map l_name (lv_locals l).
Proof. unfold view. rewrite map_map. reflexivity. Qed.

Definition loc_le (a b : local) : Prop :=
  l_name a = l_name b /\ l_depth a = l_depth b /\ l_cleanup a = l_cleanup b /\
  (l_captured a = true -> l_captured b = true).
Lemma loc_le_refl a : loc_le a a. Proof. repeat split; auto. Qed.
Lemma loc_le_trans a b c : loc_le a b -> loc_le b c -> loc_le a c.
Proof. intros (A1 & A2 & A3 & A4) (B1 & B2 & B3 & B4). repeat split; try congruence; auto. Qed.

(** Enclosing levels only gain upvalues and "captured" flags. *)
Record lvl_le (a b : level) : Prop := {
  ll_name : lv_name b = lv_name a; ll_arity : lv_arity b = lv_arity a;
  ll_chunk : lv_chunk b = lv_chunk a; ll_depth : lv_depth b = lv_depth a;
  ll_consts : lv_consts b = lv_consts a; ll_locals : Forall2 loc_le (lv_locals a) (lv_locals b);
  ll_ups : pre (lv_upvalues a) (lv_upvalues b) }.
Lemma lvl_le_refl a : lvl_le a a.
Proof. constructor; auto using pre_refl. apply F2_refl, loc_le_refl. Qed.
Lemma lvl_le_trans a b c : lvl_le a b -> lvl_le b c -> lvl_le a c.
Proof.
  intros [] []. constructor; try congruence.
  - eapply F2_trans; eauto using loc_le_trans.
  - eapply pre_trans; eauto.
Qed.

Definition cpool_inv (p : pool value) : Prop :=
  forall v id, alookup const_eqb v (p_dups p) = Some id ->
  exists i, i < length (p_entries p) /\ id = pool_id_from i /\ nth_error (p_entries p) i = Some v.

Record lev_ok (l : level) : Prop := {
  lk_consts : cpool_inv (lv_consts l);
  lk_up : lv_upcount l = N.of_nat (length (lv_upvalues l));
  lk_locals : Forall (fun x => l_depth x <= lv_depth l /\ l_cleanup x = true) (lv_locals l) }.

(** [UN] names the captured variables of every level. *)
Fixpoint chain_ok (ls : list level) (UN : list (list rstring)) : Prop :=
  match ls, UN with
  | l :: rest, un :: ur =>
      match rest, ur with
      | [], [] => lv_upvalues l = [] /\ un = []
      | l1 :: r1, un1 :: _ =>
          Forall2 (cap_ok (mkCtx [] [] un1 (outer_of r1)) (view l1)) (lv_upvalues l) un /\
          chain_ok rest ur
      | _, _ => False
      end
  | _, _ => False
  end.

Lemma chain_head l l' r UN : lv_upvalues l' = lv_upvalues l -> chain_ok (l :: r) UN -> chain_ok (l' :: r) UN.
Proof. intros E H. destruct UN as [|un ur]; [destruct H|]. cbn in *. rewrite E. exact H. Qed.

Definition levels (c : compiler) : list level := c_level c :: c_enclosing c.

Record inv (c : compiler) (UN : list (list rstring)) : Prop := {
  iv_chain : chain_ok (levels c) UN;
  iv_lev : Forall lev_ok (levels c);
  iv_glob : pool_inv seqb (c_globals c) }.

Definition lev_b (b : nat) (l : level) : Prop :=
  length (p_entries (lv_consts l)) <= b /\ length (lv_locals l) <= b /\
  length (lv_upvalues l) <= b.
Definition bnd (b : nat) (c : compiler) : Prop :=
  length (p_entries (c_globals c)) <= b /\ Forall (lev_b b) (levels c).

Lemma lev_b_mono b b' l : lev_b b l -> b <= b' -> lev_b b' l.
Proof. unfold lev_b. lia. Qed.
Lemma bnd_mono b b' c : bnd b c -> b <= b' -> bnd b' c.
Proof. intros [H1 H2] H. split; [lia|]. eapply Forall_impl; [|exact H2]. intros. eapply lev_b_mono; eauto. Qed.

Definition grow (d : nat) (a b : list local) : Prop :=
  exists newl old, b = newl ++ old /\ Forall2 loc_le a old /\
                   Forall (fun x => l_depth x = d /\ l_cleanup x = true) newl.
Lemma grow_refl d a : grow d a a.
Proof. exists [], a. repeat split; auto. apply F2_refl, loc_le_refl. Qed.
Lemma grow_le d a b : Forall2 loc_le a b -> grow d a b.
Proof. exists [], b. auto. Qed.
Lemma grow_trans d a b c : grow d a b -> grow d b c -> grow d a c.
Proof.
  intros (n1 & o1 & -> & H1 & H2) (n2 & o2 & -> & H3 & H4).
  apply F2_app_split in H3. destruct H3 as (x & y & -> & H5 & H6).
  exists (n2 ++ x), y. rewrite app_assoc. repeat split; auto.
  - eapply F2_trans; eauto using loc_le_trans.
  - apply Forall_app. split; auto. clear - H2 H5. induction H5; [constructor|].
    inversion H2; subst. constructor; auto. destruct H as (_ & A & B & _). rewrite <- A, <- B. auto.
Qed.
Lemma grow_len d a b : grow d a b -> length a <= length b.
Proof. intros (n & o & -> & H & _). apply F2_len in H. rewrite app_length. lia. Qed.

(** A function of the relation whose constants hold such functions only. *)
Inductive made : function -> Prop :=
| md_fun m (N : naming) X L x args body f caps :
    @code_fun m N X L x args body f caps -> (forall g, In (VFn (MFun g)) (ck_consts (fn_chunk f)) -> made g) -> made f.
Definition more_made (a b : list value) : Prop := forall g, In (VFn (MFun g)) b -> In (VFn (MFun g)) a \/ made g.
Lemma mm_refl a : more_made a a. Proof. intros g; auto. Qed.
Lemma mm_trans a b c : more_made a b -> more_made b c -> more_made a c.
Proof. intros H K g Hg. destruct (K g Hg); auto. Qed.

Record ext (c : compiler) (UN : list (list rstring)) (c' : compiler) (UN' : list (list rstring))
  : Prop := {
  e_globals : pre (p_entries (c_globals c)) (p_entries (c_globals c'));
  e_consts : pre (p_entries (lv_consts (c_level c))) (p_entries (lv_consts (c_level c')));
  e_name : lv_name (c_level c') = lv_name (c_level c);
  e_arity : lv_arity (c_level c') = lv_arity (c_level c);
  e_depth : lv_depth (c_level c') = lv_depth (c_level c);
  e_grow : grow (lv_depth (c_level c)) (loc c) (loc c');
  e_encl : Forall2 lvl_le (c_enclosing c) (c_enclosing c');
  e_un : Forall2 pre UN UN';
  e_fns : more_made (p_entries (lv_consts (c_level c))) (p_entries (lv_consts (c_level c'))) }.
Lemma ext_refl c UN : ext c UN c UN.
Proof.
  constructor; auto using pre_refl, grow_refl, mm_refl; apply F2_refl; auto using lvl_le_refl, pre_refl.
Qed.
Lemma ext_trans c UN c1 UN1 c2 UN2 : ext c UN c1 UN1 -> ext c1 UN1 c2 UN2 -> ext c UN c2 UN2.
Proof.
  intros [] []. constructor; try congruence; try (eapply pre_trans; eauto; fail).
  - rewrite e_depth0 in *. eapply grow_trans; eauto.
  - eapply F2_trans; eauto using lvl_le_trans.
  - eapply F2_trans; eauto using pre_trans.
  - eapply mm_trans; eauto.
Qed.

(** Everything known after a step of the compiler. *)
Definition R (b w : nat) c UN c' UN' : Prop := inv c' UN' /\ bnd (b + w) c' /\ ext c UN c' UN'.
Lemma R_trans b w1 w2 c UN c1 UN1 c2 UN2 :
  R b w1 c UN c1 UN1 -> R (b + w1) w2 c1 UN1 c2 UN2 -> R b (w1 + w2) c UN c2 UN2.
Proof.
  intros (A1 & A2 & A3) (B1 & B2 & B3). split; [exact B1|split].
  - rewrite Nat.add_assoc. exact B2.
  - eapply ext_trans; eauto.
Qed.

(** Only the code changed. *)
Definition ext0 (c c' : compiler) : Prop :=
  exists ck, c' = mkCompiler (lv_set_chunk ck (c_level c)) (c_enclosing c) (c_globals c) (c_externals c).
Lemma ext0_refl c : ext0 c c.
Proof. exists (lv_chunk (c_level c)). destruct c as [l e g x]; destruct l; reflexivity. Qed.
Lemma ext0_trans a b c : ext0 a b -> ext0 b c -> ext0 a c.
Proof. intros [x ->] [y ->]. exists y. destruct a as [l e g z]; destruct l; reflexivity. Qed.
Lemma R_ext0 b c UN c' : inv c UN -> bnd b c -> ext0 c c' -> R b 0 c UN c' UN.
Proof.
  intros [I1 I2 I3] [B1 B2] [ck ->].
  unfold levels in *. cbn [c_level c_enclosing] in *.
  split; [|split].
  - constructor; cbn [c_globals]; unfold levels; cbn [c_level c_enclosing]; [| |exact I3].
    + eapply chain_head; [|exact I1]. reflexivity.
    + inversion I2; subst. constructor; auto. destruct H1; constructor; cbn; auto.
  - split; cbn [c_globals]; [lia|]. unfold levels; cbn [c_level c_enclosing]. rewrite Nat.add_0_r.
    inversion B2; subst. constructor; auto.
  - constructor; cbn; auto using pre_refl, mm_refl; try apply grow_refl; apply F2_refl; auto using lvl_le_refl, pre_refl.
Qed.

(** The final tables as seen from a state. *)
Definition fin_le (a b : rstring * bool) : Prop := fst a = fst b /\ (snd a = true -> snd b = true).
Record fin_ok (X : ctx) (L : locals) (c : compiler) (UN : list (list rstring)) : Prop := {
  fo_globals : pre (p_entries (c_globals c)) (x_globals X);
  fo_consts : pre (p_entries (lv_consts (c_level c))) (x_consts X);
  fo_ups : pre (hd [] UN) (x_ups X);
  fo_outer : x_outer X = outer_of (c_enclosing c);
  fo_locals : Forall2 fin_le (view (c_level c)) L }.

Lemma lvl_le_outer a b : Forall2 lvl_le a b -> outer_of a = outer_of b.
Proof.
  unfold outer_of. induction 1; cbn; auto. rewrite IHForall2. f_equal.
  apply ll_locals in H. clear - H. induction H; cbn; auto. destruct H as [-> _]. congruence.
Qed.

Lemma fin_le_view d a b L : grow d a b -> Forall2 fin_le (map view1 b) L ->
  Forall2 fin_le (map view1 a) (skipn (length L - length a) L).
Proof.
  intros (n & o & -> & H1 & _) H. rewrite map_app in H. apply F2_app_split in H.
  destruct H as (x & y & -> & H2 & H3). rewrite app_length.
  pose proof (F2_len _ _ _ H1) as E1. pose proof (F2_len _ _ _ H3) as E3. rewrite map_length in E3.
  replace (length x + length y - length a) with (length x) by lia.
  rewrite skipn_app, skipn_all, Nat.sub_diag. cbn [skipn app].
  clear - H1 H3. revert y H3. induction H1; intros z Hz; inversion Hz; subst; cbn; constructor; auto.
  destruct H as (A & _ & _ & B). destruct H3 as [C E]. unfold view1 in *. cbn in *.
  split; cbn; [congruence|auto].
Qed.

Lemma fin_back X L c UN c' UN' : ext c UN c' UN' -> fin_ok X L c' UN' ->
  fin_ok X (skipn (length L - length (loc c)) L) c UN.
Proof.
  intros E F. destruct E, F. constructor.
  - eapply pre_trans; eauto.
  - eapply pre_trans; eauto.
  - destruct e_un0; cbn in *; [exact fo_ups0|]. eapply pre_trans; eauto.
  - rewrite fo_outer0. symmetry. apply lvl_le_outer. auto.
  - eapply fin_le_view; eauto.
Qed.
Lemma fin_len X L c UN : fin_ok X L c UN -> length L = length (loc c).
Proof. intros [_ _ _ _ H]. apply F2_len in H. unfold view in H. rewrite map_length in H. auto. Qed.

(** ** Statements about pieces of the compiler *)
Definition judge (A : Type) := nat -> A -> ctx -> locals -> list item -> locals -> Prop.
Definition gen {A} (x : M A) (w : nat) (J : judge A) : Prop :=
  forall c UN b a c', x c = (COk a, c') -> inv c UN -> bnd b c -> b + w <= u16max ->
  exists code UN', R b w c UN c' UN' /\ opsof c' = opsof c ++ bytes_of code /\
    Forall item_fits code /\
    forall X L, fin_ok X L c' UN' ->
      J (lv_depth (c_level c)) a X (skipn (length L - length (loc c)) L) code L.

Definition seqJ {A B} (J1 : judge A) (J2 : A -> judge B) : judge B :=
  fun d b X L code L' => exists a c1 c2 L1, code = c1 ++ c2 /\ J1 d a X L c1 L1 /\ J2 a d b X L1 c2 L'.

Lemma gen_bind {A B} (x : M A) (k : A -> M B) w1 w2 J1 J2 :
  gen x w1 J1 -> (forall a, gen (k a) w2 (J2 a)) -> gen (bind x k) (w1 + w2) (seqJ J1 J2).
Proof.
  intros Hx Hk c UN b r c' H I B0 Hw. mb H.
  destruct (Hx _ _ _ _ _ H1 I B0 ltac:(lia)) as (k1 & U1 & (I1 & B1 & E1) & O1 & F1 & G1).
  destruct (Hk _ _ _ _ _ _ H I1 B1 ltac:(lia)) as (k2 & U2 & (I2 & B2 & E2) & O2 & F2 & G2).
  exists (k1 ++ k2), U2. split; [|split; [|split]].
  - eapply R_trans; [split; [exact I1|split; [exact B1|exact E1]]|split; [exact I2|split; auto]].
  - rewrite O2, O1, bytes_of_app, app_assoc. reflexivity.
  - apply Forall_app; auto.
  - intros X L F. exists a, k1, k2, (skipn (length L - length (loc c1)) L).
    split; [reflexivity|]. specialize (G2 X L F). rewrite (e_depth _ _ _ _ E1) in G2. split; [|exact G2].
    pose proof (fin_back _ _ _ _ _ _ E2 F) as Fb. specialize (G1 _ _ Fb).
    pose proof (grow_len _ _ _ (e_grow _ _ _ _ E1)) as Hg1.
    pose proof (grow_len _ _ _ (e_grow _ _ _ _ E2)) as Hg2.
    rewrite skipn_length in G1. rewrite (fin_len _ _ _ _ F) in *.
    assert (Es : forall n m (l : locals), skipn n (skipn m l) = skipn (m + n) l).
    { clear. intros n m l; revert n m; induction l as [|x l IH]; intros n m.
      - rewrite !skipn_nil. reflexivity.
      - destruct m as [|m]; [reflexivity|]. cbn [skipn plus]. apply IH. }
    rewrite Es in G1. replace (length (loc c') - length (loc c1) +
      (length (loc c') - (length (loc c') - length (loc c1)) - length (loc c)))
      with (length (loc c') - length (loc c)) in G1 by lia. exact G1.
Qed.

Lemma gen_weaken {A} (x : M A) w w' (J J' : judge A) : gen x w J -> w <= w' ->
  (forall d a X L code L', J d a X L code L' -> J' d a X L code L') -> gen x w' J'.
Proof.
  intros H Hw HJ c UN b a c' Hx I B Hb.
  destruct (H _ _ _ _ _ Hx I B ltac:(lia)) as (k & U & (I1 & B1 & E1) & O1 & F1 & G1).
  exists k, U. split; [|split; [|split]]; auto.
  split; [exact I1|split; [|exact E1]]. eapply bnd_mono; eauto. lia.
Qed.

(** Actions that only append code. *)
Definition emits {A} (x : M A) (bs : bytes) : Prop :=
  forall c a c', x c = (COk a, c') -> ext0 c c' /\ opsof c' = opsof c ++ bs.
Lemma emits_bind {A B} (x : M A) (k : A -> M B) b1 b2 :
  emits x b1 -> (forall a, emits (k a) b2) -> emits (bind x k) (b1 ++ b2).
Proof.
  intros Hx Hk c r c' H. mb H. destruct (Hx _ _ _ H1) as [E1 O1]. destruct (Hk _ _ _ _ H) as [E2 O2].
  split; [eapply ext0_trans; eauto|]. rewrite O2, O1, app_assoc. reflexivity.
Qed.
Lemma emits_op o sp : emits (write_op o sp) [o].
Proof.
  intros c a c' H. injection H as _ <-. split; [eexists; reflexivity|reflexivity].
Qed.
Lemma emits_u8 o sp : emits (write_u8 o sp) [o].
Proof. intros c a c' H. injection H as _ <-. split; [eexists; reflexivity|reflexivity]. Qed.
Lemma emits_u16 v sp : emits (write_u16 v sp) (u16b v).
Proof. intros c a c' H. injection H as _ <-. split; [eexists; reflexivity|reflexivity]. Qed.
Lemma emits_op_u16 o v sp : emits (write_op_u16 o v sp) (o :: u16b v).
Proof. apply (emits_bind _ _ [o]); intros; [apply emits_op|apply emits_u16]. Qed.
Lemma emits_op_u8 o v sp : emits (write_op_u8 o v sp) [o; v].
Proof. apply (emits_bind _ _ [o]); intros; [apply emits_op|apply emits_u8]. Qed.
Lemma emits_ret {A} (a : A) : emits (ret a) [].
Proof. intros c b c' H. apply ret_inv in H. destruct H as [_ <-]. rewrite app_nil_r. split; auto. apply ext0_refl. Qed.

Definition fixJ {A} (code : list item) : judge A := fun _ _ _ L k L' => k = code /\ L' = L.
Lemma gen_emits {A} (x : M A) code : emits x (bytes_of code) -> Forall item_fits code ->
  gen x 0 (fixJ code).
Proof.
  intros H HF c UN b a c' Hx I B Hb. destruct (H _ _ _ Hx) as [E O].
  exists code, UN. split; [|split; [|split]]; auto; try (apply R_ext0; auto).
  intros X L F. split; auto. destruct E as [ck ->].
  rewrite (fin_len _ _ _ _ F). unfold loc. cbn. rewrite Nat.sub_diag. reflexivity.
Qed.
Lemma gen_item (x : M unit) i : emits x (enc i) -> fits i -> (forall k, i <> ICreateClosure k) ->
  gen x 0 (fixJ [It i]).
Proof.
  intros H H1 H2. apply gen_emits.
  - cbn. rewrite app_nil_r. exact H.
  - constructor; [|constructor]. cbn. auto.
Qed.
Lemma gen_ret {A} (a : A) : gen (ret a) 0 (fun _ r X L k L' => r = a /\ k = [] /\ L' = L).
Proof.
  intros c UN b r c' H I B Hb. apply ret_inv in H. destruct H as [<- <-].
  exists [], UN. rewrite app_nil_r. split; [|split; [|split]]; auto.
  - apply R_ext0; auto using ext0_refl.
  - intros X L F. rewrite (fin_len _ _ _ _ F), Nat.sub_diag. auto.
Qed.

(** ** Constants and global names *)
Lemma cpool_add p v : cpool_inv p -> length (p_entries p) <= u16max ->
  let (p', id) := pool_add const_eqb p v in
  cpool_inv p' /\ pre (p_entries p) (p_entries p') /\ length (p_entries p') <= S (length (p_entries p)) /\
  exists off, id = N.of_nat off /\ off <= u16max /\ nth_error (p_entries p') off = Some v.
Proof.
  intros H Hl. unfold pool_add. destruct (alookup const_eqb v (p_dups p)) as [id|] eqn:E.
  - destruct (H _ _ E) as (i & H1 & H2 & H3). repeat split; auto using pre_refl.
    exists i. rewrite pool_id_from_small in H2 by lia. repeat split; auto. lia.
  - cbn. rewrite pool_id_from_small by lia. repeat split.
    + intros w id H1. cbn [p_dups p_entries] in *. unfold ainsert in H1. cbn [alookup] in H1.
      rewrite app_length. destruct (const_eqb w v) eqn:Ew.
      * apply const_eqb_sound in Ew. subst w. injection H1 as <-. exists (length (p_entries p)).
        cbn. rewrite pool_id_from_small, nth_app_0 by lia. cbn. repeat split; lia.
      * destruct (H _ _ H1) as (i & A1 & A2 & A3). exists i. cbn. repeat split; auto; [lia|].
        rewrite nth_error_app1; auto.
    + apply pre_app.
    + rewrite app_length. cbn. lia.
    + exists (length (p_entries p)). rewrite nth_app_0. repeat split; auto.
Qed.

Lemma levels_set c l : levels (mkCompiler l (c_enclosing c) (c_globals c) (c_externals c)) = l :: c_enclosing c.
Proof. reflexivity. Qed.

Definition fine (v : value) : Prop := forall f, v = VFn (MFun f) -> made f.
Lemma pool_made (p : pool value) v : fine v -> more_made (p_entries p) (p_entries (fst (pool_add const_eqb p v))).
Proof.
  intros H g Hg. unfold pool_add in Hg. destruct (alookup const_eqb v (p_dups p)); [auto|]. cbn in Hg.
  apply in_app_iff in Hg. destruct Hg as [Hg|[Hg|[]]]; auto.
Qed.
Lemma gen_constant v : fine v -> gen (add_constant v) 1
  (fun _ id X L k L' => k = [] /\ L' = L /\ exists off, id = N.of_nat off /\ off <= u16max /\
                        nth_error (x_consts X) off = Some v).
Proof.
  intros Hv c UN b id c' H I B Hb. unfold add_constant in H. mb H. injection H1 as <- <-.
  destruct I as [I1 I2 I3]. destruct B as [B1 B2]. unfold levels in *.
  inversion I2; subst. inversion B2; subst.
  destruct H2. destruct H4 as (L1 & L2 & L3).
  pose proof (cpool_add (lv_consts (c_level c)) v lk_consts0 ltac:(lia)) as Hp.
  pose proof (pool_made (lv_consts (c_level c)) v Hv) as Hm.
  destruct (pool_add const_eqb (lv_consts (c_level c)) v) as [p i] eqn:Ep. cbn [fst] in Hm.
  destruct Hp as (P1 & P2 & P3 & off & P4 & P5 & P6).
  mb H. injection H1 as _ <-. apply ret_inv in H. destruct H as [<- <-].
  exists [], UN. rewrite app_nil_r. split; [split; [|split]|].
  - constructor; unfold levels; cbn [c_level c_enclosing c_globals]; [| |exact I3].
    + eapply chain_head; [|exact I1]. reflexivity.
    + constructor; auto. constructor; cbn; auto.
  - split; cbn [c_globals]; [lia|]. unfold levels; cbn [c_level c_enclosing].
    constructor; [unfold lev_b; cbn; lia|]. eapply Forall_impl; [|exact H5]. intros. eapply lev_b_mono; eauto. lia.
  - constructor; cbn; auto using pre_refl; try exact Hm; try apply grow_refl; apply F2_refl; auto using lvl_le_refl, pre_refl.
  - split; [reflexivity|]. split; [constructor|]. intros X L F.
    rewrite (fin_len _ _ _ _ F). unfold loc; cbn. rewrite Nat.sub_diag. cbn. repeat split; auto.
    exists off. repeat split; auto. eapply pre_nth; [apply (fo_consts _ _ _ _ F)|]. exact P6.
Qed.

Lemma gen_symbol s : gen (add_global_symbol s) 1
  (fun _ id X L k L' => k = [] /\ L' = L /\ exists off, id = N.of_nat off /\ off <= u16max /\
                        nth_error (x_globals X) off = Some s).
Proof.
  intros c UN b id c' H I B Hb. unfold add_global_symbol in H.
  destruct I as [I1 I2 I3]. destruct B as [B1 B2].
  pose proof (pool_add_inv seqb seqb_eq _ s I3) as Q1.
  unfold pool_add in *. destruct I3 as [I3 I4]. rewrite I4 in *.
  set (g := c_globals c) in *.
  assert (HH : exists off p, c' = mkCompiler (c_level c) (c_enclosing c) p (c_externals c) /\
     id = N.of_nat off /\ off <= u16max /\ pool_inv seqb p /\ pre (p_entries g) (p_entries p) /\
     length (p_entries p) <= S (length (p_entries g)) /\ nth_error (p_entries p) off = Some s).
  { destruct (index_of seqb s (p_entries g)) as [i|] eqn:E; cbn [option_map] in H.
    - injection H as <- <-. exists i, g.
      pose proof (index_of_lt seqb seqb_eq _ _ _ E).
      rewrite pool_id_from_small by lia. repeat split; auto using pre_refl; try lia.
      + apply (index_of_nth seqb seqb_eq). auto.
    - unfold pool_add_force in *. injection H as <- <-. cbn [fst option_map] in Q1.
      rewrite pool_id_from_small in * by lia. exists (length (p_entries g)). eexists.
      split; [reflexivity|]. split; [reflexivity|]. split; [lia|]. split; [exact Q1|]. cbn.
      split; [apply pre_app|]. rewrite app_length, nth_app_0. cbn. split; auto. lia. }
  destruct HH as (off & p & -> & -> & P1 & P2 & P3 & P4 & P5).
  exists [], UN. rewrite app_nil_r. split; [split; [|split]|].
  - constructor; auto.
  - split; cbn [c_globals]; [lia|]. unfold levels in *; cbn [c_level c_enclosing] in *.
    eapply Forall_impl; [|exact B2]. intros. eapply lev_b_mono; eauto. lia.
  - constructor; cbn; auto using pre_refl, mm_refl; try apply grow_refl; apply F2_refl; auto using lvl_le_refl, pre_refl.
  - split; [reflexivity|]. split; [constructor|]. intros X L F.
    rewrite (fin_len _ _ _ _ F). unfold loc; cbn. rewrite Nat.sub_diag. cbn. repeat split; auto.
    exists off. repeat split; auto. eapply pre_nth; [apply (fo_globals _ _ _ _ F)|]. exact P5.
Qed.
End Naming.
