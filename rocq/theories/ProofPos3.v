(** The code of a program, piece by piece, with the constructs the pieces belong to (proof
    device for C92 and C93). *)
From Verif Require Import Base RleVec Pool Vecc Float NumText Bytecode Chunk Value Ast Arith VmOps
                          Compiler Vm Items CodeSize SpecContainers ContainerHist ProofContainers ProofValue
                          SpecParse SpecReady SpecPos ProofCompiler ProofPos1.
From Verif Require ProofCode ProofCode3.
Import ProofCode(pre, pre_refl, pre_trans, pre_app, pre_nth, pre_len, cpool_inv).
Notation u16max := (N.to_nat 65535).
Ltac Zify.zify_post_hook ::= Z.div_mod_to_equations.

(** ** Pieces *)
Inductive jk := JFalse | JForward | JNotEq | JIter.
Definition jins (j : jk) : N -> instr :=
  match j with JFalse => IJumpIfFalse | JForward => IJumpForward | JNotEq => IJumpIfNotEq | JIter => IIterNext end.
Definition jop (j : jk) : N :=
  match j with JFalse => op_JumpIfFalse | JForward => op_JumpForward | JNotEq => op_JumpIfNotEq | JIter => op_IterNext end.
Inductive pk := PIns (i : instr) | PJump (j : jk) | PClo (off : N) (us : list (N * bool)).
Record piece := mkPiece { p_kind : pk; p_sp : span; p_last : span }.
Inductive pbytes : pk -> bytes -> Prop :=
| pb_ins i : fits i -> (forall k, i <> ICreateClosure k) -> pbytes (PIns i) (enc i)
| pb_jump j v : (v < 65536)%N -> pbytes (PJump j) (enc (jins j v))
| pb_clo off us : (off < 65536)%N -> pbytes (PClo off us) (enc (ICreateClosure off) ++ flat_map cap_bytes us).
Definition plen (k : pk) : nat :=
  match k with PIns i => length (enc i) | PJump _ => 3 | PClo _ us => 3 + 3 * length us end.
Definition psize (sh : list piece) : nat := fold_right (fun p a => plen (p_kind p) + a) 0 sh.
(** All the positions of a piece but the last are [p_sp]; a closure ends with its operand and
    the captures behind it. *)
Definition pspans (p : piece) : list span := repeat (p_sp p) (pred (plen (p_kind p))) ++ [p_last p].
Definition codes (sh : list piece) (ops : bytes) : Prop :=
  exists bss, Forall2 (fun p bs => pbytes (p_kind p) bs) sh bss /\ ops = concat bss.
Definition spans_of (sh : list piece) : list span := flat_map pspans sh.

Lemma pbytes_len k bs : pbytes k bs -> length bs = plen k.
Proof. destruct 1; cbn [plen]; [reflexivity|destruct j; reflexivity|]. rewrite app_length, length_caps. reflexivity. Qed.
Lemma plen_pos k bs : pbytes k bs -> 0 < plen k.
Proof.
  destruct 1 as [i H _|j v H|off us H]; cbn [plen]; try lia. destruct i; cbn [enc fits] in *; try (cbn; lia).
  - destruct (unary_opcode o); [cbn; lia|congruence].
  - destruct (binary_opcode o); [cbn; lia|congruence].
Qed.
Lemma codes_len sh ops : codes sh ops -> length ops = psize sh.
Proof.
  intros (bss & H & ->). induction H as [|p bs sh bss H1 H2 IH]; [reflexivity|]. cbn [concat psize fold_right].
  rewrite app_length, (pbytes_len _ _ H1). unfold psize in IH. lia.
Qed.
Lemma codes_nil : codes [] []. Proof. exists []. split; [constructor|reflexivity]. Qed.
Lemma codes_app a b x y : codes a x -> codes b y -> codes (a ++ b) (x ++ y).
Proof. intros (u & H & ->) (v & K & ->). exists (u ++ v). split; [now apply Forall2_app|now rewrite concat_app]. Qed.
Lemma codes_one p bs : pbytes (p_kind p) bs -> codes [p] bs.
Proof. intros H. exists [bs]. split; [repeat constructor; auto|cbn; now rewrite app_nil_r]. Qed.
Lemma codes_split a p b ops : codes (a ++ p :: b) ops ->
  exists x bs y, ops = x ++ bs ++ y /\ codes a x /\ pbytes (p_kind p) bs /\ codes b y.
Proof.
  intros (u & H & ->). apply Forall2_app_inv_l in H as (u1 & u2 & H1 & H2 & ->). inversion H2; subst.
  rewrite concat_app. cbn [concat]. eexists _, _, _. split; [reflexivity|]. split; [exists u1; auto|]. split; [eassumption|].
  eexists; split; [eassumption|reflexivity].
Qed.
Lemma spans_app a b : spans_of (a ++ b) = spans_of a ++ spans_of b. Proof. apply flat_map_app. Qed.
Lemma psize_app a b : psize (a ++ b) = psize a + psize b.
Proof. induction a as [|x a IH]; [reflexivity|]. cbn [app psize fold_right]. unfold psize in *. lia. Qed.
Lemma spans_len sh ops : codes sh ops -> length (spans_of sh) = psize sh.
Proof.
  intros (bss & H & _). induction H as [|p bs sh bss H1 H2 IH]; [reflexivity|]. cbn [spans_of flat_map psize fold_right].
  rewrite app_length. unfold spans_of, psize in IH. rewrite IH. unfold pspans. rewrite app_length, repeat_length. cbn [length].
  pose proof (plen_pos _ _ H1). lia.
Qed.

Lemma pspans_same k bs sp : pbytes k bs -> pspans (mkPiece k sp sp) = repeat sp (plen k).
Proof.
  intros K. unfold pspans; cbn [p_sp p_last p_kind]. pose proof (plen_pos _ _ K) as L.
  destruct (plen k) as [|n]; [lia|]. cbn [pred]. change [sp] with (repeat sp 1). rewrite <- repeat_app. f_equal. lia.
Qed.

(** ** What pieces mean *)
Section Meaning.
Context (at_ : node -> span -> Prop) (P : span -> Prop).

Inductive owner : instr -> node -> Prop :=
| ow_binary o a b : owner (IBinary o) (NBinary o a b)
| ow_unary o a : owner (IUnary o) (NUnary o a)
| ow_index a b : owner IIndexGet (NIndexGet a b)
| ow_range a b : owner ICreateRange (NRange a b)
| ow_array l : owner (ICreateArray (len8 l)) (NArray l)
| ow_call f l : owner (ICallFunction (len8 l)) (NCall f l)
| ow_exit x a v b : owner IExitContext (NContext x a v b)
| ow_unpack l v : owner (IUnpack (len8 l)) (NDeclaration (VarMulti l) v)
| ow_unpack_with x a l b : owner (IUnpack (len8 l)) (NContext x a (Some (VarMulti l)) b).
Inductive jowner : jk -> node -> Prop :=
| jo_if c t e : jowner JFalse (NConditional c t e)
| jo_while c b : jowner JFalse (NWhile c b)
| jo_for x i b : jowner JIter (NFor x i b)
| jo_multi l i b : jowner JIter (NMultiFor l i b).
(** Instructions that report no error of their own: at most that the stack is full. *)
Definition quiet (i : instr) : bool :=
  match i with
  | IReturn | IPop | IPopMany _ | ISwapPop | ILoadConst _ | ILoadLocal _ | ISetLocal _ | IDefineGlobal _
  | ILoadUpvalue _ | ISetUpvalue _ | IDefineGlobalDefaulted _ | ICloseUpvalue | ICreatePair
  | IBlockResult | IBlockReturn | ILoadNone | INewLoopCtx | IJumpBackward _ => true
  | _ => false
  end.
Definition named (G : list rstring) (id : N) (x : rstring) : Prop :=
  exists i, nth_error G i = Some x /\ id = pool_id_from i.
Definition is_fun (C : list value) (off : N) (g : function) : Prop :=
  exists i, nth_error C i = Some (VFn (MFun g)) /\ off = pool_id_from i.
Inductive means (G : list rstring) (C : list value) : piece -> Prop :=
| me_quiet i sp : quiet i = true -> P sp -> means G C (mkPiece (PIns i) sp sp)
| me_node i n sp : owner i n -> at_ n sp -> means G C (mkPiece (PIns i) sp sp)
| me_jump j sp : j = JForward \/ j = JNotEq -> P sp -> means G C (mkPiece (PJump j) sp sp)
| me_branch j n sp : jowner j n -> at_ n sp -> means G C (mkPiece (PJump j) sp sp)
| me_unpack l it b sp : at_ (NMultiFor l it b) sp -> means G C (mkPiece (PIns (IUnpack (len8 l))) (snd it) (snd it))
| me_load id x sp : at_ (NIdentifier x) sp -> named G id x -> means G C (mkPiece (PIns (ILoadGlobal id)) sp sp)
| me_set id x sp v asp : at_ (NAssignment (x, sp) v) asp -> named G id x ->
    means G C (mkPiece (PIns (ISetGlobal id)) sp sp)
| me_call id x csp l sp : at_ (NBuiltinCall (x, csp) l) sp -> named G id x ->
    means G C (mkPiece (PIns (ICallBuiltin id (len8 l))) sp csp)
| me_enter id x csp l v b sp : at_ (NContext (x, csp) l v b) sp -> named G id x ->
    means G C (mkPiece (PIns (IEnterContext id (len8 l))) sp csp)
| me_fun off g sp : P sp -> is_fun C off g -> means G C (mkPiece (PIns (ICreateFunction off)) sp sp)
| me_clo off us g sp : P sp -> is_fun C off g -> fn_upcount g = N.of_nat (length us) ->
    means G C (mkPiece (PClo off us) sp sp).
Lemma named_mono G G' id x : pre G G' -> named G id x -> named G' id x.
Proof using. intros H (i & E & ->). exists i. split; [eapply pre_nth; eauto|reflexivity]. Qed.
Lemma is_fun_mono C C' id x : pre C C' -> is_fun C id x -> is_fun C' id x.
Proof using. intros H (i & E & ->). exists i. split; [eapply pre_nth; eauto|reflexivity]. Qed.
Lemma means_mono G G' C C' p : pre G G' -> pre C C' -> means G C p -> means G' C' p.
Proof using.
  intros HG HC H. destruct H; try (econstructor; eauto using named_mono, is_fun_mono; fail).
Qed.

Inductive fok (G : list rstring) (f : function) : Prop := fok_intro
  (sh : list piece) (fo_ops : codes sh (ck_ops (fn_chunk f)))
  (fo_spans : expand (ck_spans (fn_chunk f)) = spans_of sh)
  (fo_means : Forall (means G (ck_consts (fn_chunk f))) sh)
  (fo_span : P (fn_nspan f))
  (fo_small : length (ck_consts (fn_chunk f)) <= u16max)
  (fo_funs : forall v q, In v (ck_consts (fn_chunk f)) -> fn_in q v -> fok G (mfn_function q)).
Lemma fok_mono G G' : pre G G' -> forall f, fok G f -> fok G' f.
Proof using.
  intros HG f H. induction H as [f sh A B C D E F IH]. econstructor; eauto.
  eapply Forall_impl; [|exact C]. intros p. apply means_mono; [exact HG|apply pre_refl].
Qed.

(** ** The state of the compiler *)
Record lvl (G : list rstring) (l : level) (sh : list piece) : Prop := {
  lv_codes : codes sh (ck_ops (lv_chunk l));
  lv_spans : expand (ck_spans (lv_chunk l)) = spans_of sh;
  lv_means : Forall (means G (p_entries (lv_consts l))) sh;
  lv_pool : cpool_inv (lv_consts l);
  lv_funs : forall v q, In v (p_entries (lv_consts l)) -> fn_in q v -> fok G (mfn_function q);
  lv_ups : lv_upcount l = wrap16u (N.of_nat (length (lv_upvalues l)));
  lv_pos : P (snd (lv_name l));
  lv_wf : rle_wf span_eqb (ck_spans (lv_chunk l)) }.
Lemma lvl_mono G G' l sh : pre G G' -> lvl G l sh -> lvl G' l sh.
Proof using.
  intros HG []. constructor; auto.
  - eapply Forall_impl; [|eassumption]. intros p. apply means_mono; [exact HG|apply pre_refl].
  - intros v q H1 H2. eapply fok_mono; eauto.
Qed.
(** Levels that differ only in what is not looked at. *)
Definition like (l l' : level) : Prop :=
  lv_chunk l' = lv_chunk l /\ lv_consts l' = lv_consts l /\ lv_name l' = lv_name l /\
  lv_upcount l' = lv_upcount l /\ lv_upvalues l' = lv_upvalues l.
Lemma lvl_like G l l' sh : like l l' -> lvl G l sh -> lvl G l' sh.
Proof using.
  intros (E1 & E2 & E3 & E4 & E5) [A1 A2 A3 A4 A5 A6 A7 A8]. constructor; rewrite ?E1, ?E2, ?E3, ?E4, ?E5; auto.
Qed.
Definition gs (c : compiler) : list rstring := p_entries (c_globals c).
Definition st (c : compiler) (shs : list (list piece)) : Prop :=
  Forall2 (lvl (gs c)) (c_level c :: c_enclosing c) shs /\ pool_inv seqb (c_globals c).
Definition lb (b : nat) (l : level) : Prop :=
  length (p_entries (lv_consts l)) <= b /\ length (lv_upvalues l) <= b.
Definition bn (b : nat) (c : compiler) : Prop :=
  length (gs c) <= b /\ Forall (lb b) (c_level c :: c_enclosing c).
Lemma bn_mono b b' c : bn b c -> b <= b' -> bn b' c.
Proof using. intros [H K] L. split; [lia|]. eapply Forall_impl; [|exact K]. intros l. unfold lb. lia. Qed.

Definition jat (sh : list piece) (j : nat) : Prop :=
  exists a k sp la b, sh = a ++ mkPiece (PJump k) sp la :: b /\ j = S (psize a).
Lemma jat_app sh sh' j : jat sh j -> jat (sh ++ sh') j.
Proof using. intros (a & k & sp & la & b & -> & ->). exists a, k, sp, la, (b ++ sh'). split; [now rewrite <- app_assoc|reflexivity]. Qed.

Record after (b : nat) (c c' : compiler) (sh : list piece) (rest : list (list piece)) (d : nat) : Prop := {
  af_st : st c' (sh :: rest);
  af_bn : bn b c';
  af_depth : lv_depth (c_level c') = d;
  af_encl : map lv_depth (c_enclosing c') = map lv_depth (c_enclosing c) }.
Definition kc {A} (w d d' : nat) (js : list nat) (x : M A) (Q : A -> list nat) (R : A -> Prop) : Prop :=
  forall b c sh rest a c', st c (sh :: rest) -> bn b c -> b + w <= u16max -> lv_depth (c_level c) = d ->
  Forall (jat sh) js -> x c = (COk a, c') ->
  exists sh', after (b + w) c c' (sh ++ sh') rest d' /\ Forall (jat (sh ++ sh')) (Q a) /\ R a.
Definition nojs {A} (_ : A) : list nat := [].
Definition yes {A} (_ : A) : Prop := True.
Notation kq w d d' js x := (kc w d d' js x nojs yes).

Lemma kc_le {A} w w' d d' js (x : M A) Q (R : A -> Prop) : kc w d d' js x Q R -> w <= w' -> kc w' d d' js x Q R.
Proof using.
  intros H L b c sh rest a c' Hs Hb Hw Hd Hj E. destruct (H b c sh rest a c' Hs Hb ltac:(lia) Hd Hj E) as (sh' & [K1 K2 K3 K4] & K).
  exists sh'. split; [|exact K]. constructor; [exact K1| |exact K3|exact K4]. apply (bn_mono (b + w)); [exact K2|lia].
Qed.
Lemma kc_ret {A} d js (a : A) Q (R : A -> Prop) : (forall j, In j (Q a) -> In j js) -> R a -> kc 0 d d js (ret a) Q R.
Proof using.
  intros HQ HR b c sh rest a' c' Hs Hb Hw Hd Hj [= <- <-]. exists []. rewrite app_nil_r, Nat.add_0_r. split; [now constructor|].
  split; [|exact HR]. rewrite Forall_forall in *. auto.
Qed.
Lemma kq_ret {A} d js (a : A) : kq 0 d d js (ret a). Proof using. apply kc_ret; [intros j []|exact Logic.I]. Qed.
Lemma kc_fail {A} w d d' js e sp Q (R : A -> Prop) : kc w d d' js (fail e sp : M A) Q R.
Proof using. intros b c sh rest a c' Hs Hb Hw Hd Hj H. discriminate. Qed.
Lemma kc_crash {A} w d d' js Q (R : A -> Prop) : kc w d d' js (crash : M A) Q R.
Proof using. intros b c sh rest a c' Hs Hb Hw Hd Hj H. discriminate. Qed.
Lemma kc_bind {A B} w1 w2 d d1 d2 js (x : M A) (k : A -> M B) Q (R : A -> Prop) Q' (R' : B -> Prop) :
  kc w1 d d1 js x Q R -> (forall a, R a -> kc w2 d1 d2 (Q a ++ js) (k a) Q' R') -> kc (w1 + w2) d d2 js (bind x k) Q' R'.
Proof using.
  intros Hx Hk b c sh rest r c' Hs Hb Hw Hd Hj E. apply ProofCode.bind_inv in E as (a & c1 & E1 & E2).
  destruct (Hx b _ _ _ _ _ Hs Hb ltac:(lia) Hd Hj E1) as (s1 & [A1 A2 A3 A4] & H2 & H3).
  destruct (Hk a H3 (b + w1) c1 (sh ++ s1) rest r c' A1 A2 ltac:(lia) A3) as (s2 & [B1 B2 B3 B4] & H5 & H6); [|exact E2|].
  - apply Forall_app; split; [exact H2|]. eapply Forall_impl; [|exact Hj]. intros j. apply jat_app.
  - exists (s1 ++ s2). rewrite app_assoc. split; [|auto]. constructor; auto; [|congruence].
    replace (b + (w1 + w2)) with (b + w1 + w2) by lia. exact B2.
Qed.
Lemma kc_seq {A B} w1 w2 d d1 d2 js (x : M A) (k : A -> M B) Q' (R' : B -> Prop) :
  kq w1 d d1 js x -> (forall a, kc w2 d1 d2 js (k a) Q' R') -> kc (w1 + w2) d d2 js (bind x k) Q' R'.
Proof using. intros Hx Hk. eapply kc_bind; [exact Hx|]. intros a _. exact (Hk a). Qed.
Lemma kc_js {A} w d d' js js' (x : M A) Q (R : A -> Prop) : (forall j, In j js -> In j js') -> kc w d d' js x Q R -> kc w d d' js' x Q R.
Proof using.
  intros HJ H b c sh rest a c' Hs Hb Hw Hd Hj E. apply (H b c sh rest a c' Hs Hb Hw Hd); [|exact E].
  rewrite Forall_forall in *. auto.
Qed.

Lemma st_level c l sh sh' rest : st c (sh :: rest) -> lvl (gs c) l sh' ->
  st (mkCompiler l (c_enclosing c) (c_globals c) (c_externals c)) (sh' :: rest).
Proof using. intros [H1 H2] Hl. split; [|exact H2]. inversion H1; subst. constructor; auto. Qed.
Lemma st_cur c sh rest : st c (sh :: rest) -> lvl (gs c) (c_level c) sh.
Proof using. intros [H1 _]. now inversion H1. Qed.
Lemma bn_level b b' c l : bn b c -> b <= b' -> lb b' l ->
  bn b' (mkCompiler l (c_enclosing c) (c_globals c) (c_externals c)).
Proof using.
  intros H L Hl. apply (bn_mono _ b') in H; [|exact L]. destruct H as [H1 H2]. split; [exact H1|]. inversion H2; subst. constructor; auto.
Qed.
Lemma bn_cur b c : bn b c -> lb b (c_level c). Proof using. intros [_ H]. now inversion H. Qed.
Lemma kc_get d js : kc 0 d d js get_level nojs (fun l => lv_depth l = d).
Proof using.
  intros b c sh rest a c' Hs Hb Hw Hd Hj [= <- <-]. exists []. rewrite app_nil_r, Nat.add_0_r. split; [now constructor|].
  split; [constructor|exact Hd].
Qed.
Lemma kq_get d js : kq 0 d d js get_level.
Proof using.
  intros b c sh rest a c' Hs Hb Hw Hd Hj [= <- <-]. exists []. rewrite app_nil_r, Nat.add_0_r. split; [now constructor|].
  split; [constructor|exact Logic.I].
Qed.
Lemma kq_len d js : kq 0 d d js code_len.
Proof using. apply (kc_seq 0 0 d d d); [apply kq_get|intros; apply kq_ret]. Qed.
Lemma kq_is_global d js : kq 0 d d js is_global.
Proof using. apply (kc_seq 0 0 d d d); [apply kq_get|intros; apply kq_ret]. Qed.
Lemma kq_mod d d' js f : (forall l, like l (f l)) -> (forall l, lv_depth l = d -> lv_depth (f l) = d') -> kq 0 d d' js (mod_level f).
Proof using.
  intros H HD b c sh rest a c' Hs Hb Hw Hd Hj [= <- <-]. exists []. rewrite app_nil_r, Nat.add_0_r.
  split; [|split; [constructor|exact Logic.I]]. constructor; [| |apply HD, Hd|reflexivity].
  - eapply st_level; [exact Hs|]. eapply lvl_like; [apply H|]. eapply st_cur; eauto.
  - apply (bn_level b b c _ Hb (le_n b)). pose proof (bn_cur _ _ Hb) as [K1 K2]. destruct (H (c_level c)) as (E1 & E2 & E3 & E4 & E5).
    unfold lb. rewrite E2, E5. split; assumption.
Qed.
Ltac same :=  intros; repeat split; cbn; auto.
Lemma kq_enter_scope d js : kq 0 d (S d) js enter_scope. Proof using. apply kq_mod; same. Qed.

(** Emitting code. *)
Definition only_chunk (c : compiler) (ck : chunk value) : compiler :=
  mkCompiler (lv_set_chunk ck (c_level c)) (c_enclosing c) (c_globals c) (c_externals c).
Definition adds (bs : bytes) (sps : list span) (x : M unit) : Prop :=
  forall c, exists ck, x c = (COk tt, only_chunk c ck) /\
    ck_ops ck = ck_ops (lv_chunk (c_level c)) ++ bs /\
    expand (ck_spans ck) = expand (ck_spans (lv_chunk (c_level c))) ++ sps /\
    (rle_wf span_eqb (ck_spans (lv_chunk (c_level c))) -> rle_wf span_eqb (ck_spans ck)).
Lemma adds_bind b1 s1 b2 s2 x y : adds b1 s1 x -> adds b2 s2 y -> adds (b1 ++ b2) (s1 ++ s2) (x ;; y).
Proof using.
  intros H K c. destruct (H c) as (ck & E & E1 & E2 & E3). unfold bind. rewrite E.
  destruct (K (only_chunk c ck)) as (ck2 & F & F1 & F2 & F3). exists ck2. rewrite F.
  split; [reflexivity|]. cbn [only_chunk c_level lv_set_chunk lv_chunk] in F1, F2, F3. rewrite F1, F2, E1, E2, <- !app_assoc. auto.
Qed.
Lemma expand_pushes n sp l : expand (rle_push_n span_eqb l sp n) = expand l ++ repeat sp n.
Proof using. apply expand_push_n. intros a b. apply span_eqb_eq. Qed.
Lemma wf_pushes n sp l : n <> 0 -> rle_wf span_eqb l -> rle_wf span_eqb (rle_push_n span_eqb l sp n).
Proof using. apply rle_wf_push_n. intros a b. apply span_eqb_eq. Qed.
Lemma adds_u8 b sp : adds [b] [sp] (write_u8 b sp).
Proof using.
  intros c. exists (chunk_write_u8 (lv_chunk (c_level c)) b sp). split; [reflexivity|]. split; [reflexivity|].
  cbn [ck_spans chunk_write_u8]. unfold rle_push. split; [now rewrite expand_pushes|apply wf_pushes; discriminate].
Qed.
Lemma adds_op b sp : adds [b] [sp] (write_op b sp). Proof using. exact (adds_u8 b sp). Qed.
Lemma adds_u16 v sp : adds (u16b v) [sp; sp] (write_u16 v sp).
Proof using.
  intros c. exists (chunk_write_u16 (lv_chunk (c_level c)) v sp). split; [reflexivity|]. split; [reflexivity|].
  cbn [ck_spans chunk_write_u16]. split; [now rewrite expand_pushes|apply wf_pushes; discriminate].
Qed.
Lemma adds_op_u16 o v sp : adds (o :: u16b v) [sp; sp; sp] (write_op_u16 o v sp).
Proof using. exact (adds_bind [o] [sp] (u16b v) [sp; sp] _ _ (adds_op o sp) (adds_u16 v sp)). Qed.
Lemma adds_op_u8 o v sp : adds [o; v] [sp; sp] (write_op_u8 o v sp).
Proof using. exact (adds_bind [o] [sp] [v] [sp] _ _ (adds_op o sp) (adds_u8 v sp)). Qed.
Lemma adds_ups us sp : adds (flat_map cap_bytes us) (repeat sp (3 * length us)) (write_upvalues us sp).
Proof using.
  induction us as [|[i b] us IH]; cbn [write_upvalues].
  - intros c. exists (lv_chunk (c_level c)). rewrite !app_nil_r. split; [|auto]. destruct c as [l e g x]. destruct l. reflexivity.
  - pose proof (adds_bind _ _ _ _ _ _ (adds_u8 (if b then 1 else 0)%N sp) (adds_bind _ _ _ _ _ _ (adds_u16 i sp) IH)) as H.
    cbn [flat_map length cap_bytes fst snd]. rewrite Nat.mul_succ_r, Nat.add_comm.
    rewrite repeat_app. cbn [repeat app] in *. exact H.
Qed.
Lemma adds_lvl G l sh p bs ck : lvl G l sh -> pbytes (p_kind p) bs -> means G (p_entries (lv_consts l)) p ->
  ck_ops ck = ck_ops (lv_chunk l) ++ bs -> expand (ck_spans ck) = expand (ck_spans (lv_chunk l)) ++ pspans p ->
  (rle_wf span_eqb (ck_spans (lv_chunk l)) -> rle_wf span_eqb (ck_spans ck)) ->
  lvl G (lv_set_chunk ck l) (sh ++ [p]).
Proof using.
  intros [A1 A2 A3 A4 A5 A6 A7 A8] Hb Hm E1 E2 E3. constructor; cbn; auto.
  - rewrite E1. apply codes_app; [exact A1|now apply codes_one].
  - rewrite E2, A2, spans_app. cbn [spans_of flat_map]. now rewrite app_nil_r.
  - apply Forall_app. auto.
Qed.
(** Emitting a piece in a state known to give it its meaning. *)
Lemma emit_piece b p bs x c sh rest a c' : adds bs (pspans p) x -> pbytes (p_kind p) bs ->
  means (gs c) (p_entries (lv_consts (c_level c))) p -> st c (sh :: rest) -> bn b c -> x c = (COk a, c') ->
  after b c c' (sh ++ [p]) rest (lv_depth (c_level c)).
Proof using.
  intros Hx Hb Hm Hs Hn E. destruct (Hx c) as (ck & E1 & E2 & E3 & E4). rewrite E1 in E. injection E as <- <-.
  constructor; [|exact (bn_level b b c (lv_set_chunk ck (c_level c)) Hn (le_n b) (bn_cur _ _ Hn))|reflexivity|reflexivity].
  eapply st_level; [exact Hs|]. eapply adds_lvl; eauto. eapply st_cur; eauto.
Qed.
Lemma kq_piece d js p bs x : adds bs (pspans p) x -> pbytes (p_kind p) bs -> (forall G C, means G C p) -> kq 0 d d js x.
Proof using.
  intros H1 H2 H3 b c sh rest a c' Hs Hb Hw Hd Hj E. exists [p]. rewrite Nat.add_0_r. rewrite <- Hd.
  split; [|split; [constructor|exact Logic.I]]. eapply emit_piece; eauto.
Qed.
Lemma kq_ins d js i sp x : quiet i = true -> fits i -> P sp -> adds (enc i) (repeat sp (length (enc i))) x -> kq 0 d d js x.
Proof using.
  intros Hq Hf Hp Hx. assert (K : pbytes (PIns i) (enc i)) by (constructor; [exact Hf|intros k ->; discriminate]).
  apply (kq_piece d js (mkPiece (PIns i) sp sp) (enc i)); [|exact K|intros; now constructor].
  rewrite (pspans_same _ _ _ K). exact Hx.
Qed.
Lemma kq_own d js i n sp x : owner i n -> at_ n sp -> fits i -> adds (enc i) (repeat sp (length (enc i))) x -> kq 0 d d js x.
Proof using.
  intros Ho Ha Hf Hx. assert (K : pbytes (PIns i) (enc i)) by (constructor; [exact Hf|intros k ->; inversion Ho]).
  apply (kq_piece d js (mkPiece (PIns i) sp sp) (enc i)); [|exact K|intros; exact (me_node _ _ i n sp Ho Ha)].
  rewrite (pspans_same _ _ _ K). exact Hx.
Qed.

(** Jumps. *)
Lemma kc_jump d js k sp : (forall G C, means G C (mkPiece (PJump k) sp sp)) ->
  kc 0 d d js (write_jump (jop k) sp) (fun j => [j]) yes.
Proof using.
  intros Hm b c sh rest a c' Hs Hb Hw Hd Hj E. unfold write_jump in E.
  apply ProofCode.bind_inv in E as (u & c1 & E1 & E2). apply ProofCode.bind_inv in E2 as (n & c2 & E2 & E3).
  injection E2 as <- <-. injection E3 as <- <-. rewrite Nat.add_0_r. rewrite <- Hd.
  assert (K : pbytes (PJump k) (enc (jins k 0))) by (constructor; reflexivity).
  assert (HA : after b c c1 (sh ++ [mkPiece (PJump k) sp sp]) rest (lv_depth (c_level c))).
  { refine (emit_piece b (mkPiece (PJump k) sp sp) (enc (jins k 0)) _ _ _ _ _ _ _ K (Hm _ _) Hs Hb E1).
    rewrite (pspans_same _ _ _ K). pose proof (adds_op_u16 (jop k) 0 sp) as HA. destruct k; exact HA. }
  exists [mkPiece (PJump k) sp sp]. split; [exact HA|]. split; [|exact Logic.I]. constructor; [|constructor].
  exists sh, k, sp, sp, []. split; [reflexivity|]. destruct HA as [HA _ _ _]. apply st_cur in HA.
  pose proof (codes_len _ _ (lv_codes _ _ _ HA)) as L. unfold chunk_len. rewrite L, psize_app. cbn. lia.
Qed.
Lemma kq_patch d js j sp : In j js -> kq 0 d d js (patch_jump j sp).
Proof using.
  intros Hin b c sh rest [] c' Hs Hb Hw Hd Hj E. rewrite Forall_forall in Hj. destruct (Hj j Hin) as (a & k & s1 & la & t & -> & ->).
  pose proof (st_cur _ _ _ Hs) as HL. pose proof (lv_codes _ _ _ HL) as HC.
  destruct (codes_split _ _ _ _ HC) as (x & bs & y & Eo & C1 & C2 & C3). cbn [p_kind] in C2. inversion C2 as [|k0 v Hv E3 E4|]; subst k0 bs.
  pose proof (codes_len _ _ C1) as Lx.
  assert (Eb : forall v, enc (jins k v) = jop k :: le_lo v :: le_hi v :: []) by (intros; destruct k; reflexivity).
  rewrite Eb in Eo.
  assert (El : S (psize a) = length (x ++ [jop k])) by (rewrite app_length, Lx; cbn; lia).
  rewrite El in E.
  destruct (ProofCode3.patch_jump_inv (x ++ [jop k]) y (le_lo v) (le_hi v) sp c tt c' E) as (E0 & Hy & E1).
  { unfold ProofCode.opsof. rewrite Eo, <- app_assoc. reflexivity. }
  assert (Esp : forall ck, c' = only_chunk c ck -> ck_spans ck = ck_spans (lv_chunk (c_level c))).
  { unfold patch_jump in E. apply ProofCode.bind_inv in E as (n & c2 & E2 & E). injection E2 as <- <-. cbv zeta in E.
    destruct (_ <? _)%N; [discriminate|]. unfold patch_u16 in E. apply ProofCode.bind_inv in E as (l & c2 & E2 & E). injection E2 as <- <-.
    unfold chunk_patch_u16 in E. destruct (bc_patch_u16 _ _ _) as [ops| |]; cbn [rbind] in E; try discriminate.
    injection E as <-. intros ck Eck. injection Eck as <-. reflexivity. }
  destruct E0 as [ck ->]. specialize (Esp ck eq_refl). exists []. rewrite app_nil_r, Nat.add_0_r.
  split; [|split; [constructor|exact Logic.I]].
  constructor; [|exact (bn_level b b c (lv_set_chunk ck (c_level c)) Hb (le_n b) (bn_cur _ _ Hb))|exact Hd|reflexivity].
  eapply st_level; [exact Hs|]. destruct HL as [A1 A2 A3 A4 A5 A6 A7 A8]. constructor; cbn; auto.
  - assert (E2 : ck_ops ck = x ++ enc (jins k (N.of_nat (length y))) ++ y).
    { unfold ProofCode.opsof in E1. cbn [c_level lv_set_chunk lv_chunk] in E1. rewrite E1, Eb, <- app_assoc. reflexivity. }
    rewrite E2. apply codes_app; [exact C1|].
    change (mkPiece (PJump k) s1 la :: t) with ([mkPiece (PJump k) s1 la] ++ t). apply codes_app; [|exact C3].
    apply codes_one. now constructor.
  - rewrite Esp. exact A2.
  - rewrite Esp. exact A8.
Qed.
Lemma kq_back d js start sp : P sp -> kq 0 d d js (write_jump_backward start sp).
Proof using.
  intros Hp. apply (kc_seq 0 0 d d d); [apply kq_len|intros n]. cbv zeta. destruct (_ <? _)%N eqn:El; [apply kc_fail|].
  apply N.ltb_ge in El. set (v := N.of_nat _) in *.
  apply (kq_ins d js (IJumpBackward v) sp); [reflexivity|cbn; lia|exact Hp|apply adds_op_u16].
Qed.
Lemma kq_op_u16 d js i o v sp : enc i = o :: u16b v -> quiet i = true -> fits i -> P sp -> kq 0 d d js (write_op_u16 o v sp).
Proof using. intros E Hq Hf Hp. apply (kq_ins d js i sp); auto. rewrite E. apply adds_op_u16. Qed.
Lemma kq_op d js i o sp : enc i = [o] -> quiet i = true -> fits i -> P sp -> kq 0 d d js (write_op o sp).
Proof using. intros E Hq Hf Hp. apply (kq_ins d js i sp); auto. rewrite E. apply adds_op. Qed.
Lemma kq_own_op d js i n o sp : enc i = [o] -> owner i n -> at_ n sp -> fits i -> kq 0 d d js (write_op o sp).
Proof using. intros E Ho Ha Hf. apply (kq_own d js i n sp); auto. rewrite E. apply adds_op. Qed.
Lemma kq_own_u8 d js i n o v sp : enc i = [o; v] -> owner i n -> at_ n sp -> fits i -> kq 0 d d js (write_op_u8 o v sp).
Proof using. intros E Ho Ha Hf. apply (kq_own d js i n sp); auto. rewrite E. apply adds_op_u8. Qed.

(** Constants and names. *)
Lemma wrap16_lt n : (wrap16u n < 65536)%N. Proof using. unfold wrap16u. apply N.mod_lt. discriminate. Qed.
Lemma pool_id_lt n : (pool_id_from n < 65536)%N. Proof using. apply wrap16_lt. Qed.
End Meaning.
