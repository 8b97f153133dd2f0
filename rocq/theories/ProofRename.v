(** Renaming does not change what is compiled but for the names (C103). *)
From Verif Require Import Base RleVec Pool Vecc Float Bytecode Chunk Value Ast Compiler ProofCompiler SpecNames ProofNames2 SpecRel SpecRename.

Section Rename.
Context (r : rstring -> rstring) (rn : renaming r) (mv : span -> span) (mo : moving mv).

(** ** Comparisons *)
Lemma seqb_r x y : seqb (r x) (r y) = seqb x y.
Proof.
  destruct (seqb x y) eqn:E.
  - apply seqb_eq in E. subst. apply seqb_refl.
  - apply seqb_neq in E. apply seqb_neq. intros K. apply E, (rn_apart r rn), K.
Qed.
Lemma syms_r a : forall b, list_eqb seqb (map r a) (map r b) = list_eqb seqb a b.
Proof. induction a as [|x a IH]; intros [|y b]; cbn; auto. rewrite seqb_r, IH. reflexivity. Qed.
Lemma span_r a b : span_eqb (mv a) (mv b) = span_eqb a b.
Proof.
  destruct (span_eqb a b) eqn:E.
  - apply span_eqb_eq in E. subst. now apply span_eqb_eq.
  - destruct (span_eqb (mv a) (mv b)) eqn:K; [|reflexivity]. apply span_eqb_eq in K. apply (mv_apart mv mo) in K. subst.
    rewrite (proj2 (span_eqb_eq b b) eq_refl) in E. discriminate.
Qed.
Lemma rle_r a : forall b, rle_eqb (move_spans mv a) (move_spans mv b) = rle_eqb a b.
Proof. induction a as [|[i x] a IH]; intros [|[j y] b]; cbn; auto. rewrite span_r. f_equal. apply IH. Qed.
Lemma push_r l sp n : rle_push_n span_eqb (move_spans mv l) (mv sp) n = move_spans mv (rle_push_n span_eqb l sp n).
Proof.
  induction l as [|[i x] l IH]; [reflexivity|]. cbn [move_spans map fst snd rle_push_n]. destruct l as [|[j y] l].
  - cbn [map]. rewrite span_r. destruct (span_eqb x sp); reflexivity.
  - cbn [map fst snd]. cbn [move_spans map fst snd] in IH. rewrite IH. reflexivity.
Qed.
Lemma get_r l : forall i, rle_get (move_spans mv l) i = option_map mv (rle_get l i).
Proof. induction l as [|[i x] l IH]; intros j; [reflexivity|]. cbn [move_spans map fst snd rle_get]. destruct (_ <? _); [reflexivity|apply IH]. Qed.
Lemma last_r l : rle_last (move_spans mv l) = option_map mv (rle_last l).
Proof. induction l as [|[i x] [|[j y] l] IH]; [reflexivity..|]. cbn [move_spans map fst snd rle_last] in *. exact IH. Qed.
Lemma function_r kf km : forall f f' g g', renamed_fn r mv f f' -> renamed_fn r mv g g' -> function_eqb kf km f' g' = function_eqb kf km f g.
Proof.
  fix IH 1. intros [n s a u [ops spans cs syms]] f' g g' Hf Hg. inversion Hf as [? ? ? ? ? ? ? cs1 ? Hc]; subst; clear Hf.
  inversion Hg as [n2 sp2 a2 u2 ops2 spans2 ds ds1 syms2 Hd]; subst; clear Hg. cbn [function_eqb]. rewrite seqb_r, syms_r, span_r, rle_r. f_equal. f_equal.
  clear n s a u ops spans syms n2 sp2 a2 u2 ops2 spans2 syms2. revert cs1 Hc ds ds1 Hd.
  induction cs as [|x cs IHc]; intros cs1 Hc ds ds1 Hd; inversion Hc as [|? x1 ? t1 Hx Ht]; subst; clear Hc; inversion Hd as [|y y1 ? t2 Hy Hu]; subst; clear Hd; try reflexivity.
  specialize (IHc _ Ht _ _ Hu). rewrite IHc. f_equal. clear IHc Ht Hu.
  assert (K : (exists f, x = VFn (MFun f)) \/ x1 = x /\ simple x) by (inversion Hx; subst; eauto).
  destruct x as [| | | | | | | | | | |[f|f us]].
  12: {
    assert (K1 : exists f1, x1 = VFn (MFun f1) /\ renamed_fn r mv f f1).
    { inversion Hx as [? f1 Hf|v Hv]; subst; [eauto|]. inversion Hv; contradiction. }
    destruct K1 as (f1 & -> & Hf). clear Hx K. destruct Hy as [h h1 Hh|w Hw].
    - cbn [ceqb]. exact (IH f _ _ _ Hf Hh).
    - destruct w; try reflexivity. inversion Hw; contradiction. }
  all: destruct K as [(f0 & K)|[-> K]]; try discriminate; try (inversion K; contradiction).
  all: destruct Hy as [h h1 Hh|w Hw]; reflexivity.
Qed.

Lemma const_r x x' y y' : renamed_const r mv x x' -> renamed_const r mv y y' -> const_eqb x' y' = const_eqb x y.
Proof.
  intros [f f' Hf|v Hv] [g g' Hg|w Hw]; unfold const_eqb.
  - cbn [ceqb]. now apply function_r.
  - destruct w; try reflexivity. inversion Hw; contradiction.
  - destruct v; try reflexivity. inversion Hv; contradiction.
  - reflexivity.
Qed.

(** ** Pools *)
Lemma f2_length {A B} (R : A -> B -> Prop) l l' : Forall2 R l l' -> length l = length l'.
Proof. induction 1; cbn; auto. Qed.
Definition rpool (p : pool rstring) : pool rstring := mkPool (map r (p_entries p)) (map (fun e => (r (fst e), snd e)) (p_dups p)).
Lemma lookup_r (l : list (rstring * N)) x : alookup seqb (r x) (map (fun e => (r (fst e), snd e)) l) = alookup seqb x l.
Proof. induction l as [|[y i] l IH]; [reflexivity|]. cbn [map alookup fst snd]. now rewrite seqb_r, IH. Qed.
Lemma force_r p x : pool_add_force (rpool p) (r x) = (rpool (fst (pool_add_force p x)), snd (pool_add_force p x)).
Proof. unfold pool_add_force, rpool. cbn [p_entries p_dups fst snd]. now rewrite map_length, map_app. Qed.
Lemma add_r p x : pool_add seqb (rpool p) (r x) = (rpool (fst (pool_add seqb p x)), snd (pool_add seqb p x)).
Proof.
  unfold pool_add. change (p_dups (rpool p)) with (map (fun e => (r (fst e), snd e)) (p_dups p)). rewrite lookup_r.
  destruct (alookup seqb x (p_dups p)); [reflexivity|apply force_r].
Qed.
Record csims (p p' : pool value) : Prop := {
  pv_entries : Forall2 (renamed_const r mv) (p_entries p) (p_entries p');
  pv_dups : Forall2 (fun x y => renamed_const r mv (fst x) (fst y) /\ snd x = snd y) (p_dups p) (p_dups p') }.
Lemma lookup_c v v' l l' : renamed_const r mv v v' -> Forall2 (fun x y : value * N => renamed_const r mv (fst x) (fst y) /\ snd x = snd y) l l' ->
  alookup const_eqb v' l' = alookup const_eqb v l.
Proof.
  intros Hv. induction 1 as [|[x i] [y j] l l' [Hx Hi] Hl IH]; [reflexivity|]. cbn [alookup fst snd] in *. subst j.
  rewrite (const_r _ _ _ _ Hv Hx), IH. reflexivity.
Qed.
Lemma add_c p p' v v' : csims p p' -> renamed_const r mv v v' ->
  csims (fst (pool_add const_eqb p v)) (fst (pool_add const_eqb p' v')) /\ snd (pool_add const_eqb p v) = snd (pool_add const_eqb p' v').
Proof.
  intros [H1 H2] Hv. unfold pool_add. rewrite (lookup_c v v' _ _ Hv H2). destruct (alookup const_eqb v (p_dups p)); [now split|].
  unfold pool_add_force. cbn [fst snd]. rewrite (f2_length _ _ _ H1). split; [|reflexivity]. split; cbn [p_entries p_dups].
  - apply Forall2_app; auto.
  - constructor; auto.
Qed.

(** ** Two compilers at the same point *)
Definition rchunk (c : chunk value) : chunk value := mkChunk (ck_ops c) (move_spans mv (ck_spans c)) (ck_consts c) (ck_syms c).
Lemma write_op_r c o sp : chunk_write_op (rchunk c) o (mv sp) = rchunk (chunk_write_op c o sp).
Proof. unfold chunk_write_op, chunk_write_u8, rchunk, rle_push. cbn [ck_ops ck_spans ck_consts ck_syms]. now rewrite push_r. Qed.
Lemma write_u16_r c o sp : chunk_write_u16 (rchunk c) o (mv sp) = rchunk (chunk_write_u16 c o sp).
Proof. unfold chunk_write_u16, rchunk. cbn [ck_ops ck_spans ck_consts ck_syms]. now rewrite push_r. Qed.
Lemma patch_r c i v : chunk_patch_u16 (rchunk c) i v = match chunk_patch_u16 c i v with Ok d => Ok (rchunk d) | Err e => Err e | Panic => Panic end.
Proof. unfold chunk_patch_u16, rchunk. cbn [ck_ops ck_spans ck_consts ck_syms]. destruct (bc_patch_u16 _ _ _); reflexivity. Qed.
Definition rlocal (l : local) : local := mkLocal (r (l_name l)) (l_depth l) (l_captured l) (l_cleanup l).
Record lsim (l l' : level) : Prop := {
  ls_name : lv_name l' = rename_name r mv (lv_name l); ls_arity : lv_arity l = lv_arity l'; ls_upcount : lv_upcount l = lv_upcount l';
  ls_chunk : lv_chunk l' = rchunk (lv_chunk l); ls_locals : lv_locals l' = map rlocal (lv_locals l);
  ls_upvalues : lv_upvalues l = lv_upvalues l'; ls_depth : lv_depth l = lv_depth l'; ls_syms : lv_syms l' = rpool (lv_syms l);
  ls_consts : csims (lv_consts l) (lv_consts l') }.
Record csim (c c' : compiler) : Prop := {
  cs_level : lsim (c_level c) (c_level c'); cs_enclosing : Forall2 lsim (c_enclosing c) (c_enclosing c');
  cs_globals : c_globals c' = rpool (c_globals c); cs_externals : c_externals c = c_externals c' }.
Definition msim {A} (Q : A -> A -> Prop) (x y : M A) : Prop :=
  forall c c', csim c c' ->
  match x c, y c' with
  | (COk a, d), (COk b, d') => Q a b /\ csim d d'
  | (CErr e sp, _), (CErr e' sp', _) => e' = renamed_error r e /\ sp' = mv sp
  | (CPanic, _), (CPanic, _) => True
  | _, _ => False
  end.
Definition tt2 (_ _ : unit) : Prop := True.

Lemma ms_ret {A} (Q : A -> A -> Prop) a b : Q a b -> msim Q (ret a) (ret b).
Proof. intros H c c' HC. split; auto. Qed.
Lemma ms_tt : msim tt2 (ret tt) (ret tt). Proof. apply ms_ret. exact Logic.I. Qed.
Lemma ms_fail {A} (Q : A -> A -> Prop) e e' sp : e' = renamed_error r e -> msim Q (fail e sp) (fail e' (mv sp)).
Proof. intros H c c' HC. split; [exact H|reflexivity]. Qed.
Lemma ms_crash {A} (Q : A -> A -> Prop) : msim Q crash crash.
Proof. intros c c' HC. exact Logic.I. Qed.
Lemma ms_bind {A B} (Q : A -> A -> Prop) (R : B -> B -> Prop) x x' k k' :
  msim Q x x' -> (forall a a', Q a a' -> msim R (k a) (k' a')) -> msim R (bind x k) (bind x' k').
Proof.
  intros HX HK c c' HC. unfold bind. specialize (HX c c' HC). destruct (x c) as [[a|e sp|] d], (x' c') as [[a'|e' sp'|] d']; try contradiction; auto.
  destruct HX as [HQ HC']. exact (HK a a' HQ d d' HC').
Qed.
Lemma ms_seq {B} (R : B -> B -> Prop) (x x' : M unit) k k' : msim tt2 x x' -> msim R k k' -> msim R (bind x (fun _ => k)) (bind x' (fun _ => k')).
Proof. intros HX HK. eapply ms_bind; [exact HX|]. auto. Qed.
Lemma ms_get : msim lsim get_level get_level.
Proof. intros c c' HC. split; [apply HC|exact HC]. Qed.
Lemma ms_set l l' : lsim l l' -> msim tt2 (set_level l) (set_level l').
Proof. intros HL c c' [H1 H2 H3 H4]. split; [exact Logic.I|]. constructor; auto. Qed.
Lemma ms_mod f g : (forall l l', lsim l l' -> lsim (f l) (g l')) -> msim tt2 (mod_level f) (mod_level g).
Proof. intros H. eapply ms_bind; [apply ms_get|]. intros l l' HL. apply ms_set. auto. Qed.

Ltac lsim_tac := intros; match goal with H : lsim ?l ?l' |- _ => destruct H; constructor; cbn; auto; try congruence end.
Lemma ms_write_op o sp : msim tt2 (write_op o sp) (write_op o (mv sp)).
Proof. apply ms_mod. intros l l' HL. pose proof (ls_chunk _ _ HL) as E. rewrite E. destruct HL; constructor; cbn; auto. apply write_op_r. Qed.
Lemma ms_write_u8 o sp : msim tt2 (write_u8 o sp) (write_u8 o (mv sp)).
Proof. apply ms_write_op. Qed.
Lemma ms_write_u16 o sp : msim tt2 (write_u16 o sp) (write_u16 o (mv sp)).
Proof. apply ms_mod. intros l l' HL. pose proof (ls_chunk _ _ HL) as E. rewrite E. destruct HL; constructor; cbn; auto. apply write_u16_r. Qed.
Lemma ms_write_op_u8 o b sp : msim tt2 (write_op_u8 o b sp) (write_op_u8 o b (mv sp)).
Proof. apply ms_seq; [apply ms_write_op|apply ms_write_u8]. Qed.
Lemma ms_write_op_u16 o b sp : msim tt2 (write_op_u16 o b sp) (write_op_u16 o b (mv sp)).
Proof. apply ms_seq; [apply ms_write_op|apply ms_write_u16]. Qed.
Lemma ms_patch_u16 i v : msim tt2 (patch_u16 i v) (patch_u16 i v).
Proof.
  eapply ms_bind; [apply ms_get|]. intros l l' HL. rewrite (ls_chunk _ _ HL), patch_r. destruct (chunk_patch_u16 _ _ _); try apply ms_crash.
  apply ms_set. lsim_tac.
Qed.
Lemma ms_code_len : msim eq code_len code_len.
Proof. eapply ms_bind; [apply ms_get|]. intros l l' HL. apply ms_ret. now rewrite (ls_chunk _ _ HL). Qed.
Lemma ms_write_jump o sp : msim eq (write_jump o sp) (write_jump o (mv sp)).
Proof. apply ms_seq; [apply ms_write_op_u16|]. eapply ms_bind; [apply ms_code_len|]. intros ? ? ->. apply ms_ret. reflexivity. Qed.
Lemma ms_write_jump_backward n sp : msim tt2 (write_jump_backward n sp) (write_jump_backward n (mv sp)).
Proof. eapply ms_bind; [apply ms_code_len|]. intros ? ? ->. cbv zeta. destruct (_ <? _)%N; [apply ms_fail; reflexivity|apply ms_write_op_u16]. Qed.
Lemma ms_patch_jump n sp : msim tt2 (patch_jump n sp) (patch_jump n (mv sp)).
Proof. eapply ms_bind; [apply ms_code_len|]. intros ? ? ->. cbv zeta. destruct (_ <? _)%N; [apply ms_fail; reflexivity|apply ms_patch_u16]. Qed.
Lemma ms_add_constant v v' : renamed_const r mv v v' -> msim eq (add_constant v) (add_constant v').
Proof.
  intros Hv. eapply ms_bind; [apply ms_get|]. intros l l' HL. destruct (add_c _ _ _ _ (ls_consts _ _ HL) Hv) as [HA HB].
  destruct (pool_add _ (lv_consts l) v) as [p i], (pool_add _ (lv_consts l') v') as [p' i']. cbn [fst snd] in HA, HB. subst i'.
  apply ms_seq; [|apply ms_ret; reflexivity]. apply ms_set. lsim_tac.
Qed.
Lemma ms_add_symbol s : msim eq (add_symbol s) (add_symbol (r s)).
Proof.
  eapply ms_bind; [apply ms_get|]. intros l l' HL. rewrite (ls_syms _ _ HL), add_r. destruct (pool_add _ (lv_syms l) s) as [p i].
  apply ms_seq; [|apply ms_ret; reflexivity]. apply ms_set. cbn [fst]. lsim_tac.
Qed.
Lemma ms_add_global_symbol s : msim eq (add_global_symbol s) (add_global_symbol (r s)).
Proof. intros c c' [H1 H2 H3 H4]. unfold add_global_symbol. rewrite H3, add_r. destruct (pool_add _ _ s) as [p i]. split; [reflexivity|]. constructor; auto. Qed.
Lemma ms_enter_level l l' : lsim l l' -> msim tt2 (enter_level l) (enter_level l').
Proof. intros HL c c' [H1 H2 H3 H4]. split; [exact Logic.I|]. constructor; cbn; auto. Qed.
Lemma finish_r l l' : lsim l l' -> renamed_fn r mv (fst (level_finish l)) (fst (level_finish l')) /\ snd (level_finish l) = snd (level_finish l').
Proof.
  intros HL. destruct HL as [H1 H2 H3 H4 H5 H6 H7 H8 [H9 _]]. unfold level_finish. cbn [fst snd]. split; [|exact H6].
  rewrite H1, H8, <- H2, <- H3, H4, <- H7. unfold rename_name, rpool, rchunk. cbn [fst snd p_entries p_dups ck_ops ck_spans ck_consts ck_syms].
  destruct (lv_depth l =? 0); [|now constructor].
  unfold chunk_write_op, chunk_write_u8, chunk_last_span, rle_push. cbn [ck_ops ck_spans ck_consts ck_syms]. rewrite last_r.
  replace (match option_map mv (rle_last (ck_spans (lv_chunk l))) with Some s => s | None => default_span end)
    with (mv match rle_last (ck_spans (lv_chunk l)) with Some s => s | None => default_span end) by (destruct (rle_last _); [reflexivity|apply (mv_kept mv mo)]).
  rewrite push_r. now constructor.
Qed.
Lemma ms_exit_level : msim (fun x y => renamed_fn r mv (fst x) (fst y) /\ snd x = snd y) exit_level exit_level.
Proof.
  intros c c' [H1 H2 H3 H4]. unfold exit_level. destruct H2 as [|e e' q q' HE HR]; [exact Logic.I|]. split; [now apply finish_r|]. constructor; auto.
Qed.
Lemma ms_enter_scope : msim tt2 enter_scope enter_scope.
Proof. apply ms_mod. lsim_tac. Qed.
Lemma ms_flush q sp : msim tt2 (flush_pops q sp) (flush_pops q (mv sp)).
Proof. unfold flush_pops. destruct (_ <=? _)%N; [apply ms_write_op_u16|]. destruct (_ =? _)%N; [apply ms_write_op|apply ms_tt]. Qed.
Lemma ms_emit ops : forall q sp, msim tt2 (emit_pops ops q sp) (emit_pops ops q (mv sp)).
Proof.
  induction ops as [|[] t IH]; intros q sp; cbn [emit_pops]; [apply ms_flush| |apply IH].
  apply ms_seq; [apply ms_flush|]. apply ms_seq; [apply ms_write_op|]. apply IH.
Qed.
Lemma leaving_r d ls : leaving d (map rlocal ls) = (fst (leaving d ls), map rlocal (snd (leaving d ls))).
Proof.
  induction ls as [|l ls IH]; [reflexivity|]. cbn [map leaving rlocal l_cleanup l_depth l_captured]. rewrite IH.
  destruct (l_cleanup l && (d <? l_depth l)); [|reflexivity]. destruct (leaving d ls). reflexivity.
Qed.
Lemma ms_exit_scope sp : msim tt2 (exit_scope sp) (exit_scope (mv sp)).
Proof.
  apply ms_seq; [apply ms_mod; lsim_tac|]. eapply ms_bind; [apply ms_get|]. intros l l' HL. rewrite <- (ls_depth _ _ HL), (ls_locals _ _ HL), leaving_r.
  destruct (leaving _ _) as [ops rest]. cbn [fst snd]. apply ms_seq; [apply ms_set; lsim_tac|].
  destruct ops; [apply ms_tt|]. apply ms_seq; [apply ms_write_op|]. apply ms_seq; [apply ms_emit|apply ms_write_op].
Qed.
Lemma add_up l l' i b : lsim l l' -> lsim (fst (add_upvalue l i b)) (fst (add_upvalue l' i b)) /\ snd (add_upvalue l i b) = snd (add_upvalue l' i b).
Proof.
  intros HL. unfold add_upvalue. rewrite (ls_upvalues _ _ HL). destruct (position _ _); cbn [fst snd]; split; auto. lsim_tac.
Qed.
Lemma local_r x b ls : resolve_local (map rlocal ls) (r x) b = (map rlocal (fst (resolve_local ls x b)), snd (resolve_local ls x b)).
Proof.
  induction ls as [|l ls IH]; [reflexivity|]. cbn [map resolve_local]. change (l_name (rlocal l)) with (r (l_name l)). rewrite seqb_r, map_length.
  destruct (seqb (l_name l) x); [reflexivity|]. rewrite IH. destruct (resolve_local ls x b). reflexivity.
Qed.
Lemma resolve_up x : forall ps ps' l l', lsim l l' -> Forall2 lsim ps ps' ->
  match resolve_upvalue l ps x, resolve_upvalue l' ps' (r x) with (k, qs, i), (k', qs', i') => lsim k k' /\ Forall2 lsim qs qs' /\ i = i' end.
Proof.
  induction ps as [|p ps IH]; intros ps' l l' HL HP; inversion HP as [|? p' ? ps1 HP1 HP2]; subst; cbn [resolve_upvalue]; [auto|].
  rewrite (ls_locals _ _ HP1), local_r. destruct (resolve_local (lv_locals p) x true) as [ls [i|]]; cbn [fst snd].
  - pose proof (add_up l l' i true HL) as [HA HB]. destruct (add_upvalue l i true), (add_upvalue l' i true). cbn [fst snd] in HA, HB. subst. split; [exact HA|]. split; [|reflexivity]. constructor; auto. clear HA HL. lsim_tac.
  - specialize (IH ps1 p p' HP1 HP2). destruct (resolve_upvalue p ps x) as [[k qs] i], (resolve_upvalue p' ps1 (r x)) as [[k' qs'] i']. destruct IH as (H1 & H2 & <-).
    destruct i as [i|]; [|split; [exact HL|]; split; [constructor; auto|reflexivity]].
    pose proof (add_up l l' i false HL) as [HA HB]. destruct (add_upvalue l i false), (add_upvalue l' i false). cbn [fst snd] in HA, HB. subst. split; [exact HA|]. split; [constructor; auto|reflexivity].
Qed.
Lemma ms_resolve x : msim eq (resolve_upvalue_m x) (resolve_upvalue_m (r x)).
Proof.
  intros c c' [H1 H2 H3 H4]. unfold resolve_upvalue_m. pose proof (resolve_up x _ _ _ _ H1 H2) as H.
  destruct (resolve_upvalue (c_level c) _ x) as [[k qs] i], (resolve_upvalue (c_level c') _ (r x)) as [[k' qs'] i']. destruct H as (HA & HB & <-).
  split; [reflexivity|]. constructor; auto.
Qed.
Lemma ms_variable a b d x sp : msim tt2 (variable_op a b d x sp) (variable_op a b d (r x) (mv sp)).
Proof.
  eapply ms_bind; [apply ms_get|]. intros l l' HL. rewrite (ls_locals _ _ HL), local_r. cbn [snd]. destruct (snd _); [apply ms_write_op_u16|].
  eapply ms_bind; [apply ms_resolve|]. intros ? i ->. destruct i; [apply ms_write_op_u16|].
  eapply ms_bind; [apply ms_add_global_symbol|]. intros ? off ->. apply ms_write_op_u16.
Qed.
Lemma declared_r d x ls : declared_here d (r x) (map rlocal ls) = declared_here d x ls.
Proof.
  induction ls as [|l ls IH]; [reflexivity|]. cbn [map declared_here]. change (l_name (rlocal l)) with (r (l_name l)).
  change (l_depth (rlocal l)) with (l_depth l). now rewrite seqb_r, IH.
Qed.
Lemma ms_define x b : msim tt2 (define_local x b) (define_local (r x) b).
Proof.
  eapply ms_bind; [apply ms_get|]. intros l l' HL. rewrite (ls_locals _ _ HL), <- (ls_depth _ _ HL), declared_r. apply ms_seq.
  - destruct (declared_here _ _ _).
    + apply ms_mod. intros k k' HK. pose proof (ls_syms _ _ HK) as E. rewrite E, force_r. cbn [fst]. clear HL E. lsim_tac.
    + eapply ms_bind; [apply ms_add_symbol|]. intros. apply ms_tt.
  - apply ms_mod. clear HL. intros k k' HK. destruct HK; constructor; cbn; auto. now rewrite ls_locals0, ls_depth0.
Qed.
Lemma ms_defines xs : msim tt2 (define_locals xs) (define_locals (map r xs)).
Proof. induction xs; cbn [define_locals map]; [apply ms_tt|]. apply ms_seq; [apply ms_define|auto]. Qed.
Lemma ms_temps n : msim tt2 (reserve_temps n) (reserve_temps n).
Proof.
  induction n; cbn [reserve_temps]; [apply ms_tt|]. eapply ms_bind; [apply ms_get|]. intros l l' HL. rewrite (ls_locals _ _ HL), map_length.
  apply ms_seq; [|auto]. pose proof (ms_define (temp_name (length (lv_locals l))) true) as H.
  rewrite (rn_kept r rn _ (temp_made_up _)) in H. exact H.
Qed.
Lemma ms_fin k sp : msim tt2 (fin k sp) (fin k (mv sp)).
Proof. destruct k as [|[]]; cbn [fin]; auto using ms_tt, ms_write_op. Qed.
Lemma ms_global : msim eq is_global is_global.
Proof. eapply ms_bind; [apply ms_get|]. intros l l' HL. apply ms_ret. rewrite (ls_depth _ _ HL). reflexivity. Qed.
Lemma ms_external off x sp : msim tt2 (add_external off x sp) (add_external off (r x) (mv sp)).
Proof.
  intros c c' [H1 H2 H3 H4]. unfold add_external. rewrite <- H4. destruct (existsb _ _); [split; reflexivity|]. split; [exact Logic.I|]. constructor; cbn; auto.
Qed.
Lemma ms_patch_all js sp : msim tt2 (patch_all js sp) (patch_all js (mv sp)).
Proof. induction js; cbn [patch_all]; [apply ms_tt|]. apply ms_seq; [apply ms_patch_jump|auto]. Qed.
Lemma ms_upvalues us sp : msim tt2 (write_upvalues us sp) (write_upvalues us (mv sp)).
Proof. induction us as [|[i b] us IH]; cbn [write_upvalues]; [apply ms_tt|]. apply ms_seq; [apply ms_write_u8|]. apply ms_seq; [apply ms_write_u16|auto]. Qed.
Lemma ms_define_globals xs : msim tt2 (define_globals xs) (define_globals (map (rename_name r mv) xs)).
Proof.
  induction xs as [|[x s] xs IH]; cbn [define_globals map rename_name fst snd]; [apply ms_tt|].
  eapply ms_bind; [apply ms_add_global_symbol|]. intros ? off ->. apply ms_seq; [apply ms_write_op_u16|auto].
Qed.
Lemma literal_const l : renamed_const r mv (literal_to_value l) (literal_to_value l).
Proof.
  apply rc_same. revert l. fix IH 1. intros [| | | | | | |l|a b]; cbn [literal_to_value]; try (constructor; fail).
  - unfold force_array, vecc_force_new, of_vecc. cbn. constructor. induction l as [|x l IHl]; cbn [map]; constructor; [apply IH|exact IHl].
  - constructor; apply IH.
Qed.

(** ** Loops over parts *)
Definition one (e : nodeS) : nodeS := (rename r mv (fst e), mv (snd e)).
Definition node_sim (m : mode) (n : node) : Prop := forall k sp, msim tt2 (cnode m k n sp) (cnode m k (rename r mv n) (mv sp)).
Section Parts.
Context (m : mode).
Let PS (e : nodeS) : Prop := node_sim m (fst e).
Lemma part k e : PS e -> msim tt2 (cnode m k (fst e) (snd e)) (cnode m k (fst (one e)) (snd (one e))).
Proof. intros H. apply H. Qed.
Lemma ms_stmnts l : Forall PS l ->
  msim (fun a b => b = mv a) (stmnts_with (fun p => cnode m (KStmt p)) l) (stmnts_with (fun p => cnode m (KStmt p)) (map one l)).
Proof.
  induction 1 as [|e l HE HL IH]; cbn [stmnts_with map]; [apply ms_ret; symmetry; apply (mv_kept mv mo)|].
  destruct l; cbn [map] in *.
  - apply ms_seq; [apply part; auto|]. apply ms_ret. reflexivity.
  - apply ms_seq; [apply part; auto|]. exact IH.
Qed.
Lemma ms_each k l : Forall PS l -> msim tt2 (each_with (cnode m k) l) (each_with (cnode m k) (map one l)).
Proof.
  induction 1 as [|e l HE HL IH]; cbn [each_with map]; [apply ms_tt|]. apply ms_seq; [apply part; auto|]. apply IH.
Qed.
Lemma ms_each_rev k l : Forall PS l -> msim tt2 (each_rev_with (cnode m k) l) (each_rev_with (cnode m k) (map one l)).
Proof.
  induction 1 as [|e l HE HL IH]; cbn [each_rev_with map]; [apply ms_tt|]. apply ms_seq; [apply IH|]. apply part; auto.
Qed.
Lemma ms_block l : Forall PS l ->
  msim tt2 (block_with (fun p => cnode m (KStmt p)) l) (block_with (fun p => cnode m (KStmt p)) (map one l)).
Proof. intros H. apply ms_seq; [apply ms_enter_scope|]. eapply ms_bind; [apply ms_stmnts; eauto|]. intros sp ? ->. apply ms_exit_scope. Qed.
Lemma ms_cases cs : Forall (fun cb => PS (fst cb) /\ Forall PS (snd cb)) cs ->
  msim eq (cases_with (cnode m) cs) (cases_with (cnode m) (map (fun c => (one (fst c), map one (snd c))) cs)).
Proof.
  induction 1 as [|c cs [HC HB] HL IH]; cbn [cases_with map fst snd]; [apply ms_ret; reflexivity|].
  apply ms_seq; [apply part; auto|]. eapply ms_bind; [apply ms_write_jump|]. intros ? j ->.
  apply ms_seq; [apply ms_write_op_u16|]. apply ms_seq; [apply ms_block; auto|]. eapply ms_bind; [apply ms_write_jump|]. intros ? j2 ->.
  apply ms_seq; [apply ms_patch_jump|]. eapply ms_bind; [apply IH|]. intros ? js ->. apply ms_ret. reflexivity.
Qed.
Lemma over_map {A B} (g : A -> B) l : over255 (map g l) = over255 l.
Proof. unfold over255. now rewrite map_length. Qed.
Lemma len_map {A B} (g : A -> B) l : len8 (map g l) = len8 l.
Proof. unfold len8. now rewrite map_length. Qed.
Lemma fst_map (a : list (spanned rstring)) : map fst (map (rename_name r mv) a) = map r (map fst a).
Proof. rewrite !map_map. reflexivity. Qed.
Lemma fst_rev (a : list (spanned rstring)) : map fst (rev (map (rename_name r mv) a)) = map r (map fst (rev a)).
Proof. rewrite <- map_rev. apply fst_map. Qed.
Lemma ms_function x a b sp : Forall PS b ->
  msim tt2 (function_with (fun p => cnode m (KStmt p)) x a b sp) (function_with (fun p => cnode m (KStmt p)) (rename_name r mv x) (map (rename_name r mv) a) (map one b) (mv sp)).
Proof.
  intros HP. unfold function_with. rewrite over_map, len_map, fst_map. destruct (over255 a); [apply ms_fail; reflexivity|].
  eapply ms_bind; [apply ms_get|]. intros l l' HL. apply ms_seq.
  { apply ms_enter_level. constructor; cbn; auto; [apply HL|split; constructor]. }
  apply ms_seq; [apply ms_enter_scope|]. apply ms_seq; [apply ms_define|]. apply ms_seq; [apply ms_defines|].
  eapply ms_bind; [apply ms_stmnts; eauto|]. intros _ _ _. eapply ms_bind; [apply ms_exit_level|]. intros fu fu' [HF HU].
  eapply ms_bind; [apply ms_add_constant; constructor; exact HF|]. intros ? i ->. rewrite HU. destruct (snd fu'); [apply ms_write_op_u16|].
  apply ms_seq; [apply ms_write_op_u16|apply ms_upvalues].
Qed.
Lemma ms_opt_block o sp : match o with Some l => Forall PS l | None => True end ->
  msim tt2 match o with Some b => write_op_u16 op_PopMany 2 sp ;; block_with (fun p => cnode m (KStmt p)) b | None => write_op op_Pop sp end
           match option_map (map one) o with Some b => write_op_u16 op_PopMany 2 (mv sp) ;; block_with (fun p => cnode m (KStmt p)) b | None => write_op op_Pop (mv sp) end.
Proof.
  destruct o; cbn; intros HP; [|apply ms_write_op]. apply ms_seq; [apply ms_write_op_u16|]. apply ms_block; auto.
Qed.
End Parts.

Ltac mstep :=
  match goal with
  | |- msim tt2 (ret tt) (ret tt) => apply ms_tt
  | |- msim _ (ret _) (ret _) => apply ms_ret
  | |- msim _ (fail _ _) (fail _ _) => apply ms_fail; reflexivity
  | |- msim _ crash crash => apply ms_crash
  | |- msim _ (write_op _ _) _ => apply ms_write_op
  | |- msim _ (write_u8 _ _) _ => apply ms_write_u8
  | |- msim _ (write_u16 _ _) _ => apply ms_write_u16
  | |- msim _ (write_op_u8 _ _ _) _ => apply ms_write_op_u8
  | |- msim _ (write_op_u16 _ _ _) _ => apply ms_write_op_u16
  | |- msim _ (write_jump _ _) _ => apply ms_write_jump
  | |- msim _ (write_jump_backward _ _) _ => apply ms_write_jump_backward
  | |- msim _ (patch_jump _ _) _ => apply ms_patch_jump
  | |- msim _ (patch_all _ _) _ => apply ms_patch_all
  | |- msim _ code_len _ => apply ms_code_len
  | |- msim _ get_level _ => apply ms_get
  | |- msim _ is_global _ => apply ms_global
  | |- msim _ enter_scope _ => apply ms_enter_scope
  | |- msim _ (exit_scope _) _ => apply ms_exit_scope
  | |- msim _ (add_constant (literal_to_value _)) _ => apply ms_add_constant, literal_const
  | |- msim _ (add_global_symbol _) _ => apply ms_add_global_symbol
  | |- msim _ (add_external _ _ _) _ => apply ms_external
  | |- msim _ (define_local _ _) _ => apply ms_define
  | |- msim _ (define_locals _) _ => apply ms_defines
  | |- msim _ (define_globals _) _ => apply ms_define_globals
  | |- msim _ (reserve_temps _) _ => apply ms_temps
  | |- msim _ (fin _ _) _ => apply ms_fin
  | |- msim _ (get_variable _ _) _ => apply ms_variable
  | |- msim _ (set_variable _ _) _ => apply ms_variable
  | |- msim _ (function_with _ _ _ _ _) _ => apply ms_function; assumption
  | |- msim _ (block_with _ _) _ => apply ms_block; assumption
  | |- msim _ (stmnts_with _ _) _ => apply ms_stmnts; assumption
  | |- msim _ (each_rev_with _ _) _ => apply ms_each_rev; assumption
  | |- msim _ (each_with _ _) _ => apply ms_each; assumption
  | |- msim _ (cases_with _ _) _ => apply ms_cases; assumption
  | |- msim _ (cnode _ _ _ _) _ => apply part; assumption
  | |- msim _ (match ?o with Some _ => _ | None => write_op op_Pop _ end) _ => apply ms_opt_block; assumption
  | |- msim _ (bind _ _) (bind _ _) => eapply ms_bind; [mstep|intros]
  end.
Ltac mgo := repeat first [mstep | progress subst | progress (rewrite ?over_map, ?len_map, ?fst_rev)
  | match goal with
    | H : lsim ?l ?l' |- msim _ (if _ then _ else _) _ => rewrite (ls_depth _ _ H); destruct (_ : bool)
    | |- msim _ (if ?b then _ else _) (if ?b then _ else _) => destruct b
    | |- msim _ (match ?b with Some _ => _ | None => _ end) (match ?b with Some _ => _ | None => _ end) => destruct b
    end].
Lemma fold_r m o n : fold_unary m o (rename r mv n) = fold_unary m o n.
Proof. destruct n; reflexivity. Qed.
Theorem all_nodes m n : node_sim m n.
Proof.
  induction n using node_ind'; unfold node_sim; intros k sp; cbn [rename cnode]; fold one;
    repeat match goal with x : spanned rstring |- _ => destruct x as [x ?] end; cbn [rename_name fst snd].
  all: try (mgo; fail).
  all: try (destruct k; mgo; fail).
  - destruct l; mgo.
  - destruct k; [mgo|]. apply ms_seq; [mgo|]. destruct v as [[x s]|xs]; cbn [rename_var rename_name fst snd]; mgo.
  - apply ms_seq; [|mgo]. pose proof (ms_function m (lambda_name, sp) a b sp) as K. unfold rename_name at 1 in K. cbn [fst snd] in K.
    rewrite (rn_kept r rn lambda_name (or_intror (or_introl eq_refl))) in K. apply K; assumption.
  - apply ms_seq; [mgo|]. apply ms_seq; [mgo|]. apply ms_seq; [|mgo]. destruct (binary_opcode o); mgo.
  - rewrite fold_r. apply ms_seq; [|mgo]. destruct (fold_unary m o (fst a)) as [[]|]; mgo.
  - rewrite over_map, len_map. destruct (over255 a); [mgo|]. do 2 (apply ms_seq; [mgo|]). eapply ms_bind; [mgo|]. intros ? off ->. do 3 (apply ms_seq; [mgo|]).
    apply ms_seq; [|mgo]. destruct v as [[[x1 s1]|xs]|]; cbn [option_map rename_var rename_name fst snd]; mgo.
  - destruct k; [mgo|]. eapply ms_bind; [mgo|]. intros l l' HL. rewrite (ls_depth _ _ HL). destruct (0 <? _); [mgo|].
    destruct b; cbn [option_map]; mgo.
  - destruct k; [mgo|]. eapply ms_bind; [mgo|]. intros l l' HL. rewrite (ls_depth _ _ HL). destruct (_ =? 0); [mgo|].
    destruct e; cbn [option_map]; mgo.
Qed.

Theorem compile_renamed m ast :
  match compile m ast, compile m (rename_program r mv ast) with
  | COk sc, COk sc' => renamed_script r mv sc sc'
  | CErr e sp, CErr e' sp' => e' = renamed_error r e /\ sp' = mv sp
  | CPanic, CPanic => True
  | _, _ => False
  end.
Proof.
  unfold compile.
  assert (HM : msim (fun a b => b = mv a) (set_main_span ast ;; compile_stmnts m ast) (set_main_span (rename_program r mv ast) ;; compile_stmnts m (rename_program r mv ast))).
  { apply ms_seq; [|apply ms_stmnts; apply Forall_forall; intros e _; apply all_nodes].
    destruct ast; cbn [set_main_span rename_program map]; [apply ms_tt|]. apply ms_mod. intros l l' HL. destruct HL; constructor; cbn; auto. now rewrite ls_name0. }
  assert (HC : csim (compiler_new main_name) (compiler_new main_name)).
  { constructor; [constructor|constructor| |]; try reflexivity; [|split; constructor].
    change ((main_name, default_span) = (r main_name, mv default_span)). now rewrite (mv_kept mv mo), (rn_kept r rn main_name (or_introl eq_refl)). }
  specialize (HM _ _ HC). destruct ((set_main_span ast ;; compile_stmnts m ast) _) as [[a|e sp|] c], ((set_main_span (rename_program r mv ast) ;; _) _) as [[a'|e' sp'|] c']; try contradiction; auto.
  destruct HM as [_ [H1 H2 H3 H4]]. split; cbn [as_script sc_externals sc_globals sc_function].
    + now symmetry.
    + now rewrite H3.
    + intros x. rewrite H3. unfold pool_id. apply lookup_r.
    + now apply finish_r.
Qed.

End Rename.
