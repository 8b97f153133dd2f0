(** The counts in compiled code are exact (C15). *)
From Verif Require Import Base RleVec Pool Vecc Float NumText Bytecode Chunk Value Ast Arith VmOps Compiler Vm Items CodeSize
                          SpecParse SpecReady SpecDisasm SpecPos SpecCount SpecStatic ProofCompiler ProofPos3 ProofPos6 ProofStatic2.
From Verif Require ProofCount ProofVm5.

(** ** Functions *)
Definition named_as (ast : list nodeS) (x : spanned rstring) (k : N) : Prop :=
  (fst x = main_name /\ k = 0%N) \/
  (exists params body place, occurs ast (NFunction x params body) place /\ k = N.of_nat (length params)) \/
  (exists params body place, occurs ast (NLambda params body) place /\ x = (lambda_name, place) /\ k = N.of_nat (length params)).

Lemma used_cok Nm sc f : ProofCount.cok Nm (sc_function sc) -> used sc f -> ProofCount.cok Nm f.
Proof.
  intros H U. induction U as [|f p i next k g U IH B Hd Hc Hk]; [exact H|]. destruct IH as [_ K].
  exact (K _ (MFun g) (nth_error_In _ _ Hk) (fi_fn _)).
Qed.
Lemma functions_declared m ast sc f : compile m ast = COk sc -> used sc f ->
  (fn_name f = main_name /\ fn_arity f = 0%N) \/ declared ast f.
Proof.
  intros Hc U.
  assert (K : ProofCount.cok (named_as ast) f).
  { eapply used_cok; [|exact U]. eapply ProofCount.compile_ok; [|intros n sp Ho|exact Hc]; [intros sp; left; auto|].
    destruct n; cbn [ProofCount.fits_name]; auto; unfold named_as, len8; [right; left|right; right]; eauto 8. }
  destruct K as [[K|[K|K]] _]; [left; exact K|right; left|right; right].
  - destruct K as (ps & b & pl & K1 & K2). eauto 8.
  - destruct K as (ps & b & pl & K1 & K2 & K3). eauto 8.
Qed.

(** ** Instructions *)
Lemma used_fok at_ P G sc f : fok at_ P G (sc_function sc) -> used sc f -> fok at_ P G f.
Proof.
  intros H U. induction U as [|f p i next k g U IH B Hd Hc Hk]; [exact H|]. destruct IH as [? ? ? ? ? ? K].
  exact (K _ (MFun g) (nth_error_In _ _ Hk) (fi_fn _)).
Qed.
Lemma instructions_counted m ast sc f p i next :
  compile m ast = COk sc -> weights ast <= N.to_nat 65535 -> complete_program ast ->
  used sc f -> boundary (fn_chunk f) p -> decode (ck_ops (fn_chunk f)) p = Ok (i, next) ->
  counted ast (p_entries (sc_globals sc)) i (chunk_get_span (fn_chunk f) (next - 1)).
Proof.
  intros Hc Hw Hcp U B Hd. destruct (compile_pieces ast m sc Hc Hw Hcp) as (F & _ & _).
  apply (used_fok _ _ _ _ f) in F; [|exact U]. destruct (fok_cut _ _ _ _ F) as (sh & HC).
  destruct (boundary_piece _ _ _ _ _ HC p B (ProofVm5.decode_in _ _ _ Hd)) as (a & x & b & E & ->).
  destruct (at_piece _ _ _ _ _ HC _ _ _ E) as (j & H1 & H2 & H3 & _ & _ & H6).
  assert (Ej : j = i /\ next = psize a + length (enc i)). { rewrite H3 in Hd. injection Hd as <- <-. auto. }
  destruct Ej as [-> ->]. destruct HC as (_ & _ & HM & _). rewrite E in HM. apply Forall_app in HM as [_ HM]. inversion HM as [|? ? Hm _]; subst.
  destruct Hm as [q sp Hq Hp|q n sp Ho Ha|q sp Hq Hp|q n sp Ho Ha|l it b0 sp Ha|id x sp Ha Hn|id x sp v asp Ha Hn|id x csp l sp Ha Hn
                 |id x csp l v b0 sp Ha Hn|off g sp Hp Hf|off us g sp Hp Hf Hu]; cbn [p_kind pinstr p_last] in *.
  - subst i. destruct q; try discriminate Hq; exact Logic.I.
  - subst i. rewrite H6 by (intros k ->; inversion Ho). destruct Ho; cbn [counted]; try exact Logic.I; unfold len8; eauto 10.
  - destruct H1 as [v ->]. destruct q; exact Logic.I.
  - destruct H1 as [v ->]. destruct q; exact Logic.I.
  - subst i. rewrite H6 by discriminate. cbn [counted]. exists l. split; [reflexivity|]. right. right. destruct it as [n it]. eauto.
  - subst i. exact Logic.I.
  - subst i. exact Logic.I.
  - subst i. rewrite H6 by discriminate. cbn [counted]. exists x, l, sp. split; [exact Ha|split; [exact Hn|reflexivity]].
  - subst i. rewrite H6 by discriminate. cbn [counted]. exists x, l, v, b0, sp. split; [exact Ha|split; [exact Hn|reflexivity]].
  - subst i. exact Logic.I.
  - subst i. exact Logic.I.
Qed.

(** ** Errors *)
Lemma unpack_error m before sp x names v after :
  (exists sc, compile m (before ++ [(NDeclaration (VarDecl x) v, sp)]) = COk sc) -> 255 < length names ->
  compile m (before ++ (NDeclaration (VarMulti names) v, sp) :: after) = CErr ETooMuchToUnpack sp.
Proof.
  intros H Hl. apply Nat.ltb_lt in Hl. destruct (compile_cut m before sp _ H) as (c1 & a & c2 & E0 & _ & _ & E). rewrite E.
  pose proof (stmnts_err (fun p => cnode m (KStmt p)) (NDeclaration (VarMulti names) v) sp after c1 ETooMuchToUnpack sp) as X.
  destruct (stmnts_with _ _ c1) as [r c]. cbn [fst] in X. rewrite X; auto.
  intros p. cbn [cnode] in *. unfold bind in E0 at 1. unfold bind at 1. destruct (cnode m KExpr (fst v) (snd v) c1) as [[u| |] c3]; try discriminate.
  unfold over255. rewrite Hl. reflexivity.
Qed.
Lemma context_error m before sp x args v body after :
  (exists sc, compile m (before ++ [(NLiteral LNone, sp)]) = COk sc) -> 255 < length args ->
  compile m (before ++ (NContext x args v body, sp) :: after) = CErr ETooManyArgs sp.
Proof.
  intros H Hl. apply Nat.ltb_lt in Hl. destruct (compile_cut m before sp _ H) as (c1 & a & c2 & E0 & _ & _ & E). rewrite E.
  pose proof (stmnts_err (fun p => cnode m (KStmt p)) (NContext x args v body) sp after c1 ETooManyArgs sp) as X.
  destruct (stmnts_with _ _ c1) as [r c]. cbn [fst] in X. rewrite X; auto.
  intros p. cbn [cnode]. unfold over255. destruct x. rewrite Hl. reflexivity.
Qed.
Lemma context_unpack_error m before sp x xsp args names body after :
  (exists sc, compile m (before ++ [(NContext (x, xsp) args None body, sp)]) = COk sc) -> 255 < length names ->
  compile m (before ++ (NContext (x, xsp) args (Some (VarMulti names)) body, sp) :: after) = CErr ETooMuchToUnpack xsp.
Proof.
  intros H Hl. apply Nat.ltb_lt in Hl. destruct (compile_cut m before sp _ H) as (c1 & a & c2 & E0 & _ & _ & E). rewrite E.
  pose proof (stmnts_err (fun p => cnode m (KStmt p)) (NContext (x, xsp) args (Some (VarMulti names)) body) sp after c1 ETooMuchToUnpack xsp) as X.
  destruct (stmnts_with _ _ c1) as [r c]. cbn [fst] in X. rewrite X; auto.
  intros p. cbn [cnode] in *. destruct (over255 args); [discriminate|]. unfold bind in E0 at 1. unfold bind at 1.
  destruct (each_with (cnode m KExpr) args c1) as [[u| |] c3]; try discriminate.
  unfold over255. rewrite Hl. unfold bind, write_op, write_u16, write_u8, mod_level, get_level, set_level, enter_scope, fail, bind, add_global_symbol.
  unfold mod_level, get_level, set_level, bind. destruct (pool_add _ _ _). reflexivity.
Qed.
