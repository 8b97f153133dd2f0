(** What the direct evaluation does for each construct, as equations; single
    instructions on agreeing states; loops. *)
From Verif Require Import Base RleVec Pool Vecc Float NumText Bytecode Chunk Value Ast Arith VmOps
                          Compiler Vm Items CodeRel SpecParse SpecReady SpecRel SpecEval ProofVars ProofRel ProofCode6 ProofSim1
                          ProofSim2 ProofSim3 ProofSim4 ProofSim5 ProofSim6 ProofSim7.

Section Outs.
Context {D : Type} (m : mode) (orc : oracle) (opts : options)
        (builtins : rstring -> option (sbuiltin (D:=D))).
Context (call : sfn -> list sval -> sst (D:=D) -> out (D:=D) sval) (rounds : nat).
Notation ev := (ev m orc opts builtins call rounds).
Notation ex := (ex m orc opts builtins call rounds).
Notation block := (block_with (ev false)).
Notation "'run' a ',' s ':=' x 'in' k" := (seq x (fun a s => k))
  (at level 200, a pattern, s ident, x at level 100, k at level 200, right associativity).
Local Ltac eqn := unfold ex; cbn [SpecEval.ev]; rewrite ?seq_value; reflexivity.

Lemma ex_literal l r s : ex (NLiteral l) r s = Got (lit_value l) s. Proof using. eqn. Qed.
Lemma ex_array items r s : ex (NArray items) r s =
  run vs, s := list_with (fun n s => ex n r s) (rev items) s in lift (v_array (o_array_max opts) (rev vs)) s.
Proof using.
  unfold ex at 1. cbn [SpecEval.ev]. rewrite seq_value, list_back_rev, seq_seq. reflexivity.
Qed.
Lemma ex_pair a b r s : ex (NPair a b) r s =
  run x, s := ex (fst a) r s in run y, s := ex (fst b) r s in Got (VPair x y) s.
Proof using. eqn. Qed.
Lemma ex_range a b r s : ex (NRange a b) r s =
  run x, s := ex (fst a) r s in run y, s := ex (fst b) r s in lift (v_range sfi x y) s.
Proof using. eqn. Qed.
Lemma ex_ident x r s : ex (NIdentifier x) r s = read_var x r s. Proof using. eqn. Qed.
Lemma ex_assign x e r s : ex (NAssignment x e) r s =
  run v, s := ex (fst e) r s in write_var (fst x) v r s.
Proof using. eqn. Qed.
Lemma ex_lambda a b r s : ex (NLambda a b) r s = Got (VFn (mkSfn lambda_name (map fst a) b r)) s.
Proof using. eqn. Qed.
Lemma ex_block b r s : ex (NBlock b) r s = block b r s. Proof using. eqn. Qed.
Lemma ex_cond c t o r s : ex (NConditional c t o) r s =
  run x, s := ex (fst c) r s in
  run b, s := lift (is_truthy sfi x) s in
  if (b : bool) then block t r s else else_with (ev false) o r s.
Proof using. eqn. Qed.
Lemma ex_switch e cs d r s : ex (NSwitch e cs d) r s =
  run v, s := ex (fst e) r s in cases_with (ev false) v d r cs s.
Proof using. eqn. Qed.
Lemma ex_for x i b r s : ex (NFor x i b) r s =
  run it, s := ex (fst i) r s in
  for_ m rounds it (fun v s => run r', s := bind_var (VarDecl x) v r s in block b r' s) 0 VNone s.
Proof using. eqn. Qed.
Lemma ex_mfor x i b r s : ex (NMultiFor x i b) r s =
  run it, s := ex (fst i) r s in
  for_ m rounds it (fun v s => run r', s := bind_var (VarMulti x) v r s in block b r' s) 0 VNone s.
Proof using. eqn. Qed.
Lemma ex_while c b r s : ex (NWhile c b) r s =
  while_ rounds (fun s => ex (fst c) r s) (fun s => block b r s) VNone s.
Proof using. eqn. Qed.
Lemma ex_binary o a b r s : ex (NBinary o a b) r s =
  run x, s := ex (fst a) r s in run y, s := ex (fst b) r s in
  match binary_fn m orc sfi sfn_eq (o_string_max opts) (o_array_max opts) o with
  | Some f => lift (f x y) s
  | None => Unspecified
  end.
Proof using. eqn. Qed.
Lemma ex_unary o a r s : ex (NUnary o a) r s =
  run x, s := ex (fst a) r s in
  match unary_fn m sfi o with Some f => lift (f x) s | None => Unspecified end.
Proof using. eqn. Qed.
Lemma ex_call f args r s : ex (NCall f args) r s =
  run c, s := ex (fst f) r s in
  run vs, s := list_with (fun n s => ex n r s) args s in
  match c with
  | VFn c => if length vs =? length (sf_params c) then call c vs s
             else Failed (EMismatchedArity (sf_name c) (N.of_nat (length (sf_params c)))
                                           (N.of_nat (length vs))) s
  | _ => Failed (ENotCallable (ntype sfi c)) s
  end.
Proof using. eqn. Qed.
Lemma ex_builtin x args r s : ex (NBuiltinCall x args) r s =
  run vs, s := list_with (fun n s => ex n r s) args s in
  match builtins (fst x) with
  | Some (SFn f) => run_sbfn opts f vs s
  | Some (SContext _ _) => Failed (ENotCallable (str "context manager")) s
  | None => Failed (EUndefinedBuiltin (fst x)) s
  end.
Proof using. eqn. Qed.
Lemma ex_context x args v body r s : ex (NContext x args v body) r s =
  run vs, s := list_with (fun n s => ex n r s) args s in
  match builtins (fst x) with
  | Some (SContext entry exit) =>
      run w, s := run_sbfn opts entry vs s in
      run r', s := match v with Some v => bind_var v w r s | None => Got r s end in
      match block body r' s with
      | Got res s => run _, s := run_exit exit s in Got res s
      | Returned _ _ => Unspecified
      | x => x
      end
  | Some (SFn _) => Unspecified
  | None => Failed (EUndefinedBuiltin (fst x)) s
  end.
Proof using. eqn. Qed.
Lemma ex_index t i r s : ex (NIndexGet t i) r s =
  run k, s := ex (fst i) r s in run x, s := ex (fst t) r s in lift (v_index m sfi k x) s.
Proof using. eqn. Qed.

Lemma list_cons f e t s : list_with (D:=D) f (e :: t) s =
  run v, s := f (fst e) s in run vs, s := list_with f t s in Got (v :: vs) s.
Proof using. reflexivity. Qed.
Lemma stmts_one f e r s : stmts_with (D:=D) f [e] r s = run vr, s := f (fst e) r s in Got vr s.
Proof using. reflexivity. Qed.
Lemma stmts_cons f e e' t r s : stmts_with (D:=D) f (e :: e' :: t) r s =
  run vr, s := f (fst e) r s in stmts_with f (e' :: t) (snd vr) s.
Proof using. reflexivity. Qed.
Lemma cases_cons v d r c t s : cases_with (ev false) v d r (c :: t) s =
  run w, s := ex (fst (fst c)) r s in
  run same, s := lift (geqb sfn_eq v w) s in
  if (same : bool) then block (snd c) r s else cases_with (ev false) v d r t s.
Proof using. unfold ex. rewrite seq_seq. reflexivity. Qed.
End Outs.

Lemma placed_array al items : placed al (NArray items) = first_ok al (rev items).
Proof.
  rewrite <- last_first. cbn [placed]. induction items as [|e t IH]; [reflexivity|].
  cbn [last_ok]. destruct t as [|e' t]; [reflexivity|]. rewrite <- IH. reflexivity.
Qed.
Lemma temp_ordinary k x : ordinary x -> seqb (temp_name k) x = false.
Proof. intros H. apply seqb_neq. intros <-. apply H. reflexivity. Qed.

Section Sim.
Context {D : Type} (m : mode) (hst : host D) (opts : options) (gs : pool rstring)
        (bs : list (N * builtin D)) (G : list rstring).
Notation goes := (goes m hst opts gs bs).
Notation failing := (failing m hst opts gs bs).
Notation finishes := (finishes m hst opts gs bs).
Notation lasts := (lasts m hst opts gs bs).
Notation leads := (leads m hst opts gs bs).
Notation "ip '+>' i" := (ip + length (item_bytes (It i))) (at level 50).
Notation vr := (vr m G).
Notation mem := (mem m G).
Notation sst := (@sst D).
Notation Inv := (Inv m gs G).
Notation here := (here m gs G).
Notation pushed := (pushed m G).
Notation tops := (tops m G).
Notation sim := (sim m hst opts gs bs G).
Notation globs := (globs m gs G).
Implicit Types (F : @fixed D) (w : @world D).

Lemma goes_ip k F F' a b a' b' M M' : a = a' -> b = b' -> goes k (F, a, M) (F', b, M') -> goes k (F, a', M) (F', b', M').
Proof using. intros <- <-. auto. Qed.
Lemma sim_ip {A} P n F a b w a' b' (o : out A) Q : a = a' -> b = b' -> sim P n F a w b o Q -> sim P n F a' w b' o Q.
Proof using. intros <- <-. auto. Qed.

Lemma sim_push P L F ip w ip' n v y : Inv P L w -> vr (w_cv w) v y ->
  goes 1 (F, ip, mkM (stk w) (m_gl (w_mov w)) (m_heap (w_mov w)) (m_data (w_mov w)))
         (F, ip', mkM (stk w ++ [y]) (m_gl (w_mov w)) (m_heap (w_mov w)) (m_data (w_mov w))) ->
  sim P n F ip w ip' (Got v (w_st w)) (fun v w' => Inv P L w' /\ pushed w [v] w').
Proof using.
  intros I Hv Hg. destruct (push_world m gs G P L w v y I Hv) as [I' P'].
  exists 1, (pushw w y). split; [rewrite mov_eta in Hg; exact Hg|]. auto.
Qed.

(** An operation on the values on top. *)
Lemma sim_top P L F ip w0 w ip' n vs (r : res sval) : Inv P L w0 -> Inv P L w -> pushed w0 vs w ->
  (forall t ws, Forall2 (vr (w_cv w)) vs ws -> exists r', rr (vr (w_cv w)) r r' /\
     leads F ip F ip' (t ++ ws) t (m_gl (w_mov w)) (m_heap (w_mov w)) (m_data (w_mov w)) r') ->
  sim P n F ip w ip' (lift r (w_st w)) (fun v w' => Inv P L w' /\ pushed w0 [v] w').
Proof using.
  intros I0 I1 Hp K. destruct (pushed_split m gs G _ _ _ _ _ _ _ I0 I1 Hp) as (t & ws & Et & Hf & Lt & Lt').
  destruct (K t ws Hf) as (r' & Hr & Hl).
  eapply (sim_lift m hst opts gs bs G P L P L n F ip w0 w ip' vs t ws r r'); eauto. apply (iv_base _ _ _ _ _ _ I0).
Qed.

(** Taking values off the top, and putting others in their place. *)
Lemma sim_swap P L F ip w0 w ip' vs vs' : Inv P L w0 -> Inv P L w -> pushed w0 vs w ->
  (forall t ws, Forall2 (vr (w_cv w)) vs ws -> exists ws', Forall2 (vr (w_cv w)) vs' ws' /\
     goes 1 (F, ip, mkM (t ++ ws) (m_gl (w_mov w)) (m_heap (w_mov w)) (m_data (w_mov w)))
            (F, ip', mkM (t ++ ws') (m_gl (w_mov w)) (m_heap (w_mov w)) (m_data (w_mov w)))) ->
  exists w', goes 1 (F, ip, w_mov w) (F, ip', w_mov w') /\ w_st w' = w_st w /\ Inv P L w' /\ pushed w0 vs' w'.
Proof using.
  intros I0 I1 Hp K. destruct (pushed_split m gs G _ _ _ _ _ _ _ I0 I1 Hp) as (t & ws & Et & Hf & Lt & Lt').
  destruct (K t ws Hf) as (ws' & Hf' & Hg).
  destruct (replace_top m gs G P L P L w0 w vs t ws vs' ws' (m_data (w_mov w)) I0) as [I' P']; auto.
  { apply (iv_base _ _ _ _ _ _ I0). }
  unfold retop in *. rewrite (put_data_same _ _ _ _ _ _ I1) in *.
  match type of I' with Inv _ _ ?x => exists x end. split; [rewrite (mov_top w t ws Et); exact Hg|]. auto.
Qed.
Lemma grown_nil w w' : pushed w [] w' <-> grown w w' [].
Proof using.
  split; [intros [H _]; exact H|]. intros H. split; [exact H|]. exists (stk w'), []. rewrite app_nil_r. auto.
Qed.
(** What holds of the values on top, cut in two. *)
Lemma pushed_cut P L w0 w vs1 vs2 : Inv P L w0 -> Inv P L w -> pushed w0 (vs1 ++ vs2) w ->
  exists wb, Inv P L wb /\ pushed w0 vs1 wb /\ pushed wb vs2 w /\ w_st wb = w_st w.
Proof using.
  intros I0 I1 Hp. destruct (pushed_split m gs G _ _ _ _ _ _ _ I0 I1 Hp) as (t & ws & Et & Hf & Lt & Lt').
  apply Forall2_app_inv_l in Hf as (ws1 & ws2 & Hf1 & Hf2 & ->).
  destruct (replace_top m gs G P L P L w0 w (vs1 ++ vs2) t (ws1 ++ ws2) vs1 ws1 (m_data (w_mov w)) I0) as [I' P']; auto.
  { apply (iv_base _ _ _ _ _ _ I0). }
  unfold retop in *. rewrite (put_data_same _ _ _ _ _ _ I1) in *.
  match type of I' with Inv _ _ ?x => exists x end. split; [exact I'|]. split; [exact P'|]. split; [|reflexivity].
  destruct Hp as [[G1 G2 G3] _]. split.
  - constructor; cbn; auto; [| |apply ext_refl].
    + rewrite G1, app_length, <- nones_app, <- (f2_length _ _ _ Hf1), app_assoc. auto.
    + intros i Hi. unfold stk. cbn. apply nth_some_lt in Hi. rewrite app_length, nones_length in Hi. fold (stk w). rewrite Et, app_assoc.
      rewrite nth_error_app1; auto. rewrite app_length. lia.
  - exists (t ++ ws1), ws2. rewrite <- app_assoc. auto.
Qed.
Lemma pushed_base P L w0 w vs : Inv P L w0 -> Inv P L w -> pushed w0 vs w -> length (stk w) = length (stk w0) + length vs.
Proof using.
  intros I0 I1 Hp. destruct (pushed_split m gs G _ _ _ _ _ _ _ I0 I1 Hp) as (t & ws & Et & Hf & Lt & Lt').
  rewrite Et, app_length, (f2_length _ _ _ Hf). lia.
Qed.
Lemma aligned_nil P L w0 w : Inv P L w0 -> Inv P L w -> pushed w0 [] w -> aligned P L w0 -> aligned P L w.
Proof using.
  intros I0 I1 Hp Ha. unfold aligned in *. rewrite (pushed_base P L w0 w [] I0 I1 Hp). cbn. lia.
Qed.

Lemma sim_pop P L F ip w0 w vs v : Inv P L w0 -> Inv P L w -> pushed w0 (vs ++ [v]) w ->
  code_at (k_fn F) ip [It IPop] ->
  exists w', goes 1 (F, ip, w_mov w) (F, ip +> IPop, w_mov w') /\ w_st w' = w_st w /\ Inv P L w' /\ pushed w0 vs w'.
Proof using.
  intros I0 I1 Hp Hc. eapply sim_swap; eauto. intros t ws Hf.
  apply Forall2_app_inv_l in Hf as (ws1 & ws2 & Hf1 & Hf2 & ->). inversion Hf2 as [|? y ? ? Hy Hn]; subst. inversion Hn; subst.
  exists ws1. split; auto. rewrite app_assoc. apply i_pop. auto.
Qed.
Lemma sim_pop2 P L F ip w0 w a b : Inv P L w0 -> Inv P L w -> pushed w0 [a; b] w ->
  code_at (k_fn F) ip [It (IPopMany 2)] ->
  exists w', goes 1 (F, ip, w_mov w) (F, ip +> IPopMany 2, w_mov w') /\ w_st w' = w_st w /\ Inv P L w' /\ pushed w0 [] w'.
Proof using.
  intros I0 I1 Hp Hc. eapply sim_swap; eauto. intros t ws Hf. exists []. split; auto. rewrite app_nil_r.
  apply i_pops; auto. rewrite <- (f2_length _ _ _ Hf). reflexivity.
Qed.

Lemma info cv : forall x y, fn_rel m G cv x y -> fi_type sfi x = fi_type mfi y.
Proof using. intros. eapply fn_rel_info; eauto. Qed.
Lemma eq_open cv (e : mfn -> mfn -> res bool) : forall x y x' y', fn_rel m G cv x y -> fn_rel m G cv x' y' ->
  rr eq (sfn_eq x x') (e y y').
Proof using. intros. exact Logic.I. Qed.

(** ** Tests *)
Lemma sim_test {A} P L F ip w0 w vs v off n ip' (kt : bool -> sst -> out A) Q : Inv P L w0 -> Inv P L w ->
  pushed w0 (vs ++ [v]) w -> code_at (k_fn F) ip [It (IJumpIfFalse off)] ->
  (forall b : bool, sim P n F (ip +> IJumpIfFalse off + (if b then 0 else N.to_nat off)) w ip' (kt b (w_st w)) Q) ->
  sim P n F ip w ip' (seq (lift (is_truthy sfi v) (w_st w)) kt) Q.
Proof using.
  intros I0 I1 Hp Hc K. destruct (pushed_split m gs G _ _ _ _ _ _ _ I0 I1 Hp) as (t & ws & Et & Hf & Lt & Lt').
  apply Forall2_app_inv_l in Hf as (ws1 & ws2 & Hf1 & Hf2 & ->). inversion Hf2 as [|? y ? ? Hy Hn]; subst. inversion Hn; subst.
  pose proof (truthy_rel _ sfi mfi (info (w_cv w)) v y Hy) as Hr.
  pose proof (i_test m hst opts gs bs F ip (t ++ ws1) (m_gl (w_mov w)) (m_heap (w_mov w)) (m_data (w_mov w)) off y Hc) as Hi.
  rewrite <- app_assoc, <- (mov_top w t _ Et) in Hi.
  destruct (is_truthy sfi v) as [b|e|]; cbn [lift seq]; [| |exact Logic.I]; destruct (is_truthy mfi y) as [b'|e'|]; cbn in Hr; try contradiction; subst.
  - eapply sim_goes; [exact Hi|]. apply K.
  - eapply sim_err; eauto.
Qed.
Lemma sim_case {A} P L F ip w0 w a v x off n ip' (kt : bool -> sst -> out A) Q : Inv P L w0 -> Inv P L w ->
  pushed w0 [a; v; x] w -> code_at (k_fn F) ip [It (IJumpIfNotEq off)] ->
  (forall (b : bool) w', w_st w' = w_st w -> Inv P L w' -> pushed w0 [a; v] w' ->
     sim P n F (ip +> IJumpIfNotEq off + (if b then 0 else N.to_nat off)) w' ip' (kt b (w_st w')) Q) ->
  (forall e, geqb sfn_eq v x <> Err e) ->
  sim P n F ip w ip' (seq (lift (geqb sfn_eq v x) (w_st w)) kt) Q.
Proof using.
  intros I0 I1 Hp Hc K Hne. destruct (geqb sfn_eq v x) as [b|e|] eqn:Eg; cbn [lift seq]; [|exfalso; eapply Hne; eauto|exact Logic.I].
  destruct (sim_swap P L F ip w0 w (ip +> IJumpIfNotEq off + (if b then 0 else N.to_nat off)) [a; v; x] [a; v] I0 I1 Hp) as (w' & Hg & E & I' & P').
  { intros t ws Hf. inversion Hf as [|? ya ? ? Ha Hf1]; subst. inversion Hf1 as [|? yv ? ? Hv Hf2]; subst.
    inversion Hf2 as [|? yx ? ? Hx Hf3]; subst. inversion Hf3; subst. exists [ya; yv]. split; [auto|].
    pose proof (grel_eqb _ sfn_eq (fn_eq (h_depth hst) (m_heap (w_mov w))) (eq_open (w_cv w) _) v yv x yx Hv Hx) as Hr. rewrite Eg in Hr.
    pose proof (i_case m hst opts gs bs F ip (t ++ [ya]) (m_gl (w_mov w)) (m_heap (w_mov w)) (m_data (w_mov w)) off yv yx Hc) as Hi.
    destruct (geqb (fn_eq (h_depth hst) (m_heap (w_mov w))) yv yx) as [b'|e'|]; cbn in Hr; try contradiction. subst b'.
    rewrite <- !app_assoc in Hi. exact Hi. }
  eapply sim_goes; [exact Hg|]. rewrite <- E. apply K; auto.
Qed.

(** ** Globals *)
Lemma inv_globals P L w g gl : Inv P L w -> globs (w_cv w) (put_globals g (w_st w)) gl ->
  Inv P L (mkW (mkM (stk w) gl (m_heap (w_mov w)) (m_data (w_mov w))) (w_sh w) (w_cv w) (put_globals g (w_st w))).
Proof using. intros [A1 A2 A3 A4 A5 A6 A7 A8] H. constructor; auto. Qed.

Lemma pushed_same w0 vs w w' : w_sh w' = w_sh w -> stk w' = stk w -> w_cv w' = w_cv w -> pushed w0 vs w -> pushed w0 vs w'.
Proof using.
  intros E1 E2 E3 [[A1 A2 A3] A4]. split.
  - constructor; rewrite ?E1, ?E2, ?E3; auto.
  - unfold ProofSim5.tops in *. rewrite E2, E3. auto.
Qed.

Section Names.
Hypothesis HG : forall g x, nth_error G g = Some x -> pool_id seqb gs x = Some (N.of_nat g).
Hypothesis HP : forall g x, pool_id seqb gs x = Some g -> pool_get gs g = Some x.

Lemma sim_define P L F ip w0 w vs v g x : Inv P L w0 -> Inv P L w -> pushed w0 (vs ++ [v]) w ->
  nth_error G g = Some x -> code_at (k_fn F) ip [It (IDefineGlobal (N.of_nat g))] ->
  exists w', goes 1 (F, ip, w_mov w) (F, ip +> IDefineGlobal (N.of_nat g), w_mov w') /\
    w_st w' = put_globals (ainsert x v (ss_globals (w_st w))) (w_st w) /\ Inv P L w' /\ pushed w0 vs w'.
Proof using HG HP.
  intros I0 I1 Hp Hg Hc. destruct (pushed_split m gs G _ _ _ _ _ _ _ I0 I1 Hp) as (t & ws & Et & Hf & Lt & Lt').
  apply Forall2_app_inv_l in Hf as (ws1 & ws2 & Hf1 & Hf2 & ->). inversion Hf2 as [|? y ? ? Hy Hn]; subst. inversion Hn; subst.
  destruct (replace_top m gs G P L P L w0 w (vs ++ [v]) t (ws1 ++ [y]) vs ws1 (m_data (w_mov w)) I0) as [I' P']; auto.
  { apply (iv_base _ _ _ _ _ _ I0). }
  unfold retop in *. rewrite (put_data_same _ _ _ _ _ _ I1) in *.
  set (w1 := mkW _ _ _ _) in *.
  pose proof (globs_insert m gs G HG HP (w_cv w1) (w_st w1) (m_gl (w_mov w1)) x g v y (iv_glob _ _ _ _ _ _ I') Hg Hy) as K.
  eexists. split; [|split; [|split; [eapply inv_globals; [exact I'|exact K]|]]].
  - rewrite (mov_top w t _ Et), app_assoc. cbn. apply i_define. auto.
  - reflexivity.
  - eapply pushed_same; [| | |exact P']; reflexivity.
Qed.
Lemma sim_default P L F ip w0 w v g x : Inv P L w0 -> Inv P L w -> pushed w0 [v] w ->
  nth_error G g = Some x -> code_at (k_fn F) ip [It (IDefineGlobalDefaulted (N.of_nat g))] ->
  exists w', goes 1 (F, ip, w_mov w) (F, ip +> IDefineGlobalDefaulted (N.of_nat g), w_mov w') /\
    w_st w' = (match global x (w_st w) with Some _ => w_st w | None => put_globals (ainsert x v (ss_globals (w_st w))) (w_st w) end) /\
    Inv P L w' /\ pushed w0 [] w'.
Proof using HG HP.
  intros I0 I1 Hp Hg Hc. destruct (pushed_split m gs G _ _ _ _ _ _ _ I0 I1 Hp) as (t & ws & Et & Hf & Lt & Lt').
  inversion Hf as [|? y ? ? Hy Hn]; subst. inversion Hn; subst.
  destruct (replace_top m gs G P L P L w0 w [v] t [y] [] [] (m_data (w_mov w)) I0) as [I' P']; auto.
  { apply (iv_base _ _ _ _ _ _ I0). }
  unfold retop in *. rewrite (put_data_same _ _ _ _ _ _ I1) in *.
  set (w1 := mkW _ _ _ _) in *.
  pose proof (globs_insert m gs G HG HP (w_cv w1) (w_st w1) (m_gl (w_mov w1)) x g v y (iv_glob _ _ _ _ _ _ I') Hg Hy) as K.
  pose proof (iv_glob _ _ _ _ _ _ I1 x) as Gx. rewrite (HG _ _ Hg) in Gx.
  pose proof (i_default m hst opts gs bs F ip t (m_gl (w_mov w)) (m_heap (w_mov w)) (m_data (w_mov w)) _ y Hc) as Hi.
  rewrite <- (mov_top w t [y] Et) in Hi.
  destruct (global x (w_st w)) as [v0|], (alookup N.eqb (N.of_nat g) (m_gl (w_mov w))) as [y0|]; cbn in Gx; try contradiction.
  - exists w1. split; [|auto]. cbn. rewrite app_nil_r. exact Hi.
  - eexists. split; [|split; [|split; [eapply inv_globals; [exact I'|exact K]|eapply pushed_same; [| | |exact P']; reflexivity]]]; [|reflexivity].
    cbn. unfold stk. cbn. rewrite app_nil_r. exact Hi.
Qed.
Lemma sim_defines P L F w0 names gl : Forall2 (fun x g => nth_error G g = Some x) names gl ->
  forall ip w parts, Inv P L w0 -> Inv P L w -> pushed w0 (rev parts) w -> length parts = length names ->
  code_at (k_fn F) ip (map (fun g => It (IDefineGlobal (N.of_nat g))) gl) ->
  exists k w', goes k (F, ip, w_mov w) (F, ip + size (map (fun g => It (IDefineGlobal (N.of_nat g))) gl), w_mov w') /\
    w_st w' = put_globals (fold_left (fun g xv => ainsert (fst xv) (snd xv) g) (combine names parts) (ss_globals (w_st w))) (w_st w) /\
    Inv P L w' /\ pushed w0 [] w'.
Proof using HG HP.
  induction 1 as [|x g names gl Hx _ IH]; intros ip w parts I0 I1 Hp Hl Hc.
  - destruct parts; [|discriminate]. exists 0, w. cbn [map]. rewrite size_nil, Nat.add_0_r. split; [apply goes_0|].
    split; [|auto]. destruct (w_st w). reflexivity.
  - destruct parts as [|v parts]; [discriminate|]. cbn [map] in Hc. apply code_cons in Hc as [Hc1 Hc2].
    destruct (sim_define P L F ip w0 w (rev parts) v g x I0 I1 Hp Hx Hc1) as (w1 & Hg1 & E1 & I2 & P2).
    destruct (IH _ w1 parts I0 I2 P2 ltac:(cbn in Hl; lia) Hc2) as (k & w2 & Hg2 & E2 & I3 & P3).
    exists (1 + k), w2. split; [|split; [|auto]].
    + eapply goes_trans; [exact Hg1|]. cbn [map]. rewrite size_cons, Nat.add_assoc. exact Hg2.
    + rewrite E2, E1. reflexivity.
Qed.
End Names.

(** ** Builtins *)
Lemma run_same f g s vs ws P L w : @same_fn D f g -> Inv P L w -> s = w_st w -> Forall2 (vr (w_cv w)) vs ws ->
  exists d r r', f (ss_data s) vs opts = (d, r) /\ g (m_data (w_mov w)) ws opts = (d, r') /\ rr (vr (w_cv w)) r r'.
Proof using.
  intros H I -> Hf. rewrite (iv_data _ _ _ _ _ _ I).
  destruct (H (fn_rel m G (w_cv w)) (m_data (w_mov w)) vs ws opts) as [H1 H2]; auto.
  { intros. eapply fn_rel_info; eauto. }
  destruct (f (m_data (w_mov w)) vs opts) as [d r], (g (m_data (w_mov w)) ws opts) as [d' r']. cbn in *. subst d'.
  exists d, r, r'. auto.
Qed.
Lemma inv_data P L w d : Inv P L w ->
  Inv P L (mkW (mkM (stk w) (m_gl (w_mov w)) (m_heap (w_mov w)) d) (w_sh w) (w_cv w) (put_data d (w_st w))).
Proof using. intros [A1 A2 A3 A4 A5 A6 A7 A8]. constructor; auto. Qed.

Lemma sim_builtin P L F ip w0 w n vs f f' b k : Inv P L w0 -> Inv P L w -> pushed w0 vs w -> same_fn f f' ->
  alookup N.eqb b bs = Some (BFn f') -> N.to_nat k = length vs -> code_at (k_fn F) ip [It (ICallBuiltin b k)] ->
  sim P n F ip w (ip +> ICallBuiltin b k) (run_sbfn opts f vs (w_st w)) (fun v w' => Inv P L w' /\ pushed w0 [v] w').
Proof using.
  intros I0 I1 Hp Hs Hb Hk Hc. destruct (pushed_split m gs G _ _ _ _ _ _ _ I0 I1 Hp) as (t & ws & Et & Hf & Lt & Lt').
  destruct (run_same f f' _ vs ws P L w Hs I1 eq_refl Hf) as (d & r & r' & E1 & E2 & Hr). unfold run_sbfn. rewrite E1.
  rewrite (f2_length _ _ _ Hf) in Hk.
  pose proof (i_builtin m hst opts gs bs F ip t (m_gl (w_mov w)) (m_heap (w_mov w)) (m_data (w_mov w)) b k ws f' Hc Hk Hb) as Hi.
  rewrite E2, <- (mov_top w t ws Et) in Hi.
  destruct r as [v|e|]; cbn [lift]; [| |exact Logic.I]; destruct r' as [y|e'|]; cbn in Hr; try contradiction.
  - destruct (replace_top m gs G P L P L w0 w vs t ws [v] [y] d I0) as [I' P']; auto.
    { apply (iv_base _ _ _ _ _ _ I0). }
    exists 1, (retop w0 w t [y] d). split; [exact Hi|]. auto.
  - subst e'. exists (m_gl (w_mov w)), (w_cv w). split; [exact Hi|]. apply (iv_glob _ _ _ _ _ _ I1).
Qed.

(** ** Scopes with the two hidden variables of a loop *)
Lemma inv_new P L new w : Inv P L w -> Inv P (new ++ L) w.
Proof using.
  intros [A1 A2 A3 A4 A5 A6 A7 A8]. constructor; auto. intros c j Hc. apply flagged_app. eauto.
Qed.
Lemma here_temps X F P L r w b1 b2 : here X F P L r w ->
  here X F P ((temp_name (S (length L)), b2) :: (temp_name (length L), b1) :: L) r w.
Proof using.
  intros [H1 H2 H3 H4 H5]. constructor; auto.
  - apply (inv_new P L [(temp_name (S (length L)), b2); (temp_name (length L), b1)]). auto.
  - intros x Hx. specialize (H5 x Hx). cbn [slot_of fst]. rewrite !temp_ordinary by auto. exact H5.
Qed.

Context (orc : oracle) (builtins : rstring -> option (sbuiltin (D:=D))).
Context (call : sfn -> list sval -> sst -> out (D:=D) sval) (n : nat).
Notation ev := (ev m orc opts builtins call n).
Notation ex := (ex m orc opts builtins call n).

Definition Pexpr (X : ctx) (L : locals) (nd : node) (c : list item) : Prop :=
  forall F P ip w r al, code_at (k_fn F) ip c -> here X F P L r w -> placed al nd = true -> @named ordinary_name nd ->
  (al = true -> aligned P L w) ->
  sim P n F ip w (ip + size c) (ex nd r (w_st w)) (fun v w' => Inv P L w' /\ pushed w [v] w').
Definition Plist (X : ctx) (L : locals) (l : list nodeS) (c : list item) : Prop :=
  forall F P ip w r al, code_at (k_fn F) ip c -> here X F P L r w -> first_ok al l = true ->
  Forall (fun e => @named ordinary_name (fst e)) l -> (al = true -> aligned P L w) ->
  sim P n F ip w (ip + size c) (list_with (fun nd s => ex nd r s) l (w_st w))
      (fun vs w' => Inv P L w' /\ pushed w vs w' /\ length vs = length l).
Definition post (al p : bool) X F P (L L' : locals) w (vr : option sval * env) w' : Prop :=
  here X F P L' (snd vr) w' /\
  exists locs, length L' = length L + length locs /\ (al = false -> locs = []) /\
    match (if p then None else fst vr) with
    | None => grown w w' (map Some locs)
    | Some v => grown w w' (map Some locs ++ [None]) /\ tops w' [v]
    end.
Definition Pstmt (X : ctx) (g : bool) (L : locals) (p : bool) (nd : node) (c : list item) (L' : locals) : Prop :=
  forall F P ip w r al, code_at (k_fn F) ip c -> here X F P L r w -> placed al nd = true -> @named ordinary_name nd ->
  (al = true -> aligned P L w) ->
  sim P n F ip w (ip + size c) (ev g nd r (w_st w)) (post al p X F P L L' w).
Definition Pstmts (X : ctx) (g : bool) (L : locals) (l : list nodeS) (c : list item) (L' : locals) : Prop :=
  forall F P ip w r al, code_at (k_fn F) ip c -> here X F P L r w ->
  forallb (fun e => placed al (fst e)) l = true -> Forall (fun e => @named ordinary_name (fst e)) l ->
  (al = true -> aligned P L w) ->
  sim P n F ip w (ip + size c) (stmts_with (ev g) l r (w_st w)) (post al false X F P L L' w).
Definition Ppops (X : ctx) (L : locals) (l : list nodeS) (c : list item) : Prop :=
  forall F P ip w r al, code_at (k_fn F) ip c -> here X F P L r w ->
  forallb (fun e => placed al (fst e)) l = true -> Forall (fun e => @named ordinary_name (fst e)) l ->
  (al = true -> aligned P L w) ->
  sim P n F ip w (ip + size c) (stmts_with (ev true) l r (w_st w)) (fun _ w' => Inv P L w' /\ grown w w' []).
Definition Pblock (X : ctx) (L : locals) (l : list nodeS) (c : list item) : Prop :=
  forall F P ip w r al, code_at (k_fn F) ip c -> here X F P L r w ->
  forallb (fun e => placed al (fst e)) l = true -> Forall (fun e => @named ordinary_name (fst e)) l ->
  (al = true -> aligned P L w) ->
  sim P n F ip w (ip + size c) (block_with (ev false) l r (w_st w)) (fun v w' => Inv P L w' /\ pushed w [v] w').
Definition Pelse (X : ctx) (L : locals) (o : option (list nodeS)) (c : list item) : Prop :=
  forall F P ip w0 w r al v, code_at (k_fn F) ip c -> here X F P L r w0 -> Inv P L w -> pushed w0 [VNone; v] w ->
  match o with Some l => forallb (fun e => placed al (fst e)) l | None => true end = true ->
  (forall l, o = Some l -> Forall (fun e => @named ordinary_name (fst e)) l) ->
  (al = true -> aligned P L w0) ->
  sim P n F ip w (ip + size c) (else_with (ev false) o r (w_st w)) (fun v w' => Inv P L w' /\ pushed w0 [v] w').
Definition Pcases (X : ctx) (L : locals) (cs : list (nodeS * list nodeS)) (d : option (list nodeS)) (c : list item) : Prop :=
  forall F P ip w0 w r al v, code_at (k_fn F) ip c -> here X F P L r w0 -> Inv P L w -> pushed w0 [VNone; v] w ->
  forallb (fun c => placed false (fst (fst c)) && forallb (fun e => placed al (fst e)) (snd c)) cs = true ->
  match d with Some l => forallb (fun e => placed al (fst e)) l | None => true end = true ->
  Forall (fun c => @named ordinary_name (fst (fst c)) /\ Forall (fun e => @named ordinary_name (fst e)) (snd c)) cs ->
  (forall l, d = Some l -> Forall (fun e => @named ordinary_name (fst e)) l) ->
  (al = true -> aligned P L w0) ->
  sim P n F ip w (ip + size c) (cases_with (ev false) v d r cs (w_st w)) (fun v w' => Inv P L w' /\ pushed w0 [v] w').

(** ** Loops *)
Lemma here_pushed X F P L r w0 w vs : here X F P L r w0 -> Inv P L w -> pushed w0 vs w -> here X F P L r w.
Proof using. intros H I Hp. eapply here_grown; eauto. apply Hp. Qed.

Lemma sim_while X F P L r w0 al c body cc cb ip :
  Pexpr X L c cc -> Pblock X L body cb -> here X F P L r w0 ->
  placed false c = true -> @named ordinary_name c ->
  forallb (fun e => placed al (fst e)) body = true -> Forall (fun e => @named ordinary_name (fst e)) body ->
  (al = true -> aligned P L w0) ->
  let code := cc ++ It (IJumpIfFalse (szN (It (IPopMany 2) :: cb ++ [It (IJumpBackward 0)])))
       :: It (IPopMany 2) :: cb
       ++ It (IJumpBackward (szN (cc ++ It (IJumpIfFalse 0) :: It (IPopMany 2) :: cb) + 3))
       :: [It IPop] in
  code_at (k_fn F) ip code ->
  forall k w last, k <= n -> Inv P L w -> pushed w0 [last] w ->
  sim P k F ip w (ip + size code) (while_ k (fun s => ex c r s) (fun s => block_with (ev false) body r s) last (w_st w))
      (fun v w' => Inv P L w' /\ pushed w0 [v] w').
Proof using.
  intros Hcond Hbody H0 Hpc Hnc Hpb Hnb Hal code Hc. pose proof (hr_inv _ _ _ _ _ _ _ _ _ H0) as I0.
  pose proof Hc as Hc'. unfold code in Hc'. apply code_app in Hc' as [C1 Hc']. apply code_cons in Hc' as [C2 Hc'].
  apply code_cons in Hc' as [C3 Hc']. apply code_app in Hc' as [C4 Hc']. apply code_cons in Hc' as [C5 C6].
  induction k as [|k IH]; intros w last Hk I1 Hp; [apply lasts_0|]. cbn [while_].
  assert (H1 : here X F P L r w) by (eapply here_pushed; eauto).
  eapply sim_seq; [eapply sim_le; [exact Hk|]; apply (Hcond F P ip w r false C1 H1 Hpc Hnc); discriminate|].
  intros x w1 (I2 & P2). pose proof (pushed_trans m gs G P L P L w0 w w1 [last] [x] I1 I2 Hp P2) as P02.
  eapply (sim_test P L F _ w0 w1 [last] x); [exact I0|exact I2|exact P02|exact C2|]. intros [|].
  - rewrite Nat.add_0_r. destruct (sim_pop2 P L F _ w0 w1 last x I0 I2 P02 C3) as (w2 & Hg & E2 & I3 & P3).
    eapply sim_goes; [exact Hg|]. rewrite <- E2.
    assert (H2 : here X F P L r w2) by exact (here_pushed X F P L r w0 w2 [] H0 I3 P3).
    eapply sim_seq; [eapply sim_le; [exact Hk|]; apply (Hbody F P _ w2 r al C4 H2 Hpb Hnb)|].
    { intros Ea. eapply aligned_nil; [exact I0|exact I3|exact P3|]. auto. }
    intros v w3 (I4 & P4). pose proof (pushed_trans m gs G P L P L w0 w2 w3 [] [v] I3 I4 P3 P4) as P04.
    eapply sim_goes_S; [|apply (IH w3 v); [lia|auto|auto]].
    eapply i_jump_back in C5.
    + match type of C5 with ProofSim1.goes _ _ _ _ _ _ _ (_, ?a, _) => replace a with ip in C5; [exact C5|] end.
      unfold szN. rewrite !size_app, !size_cons. cbn [item_bytes enc length app]. rewrite N2Nat.inj_add, Nat2N.id. cbn [item_instr]. change (N.to_nat 3) with 3. cbn. lia.
    + unfold szN. rewrite !size_app, !size_cons. rewrite N2Nat.inj_add, Nat2N.id. change (N.to_nat 3) with 3. cbn. lia.
  - destruct (sim_pop P L F (ip + size code - 1) w0 w1 [last] x I0 I2 P02) as (w2 & Hg & E2 & I3 & P3).
    + match type of C6 with code_at _ ?a _ => replace (ip + size code - 1) with a; [exact C6|] end.
      unfold code. rewrite !size_app, !size_cons, size_app, !size_cons, size_nil. cbn. lia.
    + rewrite <- E2. exists 1, w2. split; [|auto].
      eapply goes_ip; [| |exact Hg].
      * unfold code, szN. rewrite Nat2N.id, !size_app, !size_cons, !size_app, !size_cons, size_nil. cbn. lia.
      * unfold code. rewrite !size_app, !size_cons, size_app, !size_cons, size_nil. cbn. lia.
Qed.

Lemma sim_for P L1 F w0 itv (body : sval -> sst -> out sval) ip ipb off ipe :
  Inv P L1 w0 -> code_at (k_fn F) ip [It (IIterNext off)] -> code_at (k_fn F) (ip +> IIterNext off) [It ISwapPop] ->
  (forall v wb w, Inv P L1 wb -> Inv P L1 w -> grown w0 wb [None; None] -> pushed wb [v] w ->
     sim P n F (ip +> IIterNext off +> ISwapPop) w ipb (body v (w_st w)) (fun v w' => Inv P L1 w' /\ pushed wb [v] w')) ->
  ip +> IIterNext off + N.to_nat off = ipe ->
  (forall M, goes 1 (F, ipb, M) (F, ip, M)) ->
  forall k i last w, k <= n -> Inv P L1 w -> pushed w0 [VLoopCtx i; itv; last] w ->
  sim P k F ip w ipe (for_ m k itv body i last (w_st w))
      (fun v w' => Inv P L1 w' /\ exists i, pushed w0 [VLoopCtx i; itv; v] w').
Proof using.
  intros I0 C1 C2 Hbody He Hback. induction k as [|k IH]; intros i last w Hk I1 Hp; [apply lasts_0|]. cbn [for_].
  destruct (pushed_split m gs G _ _ _ _ _ _ _ I0 I1 Hp) as (t & ws & Et & Hf & Lt & Lt').
  inversion Hf as [|? yi ? ? Hi1 Hf1]; subst. inversion Hf1 as [|? y ? ? Hi2 Hf2]; subst. inversion Hf2 as [|? yl ? ? Hi3 Hf3]; subst. inversion Hf3; subst.
  inversion Hi1; subst.
  pose proof (i_iter m hst opts gs bs F ip t (m_gl (w_mov w)) (m_heap (w_mov w)) (m_data (w_mov w)) off i y yl C1) as Hit.
  pose proof (iter_rel _ m sfi mfi (info (w_cv w)) i itv y Hi2) as Hr.
  rewrite <- (mov_top w t _ Et) in Hit.
  destruct (v_iter m sfi i itv) as [ov|e|]; cbn [lift seq]; [| |exact Logic.I]; destruct (v_iter m mfi i y) as [ov'|e'|]; cbn in Hr; try contradiction.
  - destruct ov as [v|], ov' as [yv|]; cbn in Hr; try contradiction.
    + destruct (replace_top m gs G P L1 P L1 w0 w _ t _ [VLoopCtx (i + 1); itv; last; v] [VLoopCtx (i + 1); y; yl; yv] (m_data (w_mov w)) I0 (iv_base _ _ _ _ _ _ I0) I1 Hp Et Lt) as [I2 P2].
      { repeat constructor; auto. }
      unfold retop in *. rewrite (put_data_same _ _ _ _ _ _ I1) in *. set (w1 := mkW _ _ _ _) in *.
      eapply (sim_goes m hst opts gs bs G P (S k) F ip w 1 (ip +> IIterNext off) w1); [exact Hit|].
      change (w_st w) with (w_st w1).
      destruct (sim_swap P L1 F (ip +> IIterNext off) w0 w1 (ip +> IIterNext off +> ISwapPop) [VLoopCtx (i + 1); itv; last; v] [VLoopCtx (i + 1); itv; v] I0 I2 P2) as (w2 & Hg & E2 & I3 & P3).
      { intros t' ws' Hf'. inversion Hf' as [|? y1 ? ? J1 K1]; subst. inversion K1 as [|? y2 ? ? J2 K2]; subst.
        inversion K2 as [|? y3 ? ? J3 K3]; subst. inversion K3 as [|? y4 ? ? J4 K4]; subst. inversion K4; subst.
        exists [y1; y2; y4]. split; [auto|].
        pose proof (i_swappop m hst opts gs bs F (ip +> IIterNext off) (t' ++ [y1; y2]) (m_gl (w_mov w1)) (m_heap (w_mov w1)) (m_data (w_mov w1)) y3 y4 C2) as Hs.
        rewrite <- !app_assoc in Hs. exact Hs. }
      eapply sim_goes; [exact Hg|]. rewrite <- E2.
      destruct (pushed_cut P L1 w0 w2 [VLoopCtx (i + 1); itv] [v] I0 I3 P3) as (wb & Ib & Pb1 & Pb2 & Eb).
      eapply sim_seq; [eapply sim_le; [exact Hk|]; apply (Hbody v wb w2 Ib I3 (proj1 Pb1) Pb2)|].
      intros v' w3 (I4 & P4). pose proof (pushed_trans m gs G P L1 P L1 w0 wb w3 _ [v'] Ib I4 Pb1 P4) as P04.
      eapply (sim_goes_S m hst opts gs bs G P k F ipb w3 0 ip w3); [apply Hback|]. apply IH; [lia|auto|exact P04].
    + destruct (replace_top m gs G P L1 P L1 w0 w _ t _ [VLoopCtx (i + 1); itv; last] [VLoopCtx (i + 1); y; yl] (m_data (w_mov w)) I0 (iv_base _ _ _ _ _ _ I0) I1 Hp Et Lt) as [I2 P2].
      { repeat constructor; auto. }
      unfold retop in *. rewrite (put_data_same _ _ _ _ _ _ I1) in *. set (w1 := mkW _ _ _ _) in *.
      exists 1, w1. split; [exact Hit|]. split; [reflexivity|]. split; [exact I2|]. exists (i + 1)%N. exact P2.
  - subst e'. eapply sim_err; [exact I1|exact Hit].
Qed.
End Sim.
