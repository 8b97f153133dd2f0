(** The positions of compiled code are positions of the program, and the code is cut into the
    pieces of its constructs (proof device for C92 and C93). *)
From Verif Require Import Base RleVec Pool Vecc Float NumText Bytecode Chunk Value Ast Arith VmOps
                          Compiler Vm Items CodeSize SpecContainers ContainerHist ProofContainers ProofValue
                          SpecParse SpecReady SpecPos ProofCompiler ProofPos1 ProofPos3 ProofPos4 ProofPos5.
From Verif Require ProofCode ProofCode7 ProofParse ProofReady3 ProofArithEx.
Import ProofCode(pre, pre_refl, pre_trans, pre_app, pre_nth, pre_len, cpool_inv).
Ltac Zify.zify_post_hook ::= Z.div_mod_to_equations.

Definition pinstr (k : pk) (i : instr) : Prop :=
  match k with
  | PIns j => i = j
  | PJump j => exists v, i = jins j v
  | PClo off _ => i = ICreateClosure off
  end.
Lemma pbytes_decode k bs x y : pbytes k bs -> exists i, pinstr k i /\ fits i /\
  decode (x ++ bs ++ y) (length x) = Ok (i, length x + length (enc i)) /\
  length (enc i) + (match k with PClo _ us => 3 * length us | _ => 0 end) = plen k.
Proof.
  destruct 1 as [i H _|j v H|off us H]; cbn [pinstr plen].
  - exists i. split; [auto|]. split; [auto|]. split; [now apply decode_enc|lia].
  - exists (jins j v). split; [eauto|]. split; [destruct j; exact H|]. split; [apply decode_enc; destruct j; exact H|destruct j; reflexivity].
  - exists (ICreateClosure off). split; [auto|]. split; [exact H|]. split; [|reflexivity].
    rewrite <- app_assoc. now apply decode_enc.
Qed.

Section Fok.
Context (at_ : node -> span -> Prop) (P : span -> Prop).
Notation means := (means at_ P).
Notation fok := (fok at_ P).
Definition pos_ok : Prop := forall G C p, means G C p -> P (p_sp p) /\ P (p_last p).

Definition cut (ck : chunk value) (sh : list piece) (G : list rstring) : Prop :=
  codes sh (ck_ops ck) /\ expand (ck_spans ck) = spans_of sh /\ Forall (means G (ck_consts ck)) sh /\
  length (ck_consts ck) <= u16max.

Section Cut.
Context (ck : chunk value) (sh : list piece) (G : list rstring) (HC : cut ck sh G).

Lemma spans_pos sp : pos_ok -> In sp (spans_of sh) -> P sp.
Proof using HC.
  intros HmP.  destruct HC as (_ & _ & H & _). intros Hi. apply in_flat_map in Hi as (p & Hp & Hi). rewrite Forall_forall in H.
  destruct (HmP _ _ _ (H _ Hp)) as [A B]. unfold pspans in Hi. apply in_app_iff in Hi as [Hi|[<-|[]]]; [|exact B].
  apply repeat_spec in Hi. now subst.
Qed.
Lemma span_at q : pos_ok -> q < length (ck_ops ck) -> P (chunk_get_span ck q).
Proof using HC.
  intros HmP Hq. unfold chunk_get_span. rewrite rle_get_expand. destruct HC as (C1 & C2 & _). rewrite C2.
  destruct (nth_error (spans_of sh) q) eqn:E; [apply spans_pos; [exact HmP|]; eapply nth_error_In; eauto|].
  apply nth_error_None in E. rewrite (spans_len _ _ C1), <- (codes_len _ _ C1) in E. lia.
Qed.
Lemma at_piece a p b : sh = a ++ p :: b -> exists i, pinstr (p_kind p) i /\ fits i /\
  decode (ck_ops ck) (psize a) = Ok (i, psize a + length (enc i)) /\
  length (enc i) + trailer ck i = plen (p_kind p) /\ 0 < length (enc i) /\
  ((forall k, i <> ICreateClosure k) -> chunk_get_span ck (psize a + length (enc i) - 1) = p_last p).
Proof using HC.
  intros E. destruct HC as (C1 & C2 & C3 & C4). rewrite E in C1, C2, C3. destruct (codes_split _ _ _ _ C1) as (x & bs & y & Eo & K1 & K2 & K3).
  destruct (pbytes_decode _ _ x y K2) as (i & H1 & H2 & H3 & H4). exists i. split; [exact H1|]. split; [exact H2|].
  rewrite Eo, <- (codes_len _ _ K1). split; [exact H3|].
  assert (T : length (enc i) + trailer ck i = plen (p_kind p)).
  { rewrite <- H4. f_equal. apply Forall_app in C3 as [_ C3]. inversion C3 as [|? ? Hm _]; subst.
    destruct p as [[j|j|off us] sp la]; cbn [p_kind pinstr] in *.
    - inversion K2 as [? ? Hn| |]; subst. destruct j; try reflexivity. exfalso. eapply Hn; reflexivity.
    - destruct H1 as [v ->]. destruct j; reflexivity.
    - subst i. inversion Hm as [| | | | | | | | | |? ? g ? _ (n & Hn & En) Hg]; subst. cbn [trailer].
      rewrite pool_id_from_small, Nat2N.id, Hn, Hg, Nat2N.id; [reflexivity|]. assert (n < length (ck_consts ck)) by (apply nth_error_Some; congruence). lia. }
  split; [exact T|].
  assert (L : 0 < length (enc i)).
  { destruct i; cbn [enc fits] in *; try (cbn; lia).
    - destruct (unary_opcode o); [cbn; lia|congruence].
    - destruct (binary_opcode o); [cbn; lia|congruence]. }
  split; [exact L|]. intros Hn. unfold chunk_get_span. rewrite rle_get_expand, C2, spans_app.
  assert (T0 : trailer ck i = 0) by (destruct i; try reflexivity; exfalso; eapply Hn; reflexivity).
  rewrite T0 in T. rewrite nth_error_app2; rewrite (spans_len _ _ K1), (codes_len _ _ K1); [|lia].
  cbn [spans_of flat_map]. unfold pspans. rewrite <- app_assoc, nth_error_app2; rewrite repeat_length; [|lia].
  replace (_ - _ - _) with 0 by lia. reflexivity.
Qed.
Lemma boundary_cut p : boundary ck p -> exists a b, sh = a ++ b /\ p = psize a.
Proof using HC.
  induction 1 as [|p i next Hb (a & b & E & ->) Hp Hd]; [exists [], sh; auto|].
  destruct b as [|x b].
  - rewrite app_nil_r in E. subst a. destruct HC as (C1 & _). rewrite (codes_len _ _ C1) in Hp. lia.
  - destruct (at_piece a x b E) as (i' & _ & _ & D1 & D2 & _). rewrite D1 in Hd. injection Hd as <- <-.
    exists (a ++ [x]), b. split; [now rewrite <- app_assoc|]. rewrite psize_app. cbn [psize fold_right]. lia.
Qed.
Lemma boundary_piece p : boundary ck p -> p < length (ck_ops ck) -> exists a x b, sh = a ++ x :: b /\ p = psize a.
Proof using HC.
  intros H Hp. destruct (boundary_cut p H) as (a & [|x b] & E & ->); [|eauto].
  rewrite app_nil_r in E. subst a. destruct HC as (C1 & _). rewrite (codes_len _ _ C1) in Hp. lia.
Qed.
End Cut.

Lemma fok_cut G f : fok G f -> exists sh, cut (fn_chunk f) sh G.
Proof using. intros [sh]. exists sh. repeat split; auto. Qed.
End Fok.

(** ** Programs *)
Section Program.
Context (ast : list nodeS).
Notation at_ := (occurs ast).
Notation P := (position_of ast).

Lemma means_pos G C p : means at_ P G C p -> P (p_sp p) /\ P (p_last p).
Proof using.
  intros H; destruct H; cbn [p_sp p_last]; split; try assumption; try (eapply po_node; eassumption);
    try (eapply po_name; [eassumption|cbn; now left]).
  - destruct it as [it isp]. eapply po_node, oc_in; [eassumption|]. cbn. left; reflexivity.
  - destruct it as [it isp]. eapply po_node, oc_in; [eassumption|]. cbn. left; reflexivity.
Qed.
Lemma occurs_inside n sp : at_ n sp -> exists t tsp, In (t, tsp) ast /\ inside n t.
Proof using.
  induction 1 as [n sp H|p psp n sp H (t & tsp & Ht & Hi) Hc]; [exists n, sp; split; [exact H|constructor]|].
  exists t, tsp. split; [exact Ht|]. eapply ProofParse.inside_trans; [|exact Hi]. econstructor; [exact Hc|constructor].
Qed.

(** There is code before the last return: the return finds its value. *)
Lemma main_nonempty m sc : compile m ast = COk sc -> weights ast <= u16max -> complete_program ast ->
  ck_ops (fn_chunk (sc_function sc)) <> [op_Return].
Proof using.
  intros Hc Hw Hp E.
  pose proof (ProofReady3.main_ready m (mkHost (fun x : unit => x) (fun x => x) (fun _ => 0%N) 1 ProofArithEx.no_oracle) ast sc
    (vm_new tt sc (mkOptions 0 0 0 0 0)) (vm_new tt sc (mkOptions 0 0 0 0 0)) Hc Hw Hp (pr_new sc tt _) (reach_refl _ _ _)) as [_ _ R].
  destruct R as (i & next & Hd & Ho & _). unfold cur_chunk, fr_chunk, ip in Hd. cbn [vm_new v_frame f_fn f_ip] in Hd. rewrite E in Hd.
  injection Hd as <- _. cbn in Ho. lia.
Qed.

Lemma compile_pieces m sc : compile m ast = COk sc -> weights ast <= u16max -> complete_program ast ->
  fok at_ P (p_entries (sc_globals sc)) (sc_function sc) /\ length (p_entries (sc_globals sc)) <= u16max /\
  pool_inv seqb (sc_globals sc).
Proof using.
  intros Hc Hw Hcp. pose proof (main_nonempty m sc Hc Hw Hcp) as Hcode.
  destruct Hcp as [(before & ln & lsp0 & El & _) Hall]. unfold compile in Hc.
  assert (Hne : ast <> []) by (rewrite El; destruct before; discriminate).
  assert (Hbody : forall n sp f b, at_ n sp -> In (f, b) (bodies n) -> b <> []).
  { intros n sp f b Ha Hb ->. destruct (occurs_inside _ _ Ha) as (t & tsp & Ht & Hi).
    destruct (Hall t tsp Ht n f [] Hi Hb) as (bb & x & y & Hn & _). destruct bb; discriminate. }
  pose proof (nk_cnode at_ P (fun n sp H => po_node ast sp n H)
    (fun n sp x (H : at_ n sp) => match x as x return In x (names_of n) -> P (snd x) with (x0, xsp) => fun Hx => po_name ast xsp n sp x0 H Hx end)
    (fun n sp c csp H Hi => oc_in ast n sp c csp H Hi) Hbody m) as K.
  destruct ((set_main_span ast ;; compile_stmnts m ast) (compiler_new main_name)) as [[a|e sp'|] c] eqn:E; try discriminate.
  injection Hc as <-. apply ProofCode.bind_inv in E as (u & c0 & E0 & E).
  assert (Hs0 : st at_ P c0 [[]] /\ bn 0 c0 /\ lv_depth (c_level c0) = 0 /\ c_enclosing c0 = []).
  { assert (Ea : exists n0 sp0 rest, ast = (n0, sp0) :: rest) by (rewrite El; destruct before as [|[n0 sp0] t]; eexists _, _, _; reflexivity).
    destruct Ea as (n0 & sp0 & rest & Ea). assert (E1 : set_main_span ast = mod_level (fun l => lv_set_name (fst (lv_name l), sp0) l)) by (rewrite Ea; reflexivity).
    rewrite E1 in E0. injection E0 as _ <-. split; [|split; [|auto]].
    - split; [|].
      + constructor; [|constructor]. constructor; cbn; auto.
        * apply codes_nil.
        * intros v id H. discriminate.
        * intros v q [].
        * eapply po_node, oc_top. rewrite Ea. now left.
      + exact ProofCode7.pool_new_inv.
    - split; [cbn; lia|]. constructor; [|constructor]. split; cbn; lia. }
  destruct Hs0 as (Hs & Hb & Hd & He). clear El.
  assert (KC : kc at_ P (weights ast) 0 0 [] (compile_stmnts m ast) nojs (fun sp => ast <> [] -> P sp)).
  { apply kc_stmnts. intros p. unfold each_ok. apply Forall_forall. intros [n nsp] Hn. cbn [fst snd]. split.
    - eapply po_node, oc_top; eauto.
    - intros d js. apply K. now apply oc_top. }
  destruct (KC 0 c0 [] [] a c Hs Hb Hw Hd (Forall_nil _) E) as (sh & [A1 A2 A3 A4] & _ & HP). cbn [app] in A1.
  pose proof (st_cur _ _ _ _ _ A1) as HL. destruct HL as [L1 L2 L3 L4 L5 L6 L7 L8]. destruct A2 as [B1 B2]. inversion B2 as [|? ? [B3 B4] _]; subst.
  split; [|split; [cbn; unfold gs in B1; lia|exact (proj2 A1)]].
  cbn [as_script sc_globals sc_function]. unfold level_finish. rewrite A3. cbn [Nat.eqb fst].
  set (lsp := chunk_last_span _).
  assert (Hlast : P lsp).
  { unfold lsp, chunk_last_span. cbn [ck_spans]. rewrite <- (expand_last span_eqb span_eqb_eq _ L8), L2.
    destruct sh as [|x0 t0] using rev_ind.
    - exfalso. apply Hcode. cbn [as_script sc_function]. unfold level_finish. rewrite A3. cbn. destruct L1 as (bss & F & ->). inversion F. reflexivity.
    - clear IHt0. rewrite spans_app. cbn [spans_of flat_map]. unfold pspans. rewrite app_nil_r, app_assoc, last_opt_app by discriminate.
      cbn. apply Forall_app in L3 as [_ L3]. inversion L3; subst. eapply means_pos; eauto. }
  apply (fok_intro at_ P _ _ (sh ++ [mkPiece (PIns IReturn) lsp lsp])); cbn [fn_chunk fn_nspan chunk_write_op chunk_write_u8 ck_ops ck_spans ck_consts fst snd].
  - apply codes_app; [exact L1|]. apply codes_one. apply pb_ins; [exact I|discriminate].
  - unfold chunk_write_op. cbn [ck_spans chunk_write_u8]. unfold rle_push. rewrite expand_pushes, L2, spans_app. reflexivity.
  - apply Forall_app. split; [exact L3|]. constructor; [|constructor]. now apply me_quiet.
  - exact L7.
  - lia.
  - exact L5.
Qed.
End Program.
