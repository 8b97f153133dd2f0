(** Listings of texts are tidy (C94). *)
From Verif Require Import Base RleVec Pool Vecc Float NumText Bytecode Chunk Value Ast Parse Compiler Vm CodeSize Includes Cli Disasm Listing Lines
  SpecArith SpecParse SpecHeld SpecReady SpecText SpecLines SpecDisasm SpecListing SpecPos SpecNames SpecTold ProofCode ProofText ProofDisasm2 ProofDisasm3 ProofListing ProofNames2 ProofNames3 ProofTidy2.

(** On one line and without commas. *)
Definition neat (x : rstring) : Prop := one_line x /\ ~ In 44%N x.
Lemma neat_all x : Forall (fun c => c <> 10 /\ c <> 44)%N x -> neat x.
Proof. intros H. rewrite Forall_forall in H. split; intros K; apply H in K; tauto. Qed.
Lemma neat_bool x : forallb (fun c => negb (c =? 10)%N && negb (c =? 44)%N) x = true -> neat x.
Proof.
  intros H. apply neat_all, Forall_forall. intros c Hc. rewrite forallb_forall in H. apply H in Hc.
  apply andb_true_iff in Hc as [H1 H2]. apply negb_true_iff, N.eqb_neq in H1, H2. auto.
Qed.
Lemma identifier_neat x : identifier x -> neat x.
Proof.
  destruct x as [|c t]; [intros []|]. intros (Hc & Ht & _). apply neat_all. constructor; [unfold letter in Hc; lia|].
  eapply Forall_impl; [|exact Ht]. cbn beta. unfold letter, SpecNames.digit. lia.
Qed.
Lemma digit_neat d : (0 <= d < 10)%Z -> (digit_text d <> 10 /\ digit_text d <> 44)%N.
Proof.
  intros H. assert (K : (d = 0 \/ d = 1 \/ d = 2 \/ d = 3 \/ d = 4 \/ d = 5 \/ d = 6 \/ d = 7 \/ d = 8 \/ d = 9)%Z) by lia.
  repeat destruct K as [->|K]; [..|subst d]; split; discriminate.
Qed.
Lemma made_up_neat x : made_up x -> neat x.
Proof.
  intros [->|[->|(n & ds & (H & _) & ->)]]; [now apply neat_bool..|]. apply neat_all, Forall_app. split.
  - repeat constructor; discriminate.
  - apply Forall_map. eapply Forall_impl; [|exact H]. intros d Hd. now apply digit_neat.
Qed.
Lemma unknown_neat : neat (str "unknown"). Proof. now apply neat_bool. Qed.

Lemma literal_tidy : forall l, tidy_value (literal_to_value l).
Proof.
  fix IH 1. intros x. destruct x; cbn [literal_to_value]; try (apply tv_plain; exact Logic.I).
  2: apply tv_pair; apply IH.
  1: apply tv_array; change (Forall tidy_value (map literal_to_value l)); induction l as [|y l' IHl]; constructor; [apply IH|exact IHl].
Qed.
Lemma kept_tidy v : kept neat v -> tidy_value v.
Proof. intros [l|f H _ _]; [apply literal_tidy|]. apply tv_fn, H. Qed.

Section Tidy.
Context (lineno : span -> option nat) (gs : pool rstring) (Hg : Forall neat (p_entries gs)).
Lemma global_neat k : neat (global_symbol gs k).
Proof.
  unfold global_symbol, pool_get. destruct (nth_error _ _) eqn:E; [|apply unknown_neat]. apply nth_error_In in E. rewrite Forall_forall in Hg. auto.
Qed.
Lemma texts_flat : forallb (fun e : N * rstring => forallb flat (snd e)) op_texts = true. Proof. vm_compute. reflexivity. Qed.
Lemma texts_line op t : alookup N.eqb op op_texts = Some t -> one_line t.
Proof.
  intros H. apply one_line_flat. pose proof texts_flat as K. rewrite forallb_forall in K. induction op_texts as [|[k x] l IH]; [discriminate|].
  cbn [alookup] in H. destruct (_ =? _)%N; [injection H as <-; apply (K (k, x)); now left|]. apply IH; [exact H|]. intros e He. apply K. now right.
Qed.
Definition fn_neat (f : function) : Prop := kept neat (VFn (MFun f)).
Lemma fn_neat_of f : fn_neat f -> neat (fn_name f) /\ Forall neat (ck_syms (fn_chunk f)) /\ forall c, In c (ck_consts (fn_chunk f)) -> kept neat c.
Proof. intros H. inversion H as [l E|f' H1 H2 H3 E]; [destruct l; discriminate E|]. auto. Qed.
Lemma op_tidy op c off d h : Forall neat (ck_syms c) -> (forall x, In x (ck_consts c) -> kept neat x) ->
  dis_op gs op c off = Ok d -> d_hint d = Some h -> tidy_hint h.
Proof using Hg.
  intros Hs Hc H Hv. unfold dis_op in H.
  repeat match type of H with
  | context [if ?b then _ else _] => destruct b
  | (let! x := ?e in _) = _ => let E := fresh "E" in destruct e eqn:E; cbn [rbind] in H; try discriminate H
  | context [match ?e with _ => _ end] => let E := fresh "E" in destruct e eqn:E
  end; try discriminate H; (injection H as <-; cbn [d_hint] in Hv; try discriminate Hv); injection Hv as <-; cbn [tidy_hint]; try exact I.
  - apply kept_tidy, Hc. eapply get_constant_in; eauto.
  - apply global_neat.
  - unfold chunk_force_symbol. destruct (nth_error _ _) eqn:E1; [|apply unknown_neat]. apply nth_error_In in E1. rewrite Forall_forall in Hs. now apply Hs.
  - pose proof (get_constant_in _ _ _ E0) as K. subst. apply Hc in K. apply (fn_neat_of _ K).
  - apply global_neat.
  - eapply texts_line; eauto.
Qed.
Definition all_tidy (ls : list line) : Prop := forall r h, In r ls -> ln_hint r = Some h -> tidy_hint h.
Lemma walk_tidy fuel c : Forall neat (ck_syms c) -> (forall x, In x (ck_consts c) -> kept neat x) -> forall off js ls js' stop,
  walk lineno gs fuel c off js = Ok (ls, js', stop) -> all_tidy ls.
Proof using Hg.
  intros Hs Hc. induction fuel as [|k IH]; intros off js ls js' stop H; cbn [walk] in H.
  - injection H as <- _ _. intros r v [].
  - destruct (off <? length (ck_ops c)); [|injection H as <- _ _; intros r v []].
    destruct (lineno _) as [n|]; [|eauto]. destruct (take_jump off js) as [b js1].
    destruct (bc_read_u8 _ _) as [op| |]; cbn [rbind] in H; try discriminate.
    destruct (dis_op gs op c (off + 1)) as [d| |] eqn:Ed; cbn [rbind] in H; try discriminate.
    destruct (walk lineno gs k c (d_next d) _) as [[[ls1 js3] st]| |] eqn:Ew; cbn [rbind fst snd] in H; try discriminate.
    injection H as <- _ _. intros r v [<-|Hr] Hv; [cbn [ln_hint] in Hv; eapply op_tidy; eauto|eapply IH; eauto].
Qed.
Definition listing_neat (l : listing) : Prop := neat (li_name l) /\ all_tidy (li_lines l).
Lemma function_tidy depth : forall f js out js', fn_neat f -> dis_function lineno gs depth f js = Some (Ok (out, js')) -> Forall listing_neat out.
Proof using Hg.
  induction depth as [|k IH]; intros f js out js' Hf H; [discriminate|]. cbn [dis_function] in H.
  destruct (fn_neat_of f Hf) as (Hn & Hs & Hcs).
  destruct (dis_chunk lineno gs (fn_chunk f) js) as [[[ls js1] st]| |] eqn:Ec; try discriminate.
  match type of H with match ?G _ _ with _ => _ end = _ => set (go := G) in H end.
  assert (K : forall cs js out js', (forall x, In x cs -> kept neat x) -> go cs js = Some (Ok (out, js')) -> Forall listing_neat out).
  { clear - IH. induction cs as [|v cs IHc]; intros js out js' Hc H.
    - cbn in H. injection H as <- _. constructor.
    - assert (Hr : forall x, In x cs -> kept neat x) by (intros; apply Hc; now right).
      assert (Hv : (exists g, v = VFn (MFun g)) \/ go (v :: cs) js = go cs js).
      { destruct v as [| | | | | | | | | | |[g|g us]]; try (right; reflexivity). left; eauto. }
      destruct Hv as [[g ->]|E]; [|rewrite E in H; eauto].
      change (go (VFn (MFun g) :: cs) js) with (match dis_function lineno gs k g js with
        | Some (Ok (l1, js1)) => match go cs js1 with Some (Ok (l2, js2)) => Some (Ok (l1 ++ l2, js2)) | r => r end | r => r end) in H.
      destruct (dis_function lineno gs k g js) as [[[l1 js1]| |]|] eqn:E1; try discriminate.
      destruct (go cs js1) as [[[l2 js2]| |]|] eqn:E2; try discriminate. injection H as <- _.
      apply Forall_app. split; [|eapply IHc; eauto]. eapply IH; [|exact E1]. apply Hc. now left. }
  destruct (go (ck_consts (fn_chunk f)) js1) as [[[l js2]| |]|] eqn:Eg; try discriminate. injection H as <- _.
  constructor; [|eapply K; eauto]. split; [exact Hn|]. cbn [li_lines]. eapply walk_tidy; [exact Hs|exact Hcs|exact Ec].
Qed.
End Tidy.

Lemma compiled_listings m ast s lineno depth out : (forall x, said ast x -> identifier x) -> compile m ast = COk s ->
  disassemble lineno depth s = Some (Ok out) -> Forall listing_neat out.
Proof.
  intros Hi Hc H. destruct (compile_kept neat (made_up_neat _ (or_introl eq_refl)) (made_up_neat _ (or_intror (or_introl eq_refl)))
    (fun n => made_up_neat _ (temp_made_up n)) m ast s (fun x Hx => identifier_neat _ (Hi x Hx)) Hc) as [Kf Kg].
  unfold disassemble in H. destruct (dis_function _ _ depth _ _) as [[[l js]| |]|] eqn:E; try discriminate. injection H as <-.
  eapply function_tidy; [exact Kg|exact Kf|exact E].
Qed.
Definition keys : list N := map fst plain_ops ++ map fst u16_ops ++ map fst u8_ops ++ map fst u16u8_ops.
Lemma keys_small : forallb (fun x => (x <? 62)%N) keys = true. Proof. vm_compute. reflexivity. Qed.
Lemma alookup_key {B} (l : list (N * B)) k v : alookup N.eqb k l = Some v -> In k (map fst l).
Proof.
  induction l as [|[a b] l IH]; cbn [alookup]; [discriminate|]. destruct (N.eqb_spec k a); [left; auto|]. intros H. right. auto.
Qed.
Lemma decode_small ops p op i next : bc_read_u8 ops p = Ok op -> decode ops p = Ok (i, next) -> (op < 62)%N.
Proof.
  intros H E. assert (K : In op keys).
  { unfold decode in E. rewrite H in E. cbn [rbind] in E. unfold keys. rewrite !in_app_iff.
    destruct (alookup _ _ plain_ops) eqn:E1; [left; eapply alookup_key; eauto|].
    destruct (alookup _ _ u16_ops) eqn:E2; [right; left; eapply alookup_key; eauto|].
    destruct (alookup _ _ u8_ops) eqn:E3; [right; right; left; eapply alookup_key; eauto|].
    destruct (alookup _ _ u16u8_ops) eqn:E4; [right; right; right; eapply alookup_key; eauto|discriminate]. }
  pose proof keys_small as Q. rewrite forallb_forall in Q. apply Q in K. now apply N.ltb_lt.
Qed.
Lemma lists_tidy s f l : lists s f l -> listing_neat l -> tidy l.
Proof.
  intros [_ _ L] [[N1 N2] T]. split; [exact N1|]. split; [exact N2|]. intros r Hr. split; [|intros h; now apply T].
  destruct (rl_shows _ _ _ _ L r Hr) as (i & next & D & S). eapply decode_small; [exact (sh_opcode _ _ _ _ _ _ S)|exact D].
Qed.

(** *** A deeper limit changes nothing *)
Section More.
Context (lineno : span -> option nat) (gs : pool rstring).
Lemma dis_more d : forall f js r, dis_function lineno gs d f js = Some (Ok r) -> dis_function lineno gs (S d) f js = Some (Ok r).
Proof.
  induction d as [|d IH]; intros f js r H; [discriminate|]. rewrite dis_fn_S in H. rewrite dis_fn_S.
  destruct (dis_chunk lineno gs (fn_chunk f) js) as [[[ls js1] st]| |]; try discriminate.
  assert (K : forall cs js r, dis_consts lineno gs d cs js = Some (Ok r) -> dis_consts lineno gs (S d) cs js = Some (Ok r)).
  { clear - IH. induction cs as [|v cs IHc]; intros js r H; [exact H|].
    assert (Skip : dis_consts lineno gs d cs js = Some (Ok r) -> dis_consts lineno gs (S d) cs js = Some (Ok r)) by auto.
    unfold dis_consts in H |- *. fold (dis_consts lineno gs d) in H. fold (dis_consts lineno gs (S d)).
    destruct v as [| | | | | | | | | | |[g|g us]]; try (apply Skip; exact H).
    destruct (dis_function lineno gs d g js) as [[[l1 js1]| |]|] eqn:E1; try discriminate. rewrite (IH _ _ _ E1).
    destruct (dis_consts lineno gs d cs js1) as [[[l2 js2]| |]|] eqn:E2; try discriminate. now rewrite (IHc _ _ E2). }
  destruct (dis_consts lineno gs d _ js1) as [[r1| |]|] eqn:E; try discriminate. now rewrite (K _ _ _ E).
Qed.
Lemma dis_le d d' f js r : d <= d' -> dis_function lineno gs d f js = Some (Ok r) -> dis_function lineno gs d' f js = Some (Ok r).
Proof. intros H E. induction H; [exact E|]. now apply dis_more. Qed.
End More.
Lemma disassemble_le lineno d d' s out : d <= d' -> disassemble lineno d s = Some (Ok out) -> disassemble lineno d' s = Some (Ok out).
Proof.
  unfold disassemble. intros H E. destruct (dis_function lineno _ d _ _) as [[[l js]| |]|] eqn:K; try discriminate.
  now rewrite (dis_le _ _ _ _ _ _ _ H K).
Qed.

Lemma output_tidy m ast s lineno fs out d0 depth out' : (forall x, said ast x -> identifier x) -> compile m ast = COk s ->
  Forall2 (lists s) fs out -> (forall d, d0 <= d -> disassemble lineno d s = Some (Ok out)) ->
  disassemble lineno depth s = Some (Ok out') -> Forall tidy out'.
Proof.
  intros Hi Hc Hf Hd H. assert (out' = out) as ->.
  { apply (disassemble_le _ _ (max d0 depth)) in H; [|lia]. rewrite Hd in H by lia. congruence. }
  pose proof (compiled_listings _ _ _ _ _ _ Hi Hc H) as K. clear - Hf K.
  induction Hf as [|f l fs out Hl Hf IH]; constructor; [eapply lists_tidy; [exact Hl|exact (Forall_inv K)]|apply IH; exact (Forall_inv_tail K)].
Qed.
Theorem listed_tidy o ol c out : listed o ol c out -> Forall tidy out.
Proof.
  intros [fuel text id ast i m s depth Hp Hc Hw T Te Ha Hl Hn Hi Hd|read fuel name text ast is m s depth Hp Hc Hw T Te Ha Hd].
  - destruct (text_output m o fuel text id ast i s ol c Hp Hc Hw T Te Ha Hl Hn Hi) as (fs & out0 & d0 & _ & Hf2 & Hd').
    eapply output_tidy; [|exact Hc|exact Hf2|exact Hd'|exact Hd]. intros x. now apply (text_names o fuel text id ast i).
  - destruct (files_output m o read fuel name text ast is s ol c Hp Hc Hw T Te Ha) as (fs & out0 & d0 & _ & Hf2 & Hd').
    eapply output_tidy; [|exact Hc|exact Hf2|exact Hd'|exact Hd]. intros x. now apply (files_names o read fuel name text ast is).
Qed.
Theorem listed_same o quoted ol c file out ol' c' file' out' :
  (forall s, one_line (quoted s)) -> (forall f, one_line (o_f64_text o f)) ->
  (forall k s, file k = Some s -> one_line s) -> (forall k s, file' k = Some s -> one_line s) ->
  listed o ol c out -> listed o ol' c' out' ->
  output_text o quoted (get_lineno ol c) file out = output_text o quoted (get_lineno ol' c') file' out' ->
  Forall2 (same_listing (get_lineno ol c) file (get_lineno ol' c') file') out out'.
Proof. intros Hq Hf H1 H2 L L'. apply output_same; auto; eapply listed_tidy; eauto. Qed.
