(** The printed disassembly of a text (C94). *)
From Verif Require Import Base RleVec Pool Vecc Float NumText Bytecode Chunk Value Ast Parse Compiler Vm CodeSize Includes Cli Disasm Listing Lines
  SpecArith SpecParse SpecHeld SpecReady SpecText SpecLines SpecDisasm SpecListing SpecPos ProofCode ProofHeld4 ProofLines ProofDisasm3 ProofListing2 ProofTidy.

Lemma made_sound v : made v -> sound_value v.
Proof.
  revert v. fix IH 2. intros v [v0 H|r g b a H1 H2 H3 H4|l s mx H|a b H1 H2|f H].
  - now apply sv_plain.
  - now apply sv_color.
  - apply sv_array. induction H; constructor; auto.
  - apply sv_pair; auto.
  - apply sv_fn.
Qed.
Section Sound.
Context (lineno : span -> option nat) (gs : pool rstring).
Definition all_sound (ls : list line) : Prop := forall r v, In r ls -> ln_hint r = Some (HValue v) -> sound_value v.
Lemma get_constant_in (c : chunk value) k v : chunk_get_constant c k = Ok v -> In v (ck_consts c).
Proof. unfold chunk_get_constant. destruct (nth_error _ _) eqn:E; [|discriminate]. intros [= <-]. eapply nth_error_In; eauto. Qed.
Lemma op_sound op c off d v : (forall x, In x (ck_consts c) -> made x) -> dis_op gs op c off = Ok d -> d_hint d = Some (HValue v) -> sound_value v.
Proof.
  intros Hc H Hv. unfold dis_op in H.
  repeat match type of H with
  | context [if ?b then _ else _] => destruct b
  | (let! x := ?e in _) = _ => let E := fresh "E" in destruct e eqn:E; cbn [rbind] in H; try discriminate H
  | context [match ?e with _ => _ end] => let E := fresh "E" in destruct e eqn:E
  end; try discriminate H; try (injection H as <-; cbn [d_hint] in Hv; try discriminate Hv).
  injection Hv as <-. apply made_sound, Hc. eapply get_constant_in; eauto.
Qed.
Lemma walk_sound fuel c : (forall x, In x (ck_consts c) -> made x) -> forall off js ls js' stop,
  walk lineno gs fuel c off js = Ok (ls, js', stop) -> all_sound ls.
Proof.
  intros Hc. induction fuel as [|k IH]; intros off js ls js' stop H; cbn [walk] in H.
  - injection H as <- _ _. intros r v [].
  - destruct (off <? length (ck_ops c)); [|injection H as <- _ _; intros r v []].
    destruct (lineno _) as [n|]; [|eauto]. destruct (take_jump off js) as [b js1].
    destruct (bc_read_u8 _ _) as [op| |]; cbn [rbind] in H; try discriminate.
    destruct (dis_op gs op c (off + 1)) as [d| |] eqn:Ed; cbn [rbind] in H; try discriminate.
    destruct (walk lineno gs k c (d_next d) _) as [[[ls1 js3] st]| |] eqn:Ew; cbn [rbind fst snd] in H; try discriminate.
    injection H as <- _ _. intros r v [<-|Hr] Hv; [cbn [ln_hint] in Hv; eapply op_sound; eauto|eapply IH; eauto].
Qed.
Definition listings_sound (out : list listing) : Prop := forall l, In l out -> all_sound (li_lines l).
Lemma function_sound depth : forall f js out js', (forall x, In x (ck_consts (fn_chunk f)) -> made x) ->
  dis_function lineno gs depth f js = Some (Ok (out, js')) -> listings_sound out.
Proof.
  induction depth as [|k IH]; intros f js out js' Hf H; [discriminate|]. cbn [dis_function] in H.
  destruct (dis_chunk lineno gs (fn_chunk f) js) as [[[ls js1] st]| |] eqn:Ec; try discriminate.
  match type of H with match ?G _ _ with _ => _ end = _ => set (go := G) in H end.
  assert (K : forall cs js out js', (forall x, In x cs -> made x) -> go cs js = Some (Ok (out, js')) -> listings_sound out).
  { clear - IH. induction cs as [|v cs IHc]; intros js out js' Hc H.
    - cbn in H. injection H as <- _. intros l [].
    - assert (Hr : forall x, In x cs -> made x) by (intros; apply Hc; now right).
      assert (Hv : (exists g, v = VFn (MFun g)) \/ go (v :: cs) js = go cs js).
      { destruct v as [| | | | | | | | | | |[g|g us]]; try (right; reflexivity). left; eauto. }
      destruct Hv as [[g ->]|E]; [|rewrite E in H; eauto].
      change (go (VFn (MFun g) :: cs) js) with (match dis_function lineno gs k g js with
        | Some (Ok (l1, js1)) => match go cs js1 with Some (Ok (l2, js2)) => Some (Ok (l1 ++ l2, js2)) | r => r end | r => r end) in H.
      destruct (dis_function lineno gs k g js) as [[[l1 js1]| |]|] eqn:E1; try discriminate.
      destruct (go cs js1) as [[[l2 js2]| |]|] eqn:E2; try discriminate. injection H as <- _.
      assert (Hg : forall x, In x (ck_consts (fn_chunk g)) -> made x).
      { pose proof (Hc _ (or_introl eq_refl)) as M. inversion M; subst; [easy|assumption]. }
      intros l Hl. apply in_app_or in Hl. destruct Hl as [Hl|Hl]; [eapply IH; eauto|eapply IHc; eauto]. }
  destruct (go (ck_consts (fn_chunk f)) js1) as [[[l js2]| |]|] eqn:Eg; try discriminate. injection H as <- _.
  intros x [<-|Hx]; [cbn [li_lines]; eapply walk_sound; [exact Hf|exact Ec]|]. eapply K; eauto.
Qed.
End Sound.

Lemma dis_sound lineno depth s out : made_script s -> disassemble lineno depth s = Some (Ok out) -> listings_sound out.
Proof.
  unfold disassemble. intros Hs H. destruct (dis_function _ _ depth _ _) as [[[l js]| |]|] eqn:E; try discriminate. injection H as <-.
  eapply function_sound; eauto.
Qed.

Section Pages.
Context (o : oracle) (quoted : rstring -> rstring) (lineno : span -> option nat) (file : nat -> option rstring).
Lemma pages_of s fs out : Forall2 (lists s) fs out -> listings_sound out ->
  exists pages, Forall2 (page (o_f64_text o) quoted lineno file s) fs pages /\ output_text o quoted lineno file out = concat (map (fun t => t ++ [10%N]) pages).
Proof.
  intros H. induction H as [|f l fs out Hl H IH]; intros Hs; [exists []; split; [constructor|reflexivity]|].
  destruct IH as (pages & Hp & E); [intros x Hx; apply Hs; now right|].
  exists (listing_text o quoted lineno file l :: pages). split; [|unfold output_text in *; cbn [map concat]; now rewrite E].
  constructor; [|exact Hp]. destruct l as [nm sp ls]. destruct Hl as [Hn Hsp Hl]. cbn [li_name li_span li_lines] in *. subst nm sp.
  exists ls. split; [|exact Hl]. eapply listing_right; [exact Hl|]. intros r v Hr. eapply (Hs (mkListing (fn_name f) (fn_nspan f) ls)); [now left|exact Hr].
Qed.
End Pages.
Lemma files_fit o read fuel name text ast is : parse_with_includes read (parse_text o) fuel name text = IOk ast is -> program_fits ast.
Proof.
  apply includes_fit. intros t id a. unfold parse_text. destruct (parse_code o _ t id) eqn:E; intros [= <-]. exact (parse_fits_program _ _ _ _ _ _ E).
Qed.
Theorem text_pages o quoted file m fuel text id ast i s ol c :
  parse_code o fuel text id = PMatch ast i -> compile m ast = COk s -> weights ast <= u16max ->
  line_table ol -> end_line ol -> ascii text -> only_lf text -> text <> [] -> nth_error c id = Some text ->
  exists fs pages d0, functions_of (sc_function s) fs /\ Forall2 (page (o_f64_text o) quoted (get_lineno ol c) file s) fs pages /\
    forall d, d0 <= d -> exists out, disassemble (get_lineno ol c) d s = Some (Ok out) /\
      output_text o quoted (get_lineno ol c) file out = concat (map (fun t => t ++ [10%N]) pages).
Proof.
  intros Hp Hc Hw T Te Ha Hl Hn Hi. destruct (text_output m o fuel text id ast i s ol c Hp Hc Hw T Te Ha Hl Hn Hi) as (fs & out & d0 & Hf & Hf2 & Hd).
  assert (Hm : made_script s) by (eapply compile_made; [eapply parse_fits_program; exact Hp|exact Hc]).
  destruct (pages_of o quoted (get_lineno ol c) file s fs out Hf2 (dis_sound _ _ _ _ Hm (Hd d0 (le_n _)))) as (pages & H1 & H2).
  exists fs, pages, d0. split; [exact Hf|]. split; [exact H1|]. intros d Hle. exists out. split; [now apply Hd|exact H2].
Qed.
Theorem files_pages o quoted file m read fuel name text ast is s ol c :
  parse_with_includes read (parse_text o) fuel name text = IOk ast is -> compile m ast = COk s -> weights ast <= u16max ->
  line_table ol -> end_line ol ->
  (forall k t, source_of read name text (i_sources is) k t -> nth_error c k = Some t /\ ascii t /\ only_lf t /\ t <> []) ->
  exists fs pages d0, functions_of (sc_function s) fs /\ Forall2 (page (o_f64_text o) quoted (get_lineno ol c) file s) fs pages /\
    forall d, d0 <= d -> exists out, disassemble (get_lineno ol c) d s = Some (Ok out) /\
      output_text o quoted (get_lineno ol c) file out = concat (map (fun t => t ++ [10%N]) pages).
Proof.
  intros Hp Hc Hw T Te Ha. destruct (files_output m o read fuel name text ast is s ol c Hp Hc Hw T Te Ha) as (fs & out & d0 & Hf & Hf2 & Hd).
  assert (Hm : made_script s) by (eapply compile_made; [exact (files_fit _ _ _ _ _ _ _ Hp)|exact Hc]).
  destruct (pages_of o quoted (get_lineno ol c) file s fs out Hf2 (dis_sound _ _ _ _ Hm (Hd d0 (le_n _)))) as (pages & H1 & H2).
  exists fs, pages, d0. split; [exact Hf|]. split; [exact H1|]. intros d Hle. exists out. split; [now apply Hd|exact H2].
Qed.
