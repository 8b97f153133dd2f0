(** The whole disassembly of a program (C39). *)
From Coq Require Import Sorted.
From Verif Require Import Base RleVec Pool Vecc Float NumText Bytecode Chunk Value Ast Arith VmOps Parse
                          Compiler Vm Items CodeRel CodeSize Includes Cli SpecParse SpecReady SpecPos ProofCode ProofCode7 Lines SpecLines ProofLines
                          Disasm SpecDisasm ProofDisasm ProofDisasm2 ProofPos1 ProofPos3 ProofPos6.
From Verif Require ProofPos9 ProofPos10.

(** ** Every function is as the walk needs it *)
Inductive all_wk : function -> Prop :=
| aw_fun f : fun_wk f -> (forall g, In (VFn (MFun g)) (ck_consts (fn_chunk f)) -> all_wk g) -> all_wk f.
Lemma made_wk f : made f -> all_wk f.
Proof.
  induction 1 as [m Nm X L x args body f caps H _ IH]. constructor; [|exact IH].
  exact (proj1 (proj2 (proj2 (proj2 (proj2 (proj2 (proj2 (proj2 (proj2 (@code_wk m Nm)))))))) _ _ _ _ _ _ _ H)).
Qed.
Lemma compile_all_wk m ast s : compile m ast = COk s -> weights ast <= u16max -> all_wk (sc_function s).
Proof.
  intros H Hw. constructor; [eapply compile_wk; eauto|]. intros g Hg. apply made_wk. eapply compile_made; eauto.
Qed.

(** ** Lines *)
Inductive all_lines (lineno : span -> option nat) : function -> Prop :=
| al_fun f : has_lines lineno (fn_chunk f) -> (forall g, In (VFn (MFun g)) (ck_consts (fn_chunk f)) -> all_lines lineno g) -> all_lines lineno f.
Lemma fok_lines ast lineno G f : (forall sp, position_of ast sp -> lineno sp <> None) ->
  fok (occurs ast) (position_of ast) G f -> all_lines lineno f.
Proof.
  intros HL H. induction H as [f sh A B C D E F IH]. constructor.
  - intros p Hp. apply HL. apply (ProofPos9.fok_span ast {| sc_function := f; sc_globals := mkPool G []; sc_externals := [] |} f p); [|exact Hp].
    apply (fok_intro _ _ G f sh); assumption.
  - intros g Hg. apply (IH (VFn (MFun g)) (MFun g) Hg). constructor.
Qed.

(** ** All listings *)
Section Whole.
Context (lineno : span -> option nat) (s : script).
Notation dis_fn := (dis_function lineno (sc_globals s)).
Definition done (f : function) : Prop := exists fs d0, functions_of f fs /\ forall js, exists l js',
  (forall d, d0 <= d -> dis_fn d f js = Some (Ok (l, js'))) /\ Forall2 (lists s) fs l.
Lemma consts_done cs : (forall g, In (VFn (MFun g)) cs -> done g) ->
  exists fs d0, constants_of cs fs /\ forall js, exists l js',
    (forall d, d0 <= d -> dis_consts lineno (sc_globals s) d cs js = Some (Ok (l, js'))) /\ Forall2 (lists s) fs l.
Proof.
  induction cs as [|v cs IH]; intros H.
  - exists [], 0. split; [constructor|]. intros js. exists [], js. split; [reflexivity|constructor].
  - destruct IH as (fs2 & d2 & F2 & K2); [intros g Hg; apply H; now right|].
    assert (Cv : (exists g, v = VFn (MFun g)) \/ forall g, v <> VFn (MFun g)).
    { destruct v; try (right; intros; discriminate). destruct f as [g|]; [left; eauto|right; intros; discriminate]. }
    destruct Cv as [(g & ->)|Nv].
    + destruct (H g (or_introl eq_refl)) as (fs1 & d1 & F1 & K1). exists (fs1 ++ fs2), (Nat.max d1 d2). split; [now constructor|].
      intros js. destruct (K1 js) as (l1 & js1 & A1 & A2). destruct (K2 js1) as (l2 & js2 & B1 & B2).
      exists (l1 ++ l2), js2. split; [|now apply Forall2_app]. intros d Hd. cbn [dis_consts]. fold (dis_consts lineno (sc_globals s) d).
      rewrite A1 by lia. rewrite B1 by lia. reflexivity.
    + exists fs2, d2. split; [now constructor|]. intros js. destruct (K2 js) as (l2 & js2 & B1 & B2). exists l2, js2. split; [|exact B2].
      intros d Hd. rewrite <- (B1 d Hd). cbn [dis_consts]. fold (dis_consts lineno (sc_globals s) d).
      destruct v; try reflexivity. destruct f as [g|]; [destruct (Nv g eq_refl)|reflexivity].
Qed.
Lemma all_done f : all_wk f -> all_lines lineno f -> done f.
Proof.
  induction 1 as [f F _ IH]. intros HL. inversion HL as [? HL1 HL2]; subst.
  destruct (consts_done (ck_consts (fn_chunk f))) as (fs & d0 & C1 & C2); [intros g Hg; apply IH; auto|].
  destruct F as [f bc F1 F2 F3 F4 F5 F6].
  exists (f :: fs), (S d0). split; [now constructor|]. intros js.
  destruct (chunk_ok s f bc F1 F2 F3 F4 F5 F6 lineno HL1 js) as (lines & js1 & A1 & A2).
  destruct (C2 js1) as (l & js2 & B1 & B2). exists (mkListing (fn_name f) (fn_nspan f) lines :: l), js2. split.
  - intros [|d] Hd; [lia|]. rewrite dis_fn_S, A1, B1 by lia. reflexivity.
  - constructor; [|exact B2]. now constructor.
Qed.
End Whole.

Theorem whole_output m ast s lineno : compile m ast = COk s -> weights ast <= u16max -> complete_program ast ->
  (forall sp, position_of ast sp -> lineno sp <> None) ->
  exists fs out d0, functions_of (sc_function s) fs /\ Forall2 (lists s) fs out /\
    forall d, d0 <= d -> disassemble lineno d s = Some (Ok out).
Proof.
  intros Hc Hw Hp HL. destruct (compile_pieces ast m s Hc Hw Hp) as (Hf & _ & _).
  destruct (all_done lineno s (sc_function s) (compile_all_wk m ast s Hc Hw) (fok_lines ast lineno _ _ HL Hf)) as (fs & d0 & A & B).
  destruct (B []) as (out & js & B1 & B2). exists fs, out, d0. split; [exact A|]. split; [exact B2|].
  intros d Hd. unfold disassemble. now rewrite B1.
Qed.

(** ** Texts *)
Lemma text_line ol c text sp : line_table ol -> end_line ol -> ascii text -> only_lf text -> text <> [] ->
  nth_error c (sp_src sp) = Some text -> within text sp -> get_lineno ol c sp <> None.
Proof.
  intros [T _] Te Ha Hl Hn Hc (a & b & d & E & H1 & _). unfold get_lineno. rewrite Hc. destruct text as [|x y] eqn:Et; [congruence|].
  rewrite <- Et in *. assert (Ha' : ascii a) by (rewrite E in Ha; apply Forall_app in Ha; tauto).
  rewrite H1, (slen_ascii a Ha'). destruct (b ++ d) as [|z r] eqn:Eb.
  - rewrite app_nil_r in E. subst a. pose proof (Te text ltac:(congruence) Hl) as K. destruct (ol text (length text)); congruence.
  - rewrite (T text (length a) Hl); [discriminate|]. rewrite E, app_length. cbn. lia.
Qed.
Theorem text_output m o fuel text id ast i s ol c : parse_code o fuel text id = PMatch ast i -> compile m ast = COk s -> weights ast <= u16max ->
  line_table ol -> end_line ol -> ascii text -> only_lf text -> text <> [] -> nth_error c id = Some text ->
  exists fs out d0, functions_of (sc_function s) fs /\ Forall2 (lists s) fs out /\
    forall d, d0 <= d -> disassemble (get_lineno ol c) d s = Some (Ok out).
Proof.
  intros Hp Hc Hw T Te Ha Hl Hn Hi. apply (whole_output m ast s _ Hc Hw (ProofParse.parse_code_complete _ _ _ _ _ _ Hp)).
  intros sp Hsp. destruct (parse_positions o fuel text id ast i sp Hp Hsp) as [A B].
  apply (text_line ol c text sp T Te Ha Hl Hn); [now rewrite B|exact A].
Qed.
Theorem files_output m o read fuel name text ast is s ol c : parse_with_includes read (parse_text o) fuel name text = IOk ast is ->
  compile m ast = COk s -> weights ast <= u16max -> line_table ol -> end_line ol ->
  (forall k t, source_of read name text (i_sources is) k t -> nth_error c k = Some t /\ ascii t /\ only_lf t /\ t <> []) ->
  exists fs out d0, functions_of (sc_function s) fs /\ Forall2 (lists s) fs out /\
    forall d, d0 <= d -> disassemble (get_lineno ol c) d s = Some (Ok out).
Proof.
  intros Hp Hc Hw T Te Hc'. apply (whole_output m ast s _ Hc Hw (ProofPos10.files_complete _ _ _ _ _ _ _ Hp)).
  intros sp Hsp. destruct (ProofPos10.files_placed o read fuel name text ast is sp Hp Hsp) as (file & t & A & B & W).
  destruct (Hc' (sp_src sp) t) as (C1 & C2 & C3 & C4); [exists file; auto|].
  apply (text_line ol c t sp T Te C2 C3 C4 C1 W).
Qed.
