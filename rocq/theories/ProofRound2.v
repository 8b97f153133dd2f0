(** Reading back what was shown: programs (C98). *)
From Verif Require Import Base RleVec Pool Vecc Float NumText Bytecode Chunk Value Ast Arith VmOps Parse Compiler Vm CodeSize SpecArith SpecParse 
  SpecReady SpecRel SpecVm SpecEval SpecRound.
From Verif Require SpecText SpecProg ProofText ProofParse5 ProofProg13 ProofEval ProofSim13 ProofEval2 ProofArith ProofRound.

Section Round.
Context (o : oracle).
Local Notation pf := (o_f64_parse o).
Local Notation shown := (SpecText.written (o_f64_text o)).

Lemma decimal_first z t c r : SpecText.decimal z t -> t = c :: r -> c <> 45%N.
Proof.
  intros (ds & (H1 & _) & ->) E. destruct ds as [|d ds]; [discriminate|]. cbn [map] in E. injection E as <- _. inversion H1; subst.
  unfold digit_text. assert (K : In d (map Z.of_nat (List.seq 0 10))).
  { apply in_map_iff. exists (Z.to_nat d). split; [lia|]. apply in_seq. lia. }
  cbn in K. repeat (destruct K as [<-|K]; [discriminate|]). destruct K.
Qed.
Lemma minus_range (v : value) t l : shown v t -> plain_data o v -> ~ below_zero o v -> stands_for l v ->
  SpecProg.starts (fun c => c = 45%N) t -> exists a b, l = LRange a b.
Proof.
  intros W P B S Hs. destruct W; try (inversion P; fail); try discriminate Hs; inversion S; subst; eauto; exfalso.
  - unfold SpecText.integer_text in H. cbn in B. destruct (Z.ltb_spec z 0); [auto|]. destruct t as [|c t]; [exact Hs|].
    cbn in Hs. eapply decimal_first in H; eauto.
  - cbn in B. apply B. destruct (o_f64_text o f) as [|c t]; [destruct Hs|]. cbn in Hs. subst c. exists t. reflexivity.
Qed.
Lemma one_value e t : SpecProg.spelled pf 0 e t -> SpecProg.spelled_body pf [SpecProg.SValue e] t.
Proof.
  intros H. change t with ([] ++ t). apply SpecProg.sb_lines; [constructor|]. rewrite <- (app_nil_r t).
  apply SpecProg.so_last; [|constructor]. now constructor.
Qed.
Lemma one_tree e ast : SpecProg.body_tree false [SpecProg.SValue e] ast -> (forall n, SpecProg.tree_of e n -> no_value n -> False) ->
  exists n sp, ast = [(n, sp)] /\ SpecProg.tree_of e n.
Proof.
  intros H HN. inversion H; subst; eauto.
  exfalso. match goal with A : SpecProg.line_tree _ _ |- _ => inversion A; subst end. eauto.
Qed.

Theorem data_program (v : value) t id fuel : plain_data o v -> shown v t -> ~ below_zero o v -> S (length t) < fuel ->
  exists l sp rest, parse_code o fuel t id = PMatch [(NLiteral l, sp)] rest /\ stands_for l v.
Proof.
  intros P W B Hf. destruct (ProofRound.shown_literal o v P t W) as (l & Hs & Ht).
  destruct (ProofProg13.program_reads o id [SpecProg.SValue (SpecProg.PLit l)] t fuel) as (ast & rest & E & HT); auto.
  { apply one_value, SpecProg.sp_literal; auto. intros K. eapply minus_range; eauto. }
  destruct (one_tree _ _ HT) as (n & sp & -> & Hn). { intros n Hn. inversion Hn; subst. auto. }
  inversion Hn; subst. eauto.
Qed.
Theorem negative_program z t id fuel : (- 2 ^ 63 < z < 0)%Z -> shown (VInt z : value) t -> S (length t) < fuel ->
  exists sp sp' rest, parse_code o fuel t id = PMatch [(NUnary ONeg (NLiteral (LInt (- z)), sp'), sp)] rest.
Proof.
  intros Hz W Hf. inversion W as [| | |z' t' Hi| | | | | | | | | | ]; subst. unfold SpecText.integer_text in Hi.
  destruct (Z.ltb_spec z 0); [|lia]. destruct Hi as (t' & D & ->). apply ProofRound.decimal_numeral in D.
  destruct (ProofProg13.program_reads o id [SpecProg.SValue (SpecProg.PUnary ONeg (SpecProg.PLit (LInt (- z))))] (str "-" ++ t') fuel) as (ast & rest & E & HT); auto.
  { apply one_value, SpecProg.sp_negative; [lia| |right; eauto]. apply SpecProg.lt_integer; [now constructor|]. unfold SpecProg.i64_range. lia. }
  destruct (one_tree _ _ HT) as (n & sp & -> & Hn). { intros n Hn. inversion Hn; subst. auto. }
  inversion Hn; subst. match goal with H : SpecProg.tree_of (SpecProg.PLit _) (fst ?n) |- _ => destruct n as [na sp']; cbn [fst] in H; inversion H; subst end.
  eauto.
Qed.

(** ** Running them *)
Lemma literal_compiles m l sp : exists sc, compile m [(NLiteral l, sp)] = COk sc.
Proof. destruct l; eexists; reflexivity. Qed.
Lemma negative_compiles m z sp sp' : (0 < z < 2 ^ 63)%Z -> exists sc, compile m [(NUnary ONeg (NLiteral (LInt z), sp'), sp)] = COk sc.
Proof.
  intros Hz. enough (K : match compile m [(NUnary ONeg (NLiteral (LInt z), sp'), sp)] with COk _ => True | _ => False end).
  { destruct (compile _ _) as [sc| |]; try contradiction. eauto. }
  assert (E : fold_unary m ONeg (NLiteral (LInt z)) = Some (Ok (LInt (- z)))).
  { cbn [fold_unary]. rewrite ProofArith.ov64_fits by (unfold fits64; lia). reflexivity. }
  unfold compile, compile_stmnts. cbn [stmnts_with fst snd cnode]. rewrite E. exact I.
Qed.
Lemma lit_same (v : value) : forall l w, stands_for l v -> same_value (lit_value l) w -> same_data v w.
Proof.
  unfold same_value. induction v using gvalue_rect'; intros li w S W; inversion S; subst; cbn [lit_value force_array of_vecc] in W; inversion W; subst; try constructor; eauto.
  clear W S. match goal with A : Forall2 stands_for ?ls l, B : Forall2 _ _ ?ws |- Forall2 _ _ ?ws => revert ls ws A B end.
  clear - H. induction H as [|x l Hx Hl IH]; intros ls ws A B; inversion A; subst; cbn [map] in B; inversion B; subst; constructor; eauto.
Qed.

Lemma eval_literal {D} m orc opts (f g : D -> D) builtins l sp st :
  eval m orc opts f g builtins 1 [(NLiteral l, sp)] st = Got (lit_value l) st.
Proof. reflexivity. Qed.
Lemma eval_negative {D} m orc opts (f g : D -> D) builtins z sp sp' st : (- 2 ^ 63 <= - z < 2 ^ 63)%Z ->
  eval m orc opts f g builtins 1 [(NUnary ONeg (NLiteral (LInt z), sp'), sp)] st = Got (VInt (- z)) st.
Proof.
  intros Hz. unfold eval. cbn [stmts_with fst ev lit_value SpecEval.seq the_value unary_fn v_negate]. rewrite ProofArith.ov64_fits by (unfold fits64; lia). reflexivity.
Qed.

Theorem data_runs {D} (v : value) t id fuel m (hst : host D) :
  plain_data o v -> shown v t -> S (length t) < fuel -> ~ (exists f, v = VFloat f /\ below_zero o v) -> v <> VInt (- 2 ^ 63) ->
  exists ast rest sc, parse_code o fuel t id = PMatch ast rest /\ compile m ast = COk sc /\
  forall builtins st s, starts sc builtins st s -> length (p_entries (v_gsyms s)) <= N.to_nat 65536 ->
  stopped_by_limit m hst s \/ exists k w s', run m hst k s = RDone w s' /\ same_data v w /\ same_state st s'.
Proof.
  intros P W Hf HF Hm.
  assert (C : (exists z, v = VInt z /\ (- 2 ^ 63 < z < 0)%Z) \/ ~ below_zero o v).
  { destruct v as [|?|n|?|? ?|? ? ? ?|?|? ?|? ? ?|?|? ?|?]; try (right; intros K; exact K).
    - destruct (Z.ltb_spec n 0); [left|right; cbn; lia]. exists n. split; auto. inversion P; subst.
      assert (n <> - 2 ^ 63)%Z by congruence. lia.
    - right. intros K. apply HF. eauto. }
  destruct C as [(z & -> & Hz)|B].
  - destruct (negative_program z t id fuel Hz W Hf) as (sp & sp' & rest & E).
    destruct (negative_compiles m (- z) sp sp' ltac:(lia)) as (sc & Hc).
    eexists _, rest, sc. split; [exact E|]. split; [exact Hc|]. intros b st s Hs Hg.
    destruct (@ProofSim13.whole_program _ m hst _ sc b st s 1 Hc ltac:(apply Nat.leb_le; vm_compute; reflexivity) eq_refl
      (ProofParse5.parse_code_named _ _ _ _ _ _ E) Hs Hg) as [K|K]; [left; exact K|right].
    rewrite eval_negative in K by lia. destruct K as (k & w & s' & HR & HV & HS). exists k, w, s'. split; [exact HR|].
    split; [|exact HS]. rewrite Z.opp_involutive in HV. inversion HV; subst. constructor.
  - destruct (data_program v t id fuel P W B Hf) as (l & sp & rest & E & HL). destruct (literal_compiles m l sp) as (sc & Hc).
    eexists _, rest, sc. split; [exact E|]. split; [exact Hc|]. intros b st s Hs Hg.
    destruct (@ProofSim13.whole_program _ m hst _ sc b st s 1 Hc ltac:(apply Nat.leb_le; vm_compute; reflexivity) eq_refl
      (ProofParse5.parse_code_named _ _ _ _ _ _ E) Hs Hg) as [K|K]; [left; exact K|right].
    rewrite eval_literal in K. destruct K as (k & w & s' & HR & HV & HS). exists k, w, s'. split; [exact HR|].
    split; [|exact HS]. eapply lit_same; eauto.
Qed.
End Round.
