(** Texts of programs: statements and bodies. *)
From Verif Require Import Base Float NumText Ast Parse SpecArith SpecParse SpecExpr SpecProg ProofParse ProofParse2 ProofParse3 ProofParse4 ProofExpr ProofProg ProofProg2 ProofProg3 ProofProg4 ProofProg5 ProofProg6 ProofProg7 ProofProg8 ProofProg9 ProofProg10.
From Verif Require ProofExpr3.

(** ** Blanks behind [return] *)
Notation one1 := (r_WHITESPACE <|> r_COMMENT).
Lemma one1_clear s n : clear s -> one1 (n, s) = PFail.
Proof.
  intros H. specialize (H n). unfold one_ws, palt in *. destruct (r_WHITESPACE (n, s)); try discriminate.
  destruct (r_TERMINATOR (n, s)); try discriminate. exact H.
Qed.
Lemma one1_line e s n : line_end e -> one1 (n, e ++ s) = PFail.
Proof. intros []; reflexivity. Qed.
Lemma blanks1 g : gap g -> forall s n, clear s -> exists l n' g', gap g' /\ length g' <= length g /\ (Forall blank g -> g' = []) /\
  runs (fun _ => one1) (n, g ++ s) l (n', g' ++ s).
Proof.
  induction 1 as [|c g Hc Hg IH|e g He Hg IH|e g He Hg IH|t e g Ht He Hg IH]; intros s n Hs.
  - exists [], n, []. split; [constructor|]. split; auto. split; auto. apply ru_nil, F_k, one1_clear; auto.
  - destruct (IH s (n + N.to_nat (utf8_len c)) Hs) as (l & n' & g' & Hg' & HL & HB & HR). exists (tt :: l), n', g'. split; auto.
    split; [cbn; lia|]. split; [intros HF; inversion HF; auto|]. apply ru_cons with (i' := (n + N.to_nat (utf8_len c), g ++ s)); [|cbn; lia|exact HR].
    apply M_k. erewrite palt_l; [reflexivity|]. unfold r_WHITESPACE. erewrite palt_l; [reflexivity|].
    unfold pbind, pchar. cbn [snd fst app]. rewrite (blank_is c Hc). reflexivity.
  - exists [], n, (e ++ g). split; [constructor; auto|]. split; auto. split.
    { intros HF. exfalso. destruct He; inversion HF as [|? ? Hb]; subst; cbn in Hb; decompose [or] Hb; try discriminate; contradiction. }
    apply ru_nil, F_k. rewrite <- app_assoc. apply one1_line; auto.
  - destruct (IH s (n + 1 + bytes_in e) Hs) as (l & n' & g' & Hg' & HL & HB & HR). exists (tt :: l), n', g'. split; auto.
    split; [cbn; rewrite app_length; lia|]. split.
    { intros HF. exfalso. inversion HF as [|? ? Hb]; subst; cbn in Hb; decompose [or] Hb; try discriminate; contradiction. }
    apply ru_cons with (i' := (n + 1 + bytes_in e, g ++ s)); [|cbn; rewrite !app_length; lia|exact HR].
    apply M_k. erewrite palt_l; [reflexivity|]. unfold r_WHITESPACE. rewrite palt_r by reflexivity.
    cbn [app]. rewrite <- app_assoc. rewrite (pbind_m _ _ _ tt (n + 1, e ++ g ++ s)) by reflexivity. apply term_end; auto.
  - exists [tt], (n + 2 + bytes_in t), (e ++ g). split; [constructor; auto|]. split; [rewrite !app_length; lia|]. split.
    { intros HF. exfalso. inversion HF as [|? ? Hb]; subst; cbn in Hb; decompose [or] Hb; try discriminate; contradiction. }
    rewrite <- !app_assoc. apply ru_cons with (i' := (n + 2 + bytes_in t, e ++ g ++ s)).
    + apply M_k. rewrite palt_r by reflexivity. apply comment_is; auto.
    + cbn [snd]. rewrite !app_length. change (length (str "//")) with 2. lia.
    + apply ru_nil, F_k, one1_line; auto.
Qed.
Lemma M_blanks g s n : gap g -> clear s -> exists u n' g', gap g' /\ length g' <= length g /\ (Forall blank g -> g' = []) /\
  M (fun _ => popt ws1) (n, g ++ s) u (n', g' ++ s).
Proof.
  intros Hg Hs. destruct (blanks1 g Hg s n Hs) as (l & n' & g' & Hg' & HL & HB & HR). 
  inversion HR as [i H E1 E2 E3|i a i' l' j' Ma HLen RC E1 E2 E3].
  - exists None, n', g. split; auto. split; auto. split.
    { intros HF. match goal with X : ?a = g' ++ s |- _ => rename X into H3 | X : g ++ s = _ |- _ => rename X into H3 end.
      rewrite (HB HF) in H3. apply (f_equal (@length N)) in H3. rewrite app_length in H3. cbn in H3. destruct g; [auto|cbn in H3; lia]. }
    apply (M_none (fun _ : nat => ws1)). unfold ws1. apply (F_bind (fun _ => one1)). exact H.
  - exists (Some tt), n', g'. split; auto. split; auto. split; auto. apply (M_some (fun _ : nat => ws1)). unfold ws1.
    eapply (M_bind (fun _ => one1)); [exact Ma|]. eapply (M_bind (fun _ => pstar one1)); [apply M_star, RC|]. apply M_ret.
Qed.

(** ** Nothing is [else] *)
Lemma else_digit c s : digit_c c -> not_else (c :: s).
Proof. intros H n. apply kw_hi; [reflexivity|]. unfold digit_c in H. lia. Qed.
Lemma digit_or c s : number_char c -> not_else (c :: s).
Proof. intros H n. apply kw_hi; [reflexivity|]. unfold number_char, digit_c in H. lia. Qed.
Lemma literal_not_else pf l t s : literal_text pf l t -> not_else (t ++ s).
Proof.
  intros H. destruct H as [| | |z t Hz|f t Hf _|f t Hf _|a b ta tb g g' Ha|l t Hc|x|a b ta tb|l t]; try (intros n; reflexivity).
  - destruct (integer_first _ _ Hz) as (c & r & -> & Hc). apply digit_or; auto.
  - destruct (float_first _ Hf) as (c & r & -> & Hc). apply else_digit; auto.
  - destruct (integer_first _ _ Ha) as (c & r & -> & Hc). apply digit_or; auto.
  - destruct Hc; intros m; reflexivity.
Qed.
Lemma name_not_else x s : a_name x -> breaks s -> not_else (x ++ s).
Proof. intros [Hx Hn] Hs n. apply kw_other; auto. repeat constructor. Qed.
Lemma phrase_not_else pf k e t : spelled pf k e t -> forall s, breaks s -> not_else (t ++ s).
Proof.
  induction 1; intros s Hs; rewrite <- ?app_assoc; try (intros n; reflexivity).
  - apply name_not_else; auto.
  - eapply literal_not_else; eauto.
  - apply IHspelled1. apply some_breaks; auto.
  - apply IHspelled1. apply some_breaks; auto.
  - destruct o; cbn in H; try discriminate; injection H as <-; intros n; reflexivity.
  - apply IHspelled. reflexivity.
  - apply IHspelled1. reflexivity.
  - apply name_not_else; auto. eapply assign_breaks; eauto.
  - destruct (if_first _ _ _ H) as (g3 & tc & r & H3 & -> & _). intros n. reflexivity.
Qed.
Lemma line_not_else pf l t s : spelled_line pf l t -> breaks s -> not_else (t ++ s).
Proof.
  intros [e t' He|x op_ w e t' g1 g2 g3|xs e tx t' g|x e t' g1 g2 g3|f ps b tp tb g1 g2 g3|e t' g| |x g] Hs; rewrite <- ?app_assoc; try (intros n; reflexivity).
  eapply phrase_not_else; eauto.
Qed.
Lemma done_breaks s : done_text s -> breaks s.
Proof. destruct s as [|c s]; [constructor|]. intros H. each H; reflexivity. Qed.
Lemma separator_breaks g s : separator g -> breaks (g ++ s).
Proof. intros [->|[H _]]; [reflexivity|apply some_breaks; auto]. Qed.
Lemma lines_not_else pf l t s : spelled_lines pf l t -> done_text s -> not_else (t ++ s).
Proof.
  intros H Hs. destruct H as [l t g Hl Hg|l l' r t t' g Hne Hl Hg Hn Hr]; rewrite <- !app_assoc; eapply line_not_else; eauto.
  - apply gap_breaks; auto. apply done_breaks; auto.
  - apply separator_breaks; auto.
Qed.
Lemma follow_done g s : gap g -> done_text s -> follow 0 g s.
Proof.
  intros Hg Hs. destruct s as [|c s]; [apply follow_end; auto|]. apply follow_close; auto. cbn in Hs |- *. tauto.
Qed.
Lemma separator_gap g : separator g -> gap g.
Proof. intros [->|[[H _] _]]; auto. apply (ga_line (str ";") []); constructor. Qed.
Lemma separator_apart g s : separator g -> apart (g ++ s).
Proof.
  intros H. pose proof (separator_gap g H) as Hg. pose proof (gap_first g Hg) as Hf. destruct g as [|c g].
  - destruct H as [H|[[_ H] _]]; [discriminate|congruence].
  - cbn. split; [apply gap_char_word; auto|]. intros ->. cbn in Hf. decompose [or] Hf; try discriminate; contradiction.
Qed.
Lemma follow_next g t s : separator g -> new_line t -> not_else (t ++ s) -> follow 0 g (t ++ s).
Proof.
  intros Hg Hn He. split; [apply separator_gap; auto|]. left. split; [apply separator_apart; auto|].
  destruct t as [|c t]; [contradiction|]. apply en_quiet; auto. cbn in Hn. destruct Hn as [H|[H|H]]; [left; auto|right; left; auto|right; right; cbn; tauto].
Qed.
Lemma new_line_solid c t : new_line (c :: t) -> solid c.
Proof.
  intros [H|[H|H]]; [apply letter_solid; auto|apply digit_solid; unfold is_digit, digit_c in *; lia|].
  each H; repeat split; discriminate || reflexivity.
Qed.
Lemma new_line_clear t s : new_line t -> clear (t ++ s).
Proof. destruct t as [|c t]; [contradiction|]. intros H. apply clear_solid. eapply new_line_solid; eauto. Qed.

Section Atoms.
Context (o : oracle) (id : nat).
Notation pf := (o_f64_parse o).
Notation C := (climb o id).
Notation first_of := (first_of o id).
Notation full := (full o id).
Notation blk := (blk o id).
Ltac atoms := unfold ProofProg6.first_of, ProofProg6.back, ProofProg6.late, prefix_atoms; cbn [app prefixes map fst snd skipn].
Ltac skip_ff := apply M_skip; [ff|].
Ltac go p tac := eapply (M_bind p); [tac|].
Ltac go_ws tac := eapply (M_bind (fun _ => ws_)); [apply M_ws; [auto|tac]|].
Ltac go_ws0 tac := eapply (M_bind (fun _ => ws_)); [apply M_ws0; tac|].
Ltac go_lit w := eapply (M_bind (fun _ => plit w)); [apply (M_lit w)|].
Ltac go_kw w tac := eapply (M_bind (fun _ => kw w)); [apply (M_kw w); tac|].
Ltac sym := apply clear_solid; repeat split; discriminate || reflexivity.
Ltac skip_id tac := apply M_skip; [apply (F_bind (fun _ => ident id)), F_k; apply ident_word; [cbn; tauto|repeat constructor|tac]|].

(** ** Statements *)
Definition stmt (l : line) (t : rstring) : Prop := forall n g s, follow 0 g s -> (l = SReturn None -> done_text s) ->
  exists x n' g', line_tree l (fst x) /\ gap g' /\ length g' <= length g /\ (l <> SReturn None -> left g g') /\
    M (fun k => C k 0) (n, t ++ g ++ s) x (n', g' ++ s).
Lemma left_len g g' : left g g' -> length g' <= length g.
Proof. intros [->| ->]; cbn; lia. Qed.
Lemma stmt_first l t : (forall n g s, follow 0 g s -> exists nd n' g', line_tree l nd /\ left g g' /\ M first_of (n, t ++ g ++ s) nd (n', g' ++ s)) -> stmt l t.
Proof.
  intros H n g s Hf _. destruct (H n g s Hf) as (nd & n' & g' & Tn & Hl & HM). pose proof (left_gap g g' (follow_gap _ _ _ Hf) Hl) as Hg'.
  exists (nd, mkSpan n n' id), n', g'. split; auto. split; auto. split; [apply left_len; auto|]. split; auto.
  apply (M_climb o id 0 0); auto; [apply agree_low; lia|]. destruct Hf as [_ [[_ He]|(Hx & _)]]; [auto|lia].
Qed.
Lemma stmt_value e t : full e t -> stmt (SValue e) t.
Proof.
  intros He n g s Hf _. destruct (He 0 n g s ltac:(lia) Hf) as (x & n' & g' & Tx & Hl & HM). exists x, n', g'.
  split; [constructor; auto|]. split; [apply (left_gap g); auto; eapply follow_gap; eauto|]. split; [apply left_len; auto|]. split; auto.
Qed.
Lemma stmt_let x op_ w e t g1 g2 g3 : a_name x -> assign_sign op_ = Some w -> spelled pf 0 e t -> full e t -> some g1 -> gap g2 -> gap g3 ->
  stmt (SLet x op_ e) (str "let" ++ g1 ++ x ++ g2 ++ w ++ str "=" ++ g3 ++ t).
Proof.
  intros Hx Hw Se He H1 H2 H3. apply stmt_first. intros n g s Hf. rewrite <- !app_assoc. pose proof H1 as [G1 _].
  set (n0 := n + bytes_in (str "let") + bytes_in g1).
  destruct (He 3 (n0 + length x + bytes_in g2 + bytes_in w + bytes_in (str "=") + bytes_in g3) g s ltac:(lia) Hf) as (y & n' & g' & Ty & Hl & HM).
  destruct (combine x (mkSpan n0 (n0 + length x) id) op_ e y Ty) as (m & Tm & Hc).
  eexists _, n', g'. split; [eapply lr_let; eauto|]. split; auto.
  atoms. do 2 skip_ff. apply M_hit.
  go_kw (str "let") ltac:(apply some_breaks; auto). go_ws ltac:(apply name_clear; apply a_name_is; auto).
  go (fun _ : nat => ident id) ltac:(apply M_named; [auto|apply (assign_breaks op_); auto]). go_ws ltac:(apply (assign_clear op_); auto).
  go (fun _ : nat => popt r_op) ltac:(apply (op_assign op_); auto). go_lit (str "="). go_ws ltac:(eapply phrase_clear; eauto).
  go (fun k => C k 3) ltac:(apply HM). apply M_ret.
Qed.
Lemma stmt_lets xs e tx t g1 : 2 <= length xs -> names_text xs tx -> word_ends tx -> spelled pf 0 e t -> full e t -> gap g1 ->
  stmt (SLets xs e) (str "let" ++ tx ++ str "=" ++ g1 ++ t).
Proof.
  intros H2 Hx Hwe Se He H1. apply stmt_first. intros n g s Hf. rewrite <- !app_assoc.
  assert (Hne : xs <> []) by (destruct xs; [cbn in H2; lia|discriminate]). pose proof (names_nil xs tx Hx Hne) as Htx.
  assert (BR : forall r, breaks (tx ++ r)) by (intros; apply ends_word; auto).
  set (tl := str "=" ++ g1 ++ t ++ g ++ s).
  destruct (ws_commasepp name_of (fun _ => ident id) (stop_at tl) tl xs (tx ++ []) (n + bytes_in (str "let"))) as (nxs & n1 & HT & HC).
  { sym. }
  { discriminate. }
  { apply names_list; auto; [constructor|]. intros u Hu. apply breaks_end; auto. constructor. }
  { auto. }
  rewrite app_nil_r in HC.
  destruct (He 3 (n1 + bytes_in (str "=") + bytes_in g1) g s ltac:(lia) Hf) as (y & n' & g' & Ty & Hl & HM).
  eexists _, n', g'. split; [apply lr_lets; [apply named_of; eauto|eauto]|]. split; auto.
  atoms. do 2 skip_ff. apply M_skip.
  { eapply (F_bind2 (fun _ => kw (str "let"))); [apply M_kw; auto|].
    destruct Hx as [gx Hgx|x gx gx' Hax Hgx Hgx'|x x' l tx gx gx' Hax Hl' Hgx Hgx']; [congruence|cbn in H2; lia|].
    rewrite <- !app_assoc.
    eapply (F_bind2 (fun _ => ws_)); [apply M_ws; auto; apply name_clear; apply a_name_is; auto|].
    eapply (F_bind2 (fun _ => ident id)); [apply M_named; auto; apply word_gap; auto|].
    eapply (F_bind2 (fun _ => ws_)); [apply M_ws; auto; sym|]. ff. }
  apply M_hit. go_kw (str "let") ltac:(auto).
  apply (HC _ (fun k i => plit (str "=") >> ws_ >> on n <- C k 3; pret (NDeclaration (VarMulti i) n))).
  go_lit (str "="). go_ws ltac:(eapply phrase_clear; eauto). go (fun k => C k 3) ltac:(apply HM). apply M_ret.
Qed.
Lemma stmt_external x e t g1 g2 g3 : a_name x -> spelled pf 0 e t -> full e t -> some g1 -> gap g2 -> gap g3 ->
  stmt (SExternal x e) (str "external" ++ g1 ++ x ++ g2 ++ str "=" ++ g3 ++ t).
Proof.
  intros Hx Se He H1 H2 H3. apply stmt_first. intros n g s Hf. rewrite <- !app_assoc. pose proof H1 as [G1 _].
  set (n0 := n + bytes_in (str "external") + bytes_in g1).
  destruct (He 3 (n0 + length x + bytes_in g2 + bytes_in (str "=") + bytes_in g3) g s ltac:(lia) Hf) as (y & n' & g' & Ty & Hl & HM).
  eexists _, n', g'. split; [eapply lr_external; eauto|]. split; auto.
  atoms. do 1 skip_ff. apply M_hit.
  go_kw (str "external") ltac:(apply some_breaks; auto). go_ws ltac:(apply name_clear; apply a_name_is; auto).
  go (fun _ : nat => ident id) ltac:(apply M_named; [auto|apply word_gap; auto]). go_ws ltac:(sym).
  go_lit (str "="). go_ws ltac:(eapply phrase_clear; eauto).
  go (fun k => C k 3) ltac:(apply HM). apply M_ret.
Qed.
Lemma stmt_function f ps b tp tb g1 g2 g3 : a_name f -> names_text ps tp -> blk b tb -> some g1 -> gap g2 -> gap g3 ->
  stmt (SFunction f ps b) (str "fn" ++ g1 ++ f ++ g2 ++ str "(" ++ tp ++ str ")" ++ g3 ++ str "{" ++ tb ++ str "}").
Proof.
  intros Hx Hp Hb H1 H2 H3. apply stmt_first. intros n g s Hf.
  destruct (atom_function o id f ps b tp tb g1 g2 g3 n (g ++ s) Hx Hp Hb H1 H2 H3) as (nd & n' & Tn & HM).
  exists nd, n', g. split; auto. split; [left; auto|]. exact HM.
Qed.
Lemma stmt_include x g1 : ~ In 34%N x -> gap g1 -> stmt (SInclude x) (str "include" ++ g1 ++ [34%N] ++ x ++ [34%N]).
Proof.
  intros Hx H1. apply stmt_first. intros n g s Hf. rewrite <- !app_assoc.
  pose proof (string_reads x (g ++ s) (n + bytes_in (str "include") + bytes_in g1) Hx) as E.
  eexists _, _, g. split; [apply lr_include|]. split; [left; auto|].
  atoms. do 4 skip_ff. skip_id ltac:(apply word_gap; auto). do 7 skip_ff. apply M_hit.
  go_kw (str "include") ltac:(apply word_gap; auto). go_ws ltac:(sym).
  unfold sp_of. eapply (M_bind (fun _ => on s <- ppos; on a <- r_STRING; on e <- ppos; pret (a, mkSpan s e id))); [|apply M_ret].
  go (fun _ : nat => ppos) ltac:(apply M_pos). rewrite <- !app_assoc in E. go (fun _ : nat => r_STRING) ltac:(apply M_k, E).
  go (fun _ : nat => ppos) ltac:(apply M_pos). apply M_ret.
Qed.
Lemma blanks_gap g : Forall blank g -> gap g.
Proof. induction 1; constructor; auto. Qed.
Lemma stmt_return e t g1 : spelled pf 0 e t -> full e t -> Forall blank g1 -> g1 <> [] -> stmt (SReturn (Some e)) (str "return" ++ g1 ++ t).
Proof.
  intros Se He H1 Hn. apply stmt_first. intros n g s Hf. rewrite <- !app_assoc. pose proof (blanks_gap g1 H1) as G1.
  destruct (M_blanks g1 (t ++ g ++ s) (n + bytes_in (str "return")) G1 ltac:(eapply phrase_clear; eauto)) as (u & n1 & g0 & _ & _ & HB & MB).
  rewrite (HB H1) in MB. cbn [app] in MB.
  destruct (He 0 n1 g s ltac:(lia) Hf) as (y & n' & g' & Ty & Hl & HM).
  exists (NReturn (Some y)), n', g'. split; [constructor; auto|]. split; auto.
  atoms. apply M_hit. go_kw (str "return") ltac:(apply some_breaks; split; auto).
  go (fun _ : nat => popt ws1) ltac:(apply MB). go (fun k => popt (C k 0)) ltac:(apply (M_some (fun k => C k 0)), HM). apply M_ret.
Qed.
Lemma stmt_stop : stmt (SReturn None) (str "return").
Proof.
  intros n g s Hf Hd. specialize (Hd eq_refl). pose proof (follow_gap _ _ _ Hf) as Hg.
  destruct (M_blanks g s (n + bytes_in (str "return")) Hg (done_clear _ Hd)) as (u & n1 & g' & Hg' & HL & _ & MB).
  exists (NReturn None, mkSpan n n1 id), n1, g'. split; [constructor|]. split; auto. split; auto. split; [congruence|].
  apply (M_climb o id 0 0); auto; [apply agree_low; lia| |].
  { destruct Hf as [_ [[_ He]|(Hx & _)]]; [auto|lia]. }
  atoms. apply M_hit. go_kw (str "return") ltac:(apply gap_breaks; auto; apply done_breaks; auto).
  go (fun _ : nat => popt ws1) ltac:(apply MB). go (fun k => popt (C k 0)) ltac:(apply (M_none (fun k => C k 0)), no_more; auto). apply M_ret.
Qed.

(** ** Several statements *)
Notation sep := (plit (str ";") <|> ws_).
Definition line_of (l : line) (x : nodeS) : Prop := line_tree l (fst x).
Definition stmts (l : list line) (t : rstring) : Prop := forall n s, done_text s -> exists x i xs n' g', Forall2 line_of l (x :: xs) /\ gap g' /\
  M (fun k => C k 0) (n, t ++ s) x i /\ length (snd i) < length (t ++ s) /\ runs (fun k => sep >> C k 0) i xs (n', g' ++ s).
Lemma semicolon_gap g r : gap g -> g = 59%N :: r -> gap r.
Proof.
  intros H E. destruct H as [|c g Hc Hg|e g He Hg|e g He Hg|t e g Ht He Hg]; try discriminate E.
  - injection E as -> _. cbn in Hc. decompose [or] Hc; try discriminate; contradiction.
  - destruct He; try discriminate E. injection E as <-. auto.
Qed.
Lemma sep_done g s n : gap g -> done_text s -> F (fun k => sep >> C k 0) (n, g ++ s).
Proof.
  intros Hg Hs. destruct g as [|c g]; [|destruct (N.eq_dec c 59) as [->|Hc]].
  - cbn [app]. eapply (F_bind2 (fun _ => sep)); [|apply (no_more o id 0 [] s); [constructor|auto]].
    apply (M_right (fun _ => plit (str ";"))); [|apply M_ws0, done_clear; auto]. apply F_k. destruct s as [|c s]; [reflexivity|].
    apply (plit_ne 59), N.eqb_neq. intros <-. cbn in Hs. decompose [or] Hs; try discriminate; contradiction.
  - pose proof (semicolon_gap _ g Hg eq_refl) as Hg'. eapply (F_bind2 (fun _ => sep)); [|apply (no_more o id 0 g s); auto].
    apply (M_left (fun _ => plit (str ";"))). apply M_k. reflexivity.
  - eapply (F_bind2 (fun _ => sep)); [|apply (no_more o id 0 [] s); [constructor|auto]].
    apply (M_right (fun _ => plit (str ";"))); [|apply M_ws; auto; apply done_clear; auto]. apply F_k. apply (plit_ne 59), N.eqb_neq. congruence.
Qed.
Lemma sep_next g g' t s n : separator g -> left g g' -> new_line t -> exists n', M (fun _ => sep) (n, g' ++ t ++ s) tt (n', t ++ s).
Proof.
  intros Hg Hl Ht. pose proof (new_line_clear t s Ht) as Hc. destruct Hl as [->| ->].
  - destruct Hg as [->|[[Hg Hn] Hs]].
    + eexists. apply (M_left (fun _ => plit (str ";"))). apply (M_lit (str ";")).
    + exists (n + bytes_in g). apply (M_right (fun _ => plit (str ";"))); [|apply M_ws; auto]. apply F_k.
      destruct g as [|c g]; [congruence|]. apply (plit_ne 59), N.eqb_neq. intros <-. apply Hs. reflexivity.
  - exists n. apply (M_right (fun _ => plit (str ";"))); [|apply M_ws0; auto]. apply F_k. destruct t as [|c t]; [contradiction|].
    apply (plit_ne 59), N.eqb_neq. intros <-. apply new_line_solid in Ht. unfold solid in Ht. tauto.
Qed.
Lemma stmts_last l t g : t <> [] -> stmt l t -> gap g -> stmts [l] (t ++ g).
Proof.
  intros Hne Hl Hg n s Hs. rewrite <- app_assoc.
  destruct (Hl n g s (follow_done g s Hg Hs) (fun _ => Hs)) as (x & n' & g' & Tx & Hg' & HL & _ & HM).
  exists x, (n', g' ++ s), [], n', g'. split; [constructor; auto|]. split; auto. split; auto. split; [cbn; rewrite !app_length; destruct t; [congruence|cbn; lia]|].
  apply ru_nil, sep_done; auto.
Qed.
Lemma stmts_more l l' r t t' g : l <> SReturn None -> spelled_line pf l t -> stmt l t -> separator g -> new_line t' -> spelled_lines pf (l' :: r) t' -> stmts (l' :: r) t' ->
  t <> [] -> stmts (l :: l' :: r) (t ++ g ++ t').
Proof.
  intros Hne Sl Hl Hg Hn Sr Hr Ht n s Hs. rewrite <- !app_assoc.
  destruct (Hl n g (t' ++ s)) as (x & n1 & g1 & Tx & Hg1 & HL & Hlf & HM).
  { apply follow_next; auto. eapply lines_not_else; eauto. }
  { congruence. }
  destruct (sep_next g g1 t' s n1 Hg (Hlf Hne) Hn) as (n2 & MS).
  destruct (Hr n2 s Hs) as (x' & i & xs & n' & g' & TT & Hg' & MX & HLi & HR).
  exists x, (n1, g1 ++ t' ++ s), (x' :: xs), n', g'. split; [constructor; auto|]. split; auto. split; auto. split.
  { cbn [snd]. rewrite !app_length. destruct t; [congruence|cbn; lia]. }
  apply ru_cons with (i' := i); auto.
  - eapply (M_bind (fun _ => sep)); [apply MS|exact MX].
  - cbn [snd]. rewrite !app_length in *. lia.
Qed.
End Atoms.
