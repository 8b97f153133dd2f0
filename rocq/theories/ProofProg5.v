(** Texts of programs: how they start, and what a literal at their start is followed by. *)
From Verif Require Import Base Float NumText Ast Parse SpecArith SpecParse SpecExpr SpecProg ProofParse ProofParse2 ProofParse3 ProofParse4 ProofExpr ProofProg ProofProg2 ProofProg3 ProofProg4.
From Verif Require ProofExpr3 ProofText.

Scheme sp_min := Minimality for spelled Sort Prop
  with sa_min := Minimality for spelled_args Sort Prop
  with si_min := Minimality for spelled_if Sort Prop
  with se_min := Minimality for spelled_else Sort Prop
  with sc_min := Minimality for spelled_cases Sort Prop
  with sd_min := Minimality for spelled_default Sort Prop
  with sx_min := Minimality for spelled_as Sort Prop
  with sl_min := Minimality for spelled_line Sort Prop
  with so_min := Minimality for spelled_lines Sort Prop
  with sb_min := Minimality for spelled_body Sort Prop.
Definition spelled_all pf P0 P1 P2 P3 P4 P5 P6 P7 P8 P9 H0 H1 H2 H3 H4 H5 H6 H7 H8 H9 H10 H11 H12 H13 H14 H15 H16 H17 H18 H19 H20 H21 H22 H23 H24 H25 H26 H27 H28 H29 H30 H31 H32 H33 H34 H35 H36 H37 H38 H39 H40 H41 H42 H43 H44 :=
  conj (sp_min pf P0 P1 P2 P3 P4 P5 P6 P7 P8 P9 H0 H1 H2 H3 H4 H5 H6 H7 H8 H9 H10 H11 H12 H13 H14 H15 H16 H17 H18 H19 H20 H21 H22 H23 H24 H25 H26 H27 H28 H29 H30 H31 H32 H33 H34 H35 H36 H37 H38 H39 H40 H41 H42 H43 H44)
  (conj (sa_min pf P0 P1 P2 P3 P4 P5 P6 P7 P8 P9 H0 H1 H2 H3 H4 H5 H6 H7 H8 H9 H10 H11 H12 H13 H14 H15 H16 H17 H18 H19 H20 H21 H22 H23 H24 H25 H26 H27 H28 H29 H30 H31 H32 H33 H34 H35 H36 H37 H38 H39 H40 H41 H42 H43 H44)
  (conj (si_min pf P0 P1 P2 P3 P4 P5 P6 P7 P8 P9 H0 H1 H2 H3 H4 H5 H6 H7 H8 H9 H10 H11 H12 H13 H14 H15 H16 H17 H18 H19 H20 H21 H22 H23 H24 H25 H26 H27 H28 H29 H30 H31 H32 H33 H34 H35 H36 H37 H38 H39 H40 H41 H42 H43 H44)
  (conj (se_min pf P0 P1 P2 P3 P4 P5 P6 P7 P8 P9 H0 H1 H2 H3 H4 H5 H6 H7 H8 H9 H10 H11 H12 H13 H14 H15 H16 H17 H18 H19 H20 H21 H22 H23 H24 H25 H26 H27 H28 H29 H30 H31 H32 H33 H34 H35 H36 H37 H38 H39 H40 H41 H42 H43 H44)
  (conj (sc_min pf P0 P1 P2 P3 P4 P5 P6 P7 P8 P9 H0 H1 H2 H3 H4 H5 H6 H7 H8 H9 H10 H11 H12 H13 H14 H15 H16 H17 H18 H19 H20 H21 H22 H23 H24 H25 H26 H27 H28 H29 H30 H31 H32 H33 H34 H35 H36 H37 H38 H39 H40 H41 H42 H43 H44)
  (conj (sd_min pf P0 P1 P2 P3 P4 P5 P6 P7 P8 P9 H0 H1 H2 H3 H4 H5 H6 H7 H8 H9 H10 H11 H12 H13 H14 H15 H16 H17 H18 H19 H20 H21 H22 H23 H24 H25 H26 H27 H28 H29 H30 H31 H32 H33 H34 H35 H36 H37 H38 H39 H40 H41 H42 H43 H44)
  (conj (sx_min pf P6 H31 H32)
  (conj (sl_min pf P0 P1 P2 P3 P4 P5 P6 P7 P8 P9 H0 H1 H2 H3 H4 H5 H6 H7 H8 H9 H10 H11 H12 H13 H14 H15 H16 H17 H18 H19 H20 H21 H22 H23 H24 H25 H26 H27 H28 H29 H30 H31 H32 H33 H34 H35 H36 H37 H38 H39 H40 H41 H42 H43 H44)
  (conj (so_min pf P0 P1 P2 P3 P4 P5 P6 P7 P8 P9 H0 H1 H2 H3 H4 H5 H6 H7 H8 H9 H10 H11 H12 H13 H14 H15 H16 H17 H18 H19 H20 H21 H22 H23 H24 H25 H26 H27 H28 H29 H30 H31 H32 H33 H34 H35 H36 H37 H38 H39 H40 H41 H42 H43 H44)
  (sb_min pf P0 P1 P2 P3 P4 P5 P6 P7 P8 P9 H0 H1 H2 H3 H4 H5 H6 H7 H8 H9 H10 H11 H12 H13 H14 H15 H16 H17 H18 H19 H20 H21 H22 H23 H24 H25 H26 H27 H28 H29 H30 H31 H32 H33 H34 H35 H36 H37 H38 H39 H40 H41 H42 H43 H44))))))))).

(** ** First characters *)
Definition lead (c : N) : Prop := letter c \/ digit_c c \/ In c (str "#@{([!-~" ++ [34%N]).
Lemma lead_solid c : lead c -> solid c.
Proof.
  intros [H|[H|H]]; [apply letter_solid; auto|apply digit_solid; unfold is_digit, digit_c in *; lia|].
  each H; repeat split; discriminate || reflexivity.
Qed.
Lemma lead_not c : lead c -> ~ In c (str "=])},:").
Proof.
  intros [H|[H|H]] Hi.
  - unfold letter in H. each Hi; lia.
  - unfold digit_c in H. each Hi; lia.
  - each H; cbn in Hi; decompose [or] Hi; try discriminate; contradiction.
Qed.
Definition begins (t : rstring) : Prop := exists c t', t = c :: t' /\ lead c /\ (c = 45%N -> starts (fun d => d <> 61%N) t').
Lemma begins_app t s : begins t -> begins (t ++ s).
Proof.
  intros (c & t' & -> & Hc & H). exists c, (t' ++ s). split; [reflexivity|]. split; auto. intros E. specialize (H E).
  destruct t'; [contradiction|exact H].
Qed.
Lemma begins_lit s t : match s with c :: r => lead c /\ c <> 45%N | [] => False end -> begins (s ++ t).
Proof.
  destruct s as [|c r]; [contradiction|]. intros [H H']. exists c, (r ++ t). split; [reflexivity|]. split; auto. contradiction.
Qed.
Lemma begins_name x t : is_name x -> begins (x ++ t).
Proof. intros H. destruct (name_word x H) as (c & r & -> & Hc & _). apply begins_lit. split; [left; auto|]. unfold letter in Hc. lia. Qed.
Lemma digit_begins c t : digit_c c -> begins (c :: t).
Proof. intros H. exists c, t. split; auto. split; [right; left; auto|]. unfold digit_c in H. lia. Qed.
Lemma numeral_begins t z : numeral 10 t z -> exists c t', t = c :: t' /\ digit_c c.
Proof.
  intros H. destruct (numeral_digits t z H) as (H1 & H2 & _). destruct t as [|c r]; [congruence|]. exists c, r. split; auto.
  inversion H2; subst. unfold is_digit, digit_c in *. lia.
Qed.
Lemma integer_begins z t : integer_text z t -> begins t.
Proof.
  intros [z' t' Ht|z' t' Ht|t' vs Hn Ht|z' t' Ht|z' t' Ht].
  - destruct (numeral_begins _ _ Ht) as (c & r & -> & Hc). apply digit_begins; auto.
  - destruct (numeral_begins _ _ Ht) as (c & r & -> & Hc). exists 45%N, (c :: r). split; auto. split; [right; right; cbn; tauto|].
    intros _. cbn. unfold digit_c in Hc. lia.
  - apply (digit_begins 48). unfold digit_c. lia.
  - apply (digit_begins 48). unfold digit_c. lia.
  - apply (digit_begins 48). unfold digit_c. lia.
Qed.
Lemma literal_begins pf l t : literal_text pf l t -> begins t.
Proof.
  intros H. destruct H as [| | |z t Hz|f t Hf _|f t Hf _|a b ta tb g g' Ha|l t Hc|s|a b ta tb|l t].
  1-3: match goal with |- begins ?s => rewrite <- (app_nil_r s); apply (begins_lit s) end; (split; [left; unfold letter; cbn; lia|discriminate]).
  - eapply integer_begins; eauto.
  - destruct (float_first _ Hf) as (c & t' & -> & Hc). apply digit_begins; auto.
  - destruct (float_first _ Hf) as (c & t' & -> & Hc). exists 45%N, (c :: t'). split; auto. split; [right; right; cbn; tauto|].
    intros _. cbn. unfold digit_c in Hc. lia.
  - apply begins_app. eapply integer_begins; eauto.
  - destruct Hc; apply (begins_lit (str "#")); cbn; (split; [right; right; cbn; tauto|discriminate]).
  - apply (begins_lit [34%N]); (split; [right; right; cbn; tauto|discriminate]).
  - apply (begins_lit (str "(")); (split; [right; right; cbn; tauto|discriminate]).
  - apply (begins_lit (str "[")); (split; [right; right; cbn; tauto|discriminate]).
Qed.
Lemma gap_char_not c : gap_char c -> c <> 61%N /\ c <> 93%N /\ c <> 44%N /\ is_digit c = false.
Proof. intros H. each H; repeat split; discriminate || reflexivity. Qed.
Lemma if_first pf e t : spelled_if pf e t -> exists g tc r, some g /\ t = str "if" ++ g ++ tc ++ r /\ exists c, spelled pf 0 c tc.
Proof. intros H. inversion H; subst. eexists g, tc, _. split; auto. split; [reflexivity|]. eauto. Qed.
Lemma phrase_begins pf k e t : spelled pf k e t -> begins t.
Proof.
  induction 1; try (apply begins_app; assumption).
  - rewrite <- (app_nil_r x). apply begins_name, H.
  - eapply literal_begins; eauto.
  - apply (begins_lit (str "[")); (split; [right; right; cbn; tauto|discriminate]).
  - apply (begins_lit (str "(")); (split; [right; right; cbn; tauto|discriminate]).
  - apply (begins_lit (str "(")); (split; [right; right; cbn; tauto|discriminate]).
  - destruct IHspelled as (c & t' & -> & Hc & _).
    assert (Hs : starts (fun d => d <> 61%N) (g ++ c :: t')).
    { pose proof (gap_first g H2) as Hg. destruct g as [|d g]; cbn.
      - pose proof (lead_not c Hc) as Hn. intros ->. apply Hn. cbn; tauto.
      - apply gap_char_not; auto. }
    destruct o; cbn in H; try discriminate; injection H as <-.
    + apply (begins_lit (str "!")); (split; [right; right; cbn; tauto|discriminate]).
    + exists 45%N, (g ++ c :: t'). split; [reflexivity|]. split; [right; right; cbn; tauto|]. auto.
    + apply (begins_lit (str "~")); (split; [right; right; cbn; tauto|discriminate]).
  - assert (exists c t', t = c :: t' /\ digit_c c) as (c & t' & -> & Hc).
    { destruct H1 as [[Hf _]|(z & _ & Hn)]; [apply float_first; auto|eapply numeral_begins; eauto]. }
    exists 45%N, (c :: t'). split; auto. split; [right; right; cbn; tauto|]. intros _. cbn. unfold digit_c in Hc. lia.
  - apply (begins_lit (str "@")); (split; [right; right; cbn; tauto|discriminate]).
  - apply begins_name, H.
  - apply (begins_lit (str "fn")); (split; [left; unfold letter; cbn; lia|discriminate]).
  - apply (begins_lit (str "{")); (split; [right; right; cbn; tauto|discriminate]).
  - destruct (if_first _ _ _ H) as (g & tc & r & _ & -> & _).
    apply (begins_lit (str "if")); (split; [left; unfold letter; cbn; lia|discriminate]).
  - apply (begins_lit (str "switch")); (split; [left; unfold letter; cbn; lia|discriminate]).
  - apply (begins_lit (str "while")); (split; [left; unfold letter; cbn; lia|discriminate]).
  - apply (begins_lit (str "for")); (split; [left; unfold letter; cbn; lia|discriminate]).
  - apply (begins_lit (str "with")); (split; [left; unfold letter; cbn; lia|discriminate]).
Qed.
Lemma begins_clear t s : begins t -> clear (t ++ s).
Proof. intros (c & t' & -> & Hc & _). apply clear_solid, lead_solid; auto. Qed.
Lemma phrase_clear pf k e t s : spelled pf k e t -> clear (t ++ s).
Proof. intros H. eapply begins_clear, phrase_begins; eauto. Qed.
Lemma args_first pf l t : spelled_args pf l t -> l <> [] -> exists g t1, t = g ++ t1 /\ gap g /\ begins t1.
Proof.
  intros [g Hg|e u g g' He Hg Hg'|e e' r u u' g g' He Hr Hg Hg'] H; [congruence| |]; exists g; eexists; (split; [reflexivity|]); (split; [auto|]);
    apply begins_app; eapply phrase_begins; eauto.
Qed.

Lemma clear_nil : clear [].
Proof. intros n. reflexivity. Qed.
Lemma no_gap g t : gap g -> begins t -> ~ gap (g ++ t).
Proof.
  intros Hg Hb H. pose proof (begins_clear t [] Hb) as Hc. rewrite app_nil_r in Hc.
  pose proof (ws_gap _ [] 0 H clear_nil) as E. rewrite app_nil_r, (ws_gap g t 0 Hg Hc) in E.
  destruct Hb as (c & t' & -> & _). congruence.
Qed.

(** ** A literal at the start *)
Definition nosep (s : rstring) : Prop := forall n, exists n' s', ws_ (n, s) = PMatch tt (n', s') /\ clear s' /\
  length s' <= length s /\ match s' with c :: _ => ~ In c (str ",)]") | [] => True end.
Lemma nosep_gap g s : gap g -> clear s -> match s with c :: _ => ~ In c (str ",)]") | [] => True end -> nosep (g ++ s).
Proof.
  intros Hg Hs H n. exists (n + bytes_in g), s. split; [apply ws_gap; auto|]. split; auto. split; auto. rewrite app_length. lia.
Qed.
Lemma no_range g s : gap g -> clear s -> match s with c :: _ => c <> 58%N | [] => True end -> norange (g ++ s).
Proof.
  intros Hg Hc Hs n B q. rewrite (pbind_m _ _ _ _ _ (ws_gap g s n Hg Hc)). apply pbind_f.
  destruct s as [|c s]; [reflexivity|]. apply (plit_ne 58), N.eqb_neq. congruence.
Qed.
Lemma int_other parse c s n : ~ (digit_c c \/ c = 45%N) -> r_int parse (n, c :: s) = PFail.
Proof.
  intros Hc. assert (Z0 : forall x xs, plit (48%N :: x :: xs) (n, c :: s) = PFail).
  { intros. apply plit_ne, N.eqb_neq. unfold digit_c in Hc. lia. }
  unfold r_int. change (str "0b") with [48%N; 98%N]. change (str "0x") with [48%N; 120%N]. change (str "0o") with [48%N; 111%N].
  do 3 (rewrite palt_r by (apply pbind_f, Z0)).
  rewrite (pbind_m _ _ _ None (n, c :: s)).
  2: { unfold popt. change (str "-") with [45%N]. rewrite plit_ne; auto. apply N.eqb_neq. intros <-. tauto. }
  apply pbind_f. unfold prun1, prun, pbind. cbn [fst snd prun_go].
  replace (is_digit c) with false; [reflexivity|]. unfold digit_c in Hc. unfold is_digit. lia.
Qed.
Lemma colon_range g g' t s : gap g -> gap g' -> begins t -> ~ starts (fun c => digit_c c \/ c = 45%N) t -> norange (g ++ str ":" ++ g' ++ t ++ s).
Proof.
  intros Hg Hg' Hb Ht n B q.
  rewrite (pbind_m _ _ _ _ _ (ws_gap g _ n Hg (colon_clear _))). rewrite (pbind_m _ _ _ _ _ (plit_is (str ":") _ _)).
  rewrite (pbind_m _ _ _ _ _ (ws_gap g' _ _ Hg' (begins_clear t s Hb))).
  destruct Hb as (c & t' & -> & Hc & _). apply pbind_f. cbn [app]. apply int_other. exact Ht.
Qed.
Lemma op_apart g o w l r : some g -> binary_text o = Some (w, l) -> apart (g ++ w ++ r).
Proof.
  intros [Hg Hn] _. pose proof (gap_first g Hg) as H. destruct g as [|c g]; [congruence|]. cbn. split; [apply gap_char_word; auto|].
  intros ->. cbn in H. decompose [or] H; try discriminate; contradiction.
Qed.
Lemma op_not o w l s : binary_text o = Some (w, l) -> match w ++ s with c :: _ => c <> 58%N /\ ~ In c (str ",)]") | [] => True end.
Proof. intros H. ops o; injection H as <- <-; (split; [discriminate|]); intros Hi; cbn in Hi; decompose [or] Hi; try discriminate; contradiction. Qed.
(** A minus sign that is not before a digit. *)
Lemma minus_int parse c s n : is_digit c = false -> r_int parse (n, 45%N :: c :: s) = PFail.
Proof.
  intros Hd. unfold r_int. do 3 (rewrite palt_r by reflexivity).
  rewrite (pbind_m _ _ _ (Some tt) (n + 1, c :: s)) by reflexivity. apply pbind_f.
  unfold prun1, prun, pbind. cbn [fst snd prun_go]. rewrite Hd. reflexivity.
Qed.
Lemma minus_literal o c s n : is_digit c = false -> F (r_literal o) (n, 45%N :: c :: s).
Proof.
  intros Hd. apply F_up. cbn [r_literal]. do 4 (apply F_alt; [ff|]).
  apply F_alt.
  { apply (F_bind (fun _ => r_FLOAT o)), F_k. unfold r_FLOAT. rewrite (pbind_m _ _ _ (Some tt) (n + 1, c :: s)) by reflexivity.
    apply pbind_f. unfold prun1, prun, pbind. cbn [fst snd prun_go]. rewrite Hd. reflexivity. }
  apply F_alt; [apply (F_bind (fun _ => r_INT32)), F_k, minus_int; auto|].
  apply F_alt; [apply (F_bind (fun _ => r_INT)), F_k, minus_int; auto|].
  do 2 (apply F_alt; [ff|]). ff.
Qed.
Lemma minus_next pf e t g s : spelled pf 8 e t -> gap g -> (g = [] -> ~ starts digit_c t) -> exists c r, g ++ t ++ s = c :: r /\ is_digit c = false.
Proof.
  intros Ht Hg H. pose proof (gap_first g Hg) as Hf. destruct g as [|c g].
  - destruct (phrase_begins _ _ _ _ Ht) as (c & t' & -> & _). exists c, (t' ++ s). split; [reflexivity|].
    specialize (H eq_refl). cbn in H. unfold digit_c in H. unfold is_digit. lia.
  - exists c, (g ++ t ++ s). split; [reflexivity|]. apply gap_char_not; auto.
Qed.

Section Prefix.
Context (o : oracle).
Notation pf := (o_f64_parse o).
Notation LR := (r_literal o).
Notation piece := (piece LR).
Definition lp (e : phrase) (t : rstring) : Prop := forall rest n, apart rest -> (number_last e = true -> norange rest) ->
  F LR (n, t ++ rest) \/
  exists l n' s, M LR (n, t ++ rest) l (n', s) /\ ((s = rest /\ exists l, literal_text pf l t) \/ nosep s).
Definition bad (s : rstring) : Prop := forall n, exists n1 s1 n2 s2 x, popt (plit (str ",")) (n, s) = PMatch x (n1, s1) /\
  ws_ (n1, s1) = PMatch tt (n2, s2) /\ clear s2 /\ ~ starts (fun c => c = 93%N) s2.
Definition lps (l : list phrase) (t : rstring) : Prop := forall r n, 
  (exists ls, literals_text pf ls t) \/
  l <> [] /\ (F piece (n, t ++ str "]" ++ r) \/
    exists b i bs j, M piece (n, t ++ str "]" ++ r) b i /\ length (snd i) <= length (t ++ str "]" ++ r) /\
      runs (fun k => plit (str ",") >> piece k) i bs j /\ bad (snd j)).

Lemma lit_len i l j : M LR i l j -> length (snd j) <= length (snd i).
Proof.
  intros [k0 H]. pose proof (eat_literal o (S (k0 + length (snd i))) i ltac:(lia)) as E. rewrite H in E by lia. cbn in E. lia.
Qed.
Lemma bad_clear s : clear s -> match s with c :: _ => ~ In c (str ",)]") | [] => True end -> bad s.
Proof.
  intros Hs H n. exists n, s, n, s, None. split.
  - unfold popt. destruct s as [|c s]; [reflexivity|]. change (str ",") with [44%N]. rewrite plit_ne; auto. apply N.eqb_neq. intros <-.
    apply H. cbn; tauto.
  - split; [apply ws_clear; auto|]. split; auto. destruct s as [|c s]; [auto|]. cbn in *. intros ->. apply H. tauto.
Qed.
Lemma comma_fails {A} s n (q : nat -> P A) : ~ starts (fun c => c = 44%N) s -> F (fun k => plit (str ",") >> q k) (n, s).
Proof.
  intros H. apply (F_bind (fun _ => plit (str ","))), F_k. destruct s as [|c s]; [reflexivity|].
  apply (plit_ne 44), N.eqb_neq. intros <-. apply H. reflexivity.
Qed.
Lemma piece_shift g s n b i : gap g -> clear s -> M piece (n, g ++ s) b i -> M piece (n + bytes_in g, s) b i.
Proof.
  intros Hg Hs H. eapply ev_imp; [apply H|]. cbn. intros k E. unfold ProofProg2.piece in *.
  rewrite (pbind_m _ _ _ _ _ (ws_gap g s n Hg Hs)) in E. rewrite (pbind_m _ _ _ _ _ (ws_clear s _ Hs)). exact E.
Qed.
Lemma piece_shift_F g s n : gap g -> clear s -> F piece (n, g ++ s) -> F piece (n + bytes_in g, s).
Proof.
  intros Hg Hs H. eapply ev_imp; [apply H|]. cbn. intros k E. unfold ProofProg2.piece in *.
  rewrite (pbind_m _ _ _ _ _ (ws_gap g s n Hg Hs)) in E. rewrite (pbind_m _ _ _ _ _ (ws_clear s _ Hs)). exact E.
Qed.
(** The first element. *)
Lemma element e t g g' c s n : spelled pf 0 e t -> lp e t -> gap g -> gap g' -> In c (str ",]") ->
  F piece (n, g ++ t ++ g' ++ c :: s) \/
  (exists b n', M piece (n, g ++ t ++ g' ++ c :: s) b (n', c :: s) /\ exists l, literal_text pf l t) \/
  (exists b n' s', M piece (n, g ++ t ++ g' ++ c :: s) b (n', s') /\ length s' <= length (t ++ g' ++ c :: s) /\
     clear s' /\ match s' with c :: _ => ~ In c (str ",)]") | [] => True end).
Proof.
  intros Ht He Hg Hg' Hc. assert (Hc' : closer c) by (each Hc; cbn; tauto).
  pose proof (phrase_clear pf 0 e t (g' ++ c :: s) Ht) as Hcl.
  destruct (He (g' ++ c :: s) (n + bytes_in g)) as [HF|(l & n' & s' & HM & Hs')].
  - apply gap_apart; auto. apply closer_apart; auto.
  - intros _. apply closer_range; auto.
  - left. eapply (F_bind2 (fun _ => ws_)); [apply M_ws; auto|]. apply (F_bind LR). auto.
  - right. destruct Hs' as [[-> HL]|Hs'].
    + left. exists l, (n' + bytes_in g'). split; auto.
      eapply (M_bind (fun _ => ws_)); [apply M_ws; auto|]. eapply (M_bind LR); [apply HM|].
      eapply (M_bind (fun _ => ws_)); [apply M_ws; auto; apply close_clear; auto|]. apply M_ret.
    + right. destruct (Hs' n') as (n2 & s2 & W & Hc2 & HL & Hn2). exists l, n2, s2. split; [|split; [|split; auto]].
      * eapply (M_bind (fun _ => ws_)); [apply M_ws; auto|]. eapply (M_bind LR); [apply HM|].
        eapply (M_bind (fun _ => ws_)); [apply M_k, W|]. apply M_ret.
      * apply lit_len in HM. cbn [snd] in HM. unfold rstring in *. lia.
Qed.
Lemma bad_runs n s : clear s -> match s with c :: _ => ~ In c (str ",)]") | [] => True end ->
  runs (fun k => plit (str ",") >> piece k) (n, s) [] (n, s) /\ bad s.
Proof.
  intros Hs H. split; [|apply bad_clear; auto]. apply ru_nil, comma_fails. destruct s as [|c s]; [auto|]. cbn in *. intros ->. apply H. tauto.
Qed.
Lemma lps_last e t g g' : spelled pf 0 e t -> lp e t -> gap g -> gap g' -> lps [e] (g ++ t ++ g').
Proof.
  intros Ht He Hg Hg' r n. rewrite <- !app_assoc. change (str "]" ++ r) with (93%N :: r).
  destruct (element e t g g' 93 r n Ht He Hg Hg' ltac:(cbn; tauto)) as [HF|[(b & n' & HM & l & HL)|(b & n' & s' & HM & HLen & Hc & Hs)]].
  - right. split; [discriminate|]. left. exact HF.
  - left. exists [l]. apply ls_last; auto.
  - right. split; [discriminate|]. right. destruct (bad_runs n' s' Hc Hs). exists b, (n', s'), [], (n', s').
    split; auto. split; [cbn [snd]; rewrite !app_length in *; unfold rstring in *; lia|]. auto.
Qed.
Lemma lps_more e e' l t t' g g' : spelled pf 0 e t -> lp e t -> spelled_args pf (e' :: l) t' -> lps (e' :: l) t' -> gap g -> gap g' ->
  lps (e :: e' :: l) (g ++ t ++ g' ++ str "," ++ t').
Proof.
  intros Ht He Hl IH Hg Hg' r n. rewrite <- !app_assoc. change (str "," ++ t' ++ str "]" ++ r) with (44%N :: t' ++ str "]" ++ r).
  destruct (element e t g g' 44 (t' ++ str "]" ++ r) n Ht He Hg Hg' ltac:(cbn; tauto)) as [HF|[(b & n' & HM & a & HL)|(b & n' & s' & HM & HLen & Hc & Hs)]].
  - right. split; [discriminate|]. left. exact HF.
  - destruct (args_first _ _ _ Hl ltac:(discriminate)) as (g1 & t1 & -> & Hg1 & Hb1).
    destruct (IH r (n' + bytes_in (str ","))) as [[ls HLs]|[_ [HF|(b' & i & bs & j & HM' & HLen & Hr & Hj)]]].
    + left. destruct ls as [|l' ls].
      * exfalso. apply (no_gap g1 t1); auto. inversion HLs; auto.
      * exists (a :: l' :: ls). apply ls_more; auto.
    + right. split; [discriminate|]. right. exists b, (n', 44%N :: (g1 ++ t1) ++ str "]" ++ r), [], (n', 44%N :: (g1 ++ t1) ++ str "]" ++ r).
      split; auto. split; [cbn [snd]; rewrite !app_length; cbn [length]; rewrite ?app_length; lia|]. split.
      * apply ru_nil. eapply (F_bind2 (fun _ => plit (str ","))); [apply (M_lit (str ","))|]. exact HF.
      * intros m. exists (m + 1), ((g1 ++ t1) ++ str "]" ++ r), (m + 1 + bytes_in g1), (t1 ++ str "]" ++ r), (Some tt).
        rewrite <- !app_assoc. split; [reflexivity|]. split; [apply ws_gap; auto; apply begins_clear; auto|].
        split; [apply begins_clear; auto|]. destruct Hb1 as (c & t2 & -> & Hlead & _). cbn. intros ->. apply (lead_not _ Hlead). cbn; tauto.
    + right. split; [discriminate|]. right. exists b, (n', 44%N :: (g1 ++ t1) ++ str "]" ++ r), (b' :: bs), j.
      split; auto. split; [cbn [snd]; rewrite !app_length; cbn [length]; rewrite ?app_length; lia|]. split; auto.
      eapply ru_cons; [|cbn [snd]|exact Hr].
      * eapply (M_bind (fun _ => plit (str ","))); [apply (M_lit (str ","))|]. exact HM'.
      * cbn [length]. lia.
  - right. split; [discriminate|]. right. destruct (bad_runs n' s' Hc Hs). exists b, (n', s'), [], (n', s').
    split; auto. split; [cbn [snd]; rewrite !app_length in *; unfold rstring in *; lia|]. auto.
Qed.
Lemma comma_ws s n {B} (q : nat -> unit -> P B) : nosep s -> F (fun k => ws_ >> plit (str ",") >> q k tt) (n, s).
Proof.
  intros H. destruct (H n) as (n' & s' & W & Hc & _ & Hs). eapply (F_bind2 (fun _ => ws_)); [apply M_k, W|].
  apply comma_fails. destruct s' as [|c s']; [auto|]. cbn in *. intros ->. apply Hs. tauto.
Qed.
Lemma close_ws s n {B} (q : nat -> P B) : nosep s -> F (fun k => ws_ >> plit (str ")") >> q k) (n, s).
Proof.
  intros H. destruct (H n) as (n' & s' & W & Hc & _ & Hs). eapply (F_bind2 (fun _ => ws_)); [apply M_k, W|].
  apply (F_bind (fun _ => plit (str ")"))), F_k. destruct s' as [|c s']; [reflexivity|].
  apply (plit_ne 41), N.eqb_neq. intros <-. apply Hs. cbn; tauto.
Qed.
Lemma pair_rule n s : F (fun k => ws_ >> on h <- LR k; ws_ >> plit (str ",") >> ws_ >>
     on t <- LR k; ws_ >> plit (str ")") >> pret (LPair h t)) (n + 1, s) -> F LR (n, str "(" ++ s).
Proof.
  intros H. apply F_up. cbn [r_literal]. do 8 (apply F_alt; [ff|]). apply F_alt; [|ff].
  eapply (F_bind2 (fun _ => plit (str "("))); [apply (M_lit (str "("))|]. exact H.
Qed.
(** An expression in parentheses is no pair of literals. *)
Lemma no_pair {B} (q : nat -> literal -> unit -> P B) e t g g' rest n : spelled pf 0 e t -> lp e t -> gap g -> gap g' -> 
  F (fun k => ws_ >> on h <- LR k; ws_ >> on c <- plit (str ","); q k h c) (n, g ++ t ++ g' ++ str ")" ++ rest).
Proof.
  intros Ht He Hg Hg'.
  eapply (F_bind2 (fun _ => ws_)); [apply M_ws; auto; eapply phrase_clear; eauto|].
  destruct (He (g' ++ str ")" ++ rest) (n + bytes_in g)) as [HF|(l & n' & s' & HM & Hs')].
  - apply gap_apart; auto. apply closer_apart. cbn; tauto.
  - intros _. apply closer_range; auto. cbn; tauto.
  - apply (F_bind LR). auto.
  - eapply (F_bind2 LR); [apply HM|]. destruct Hs' as [[-> HL]|Hs'].
    + eapply (F_bind2 (fun _ => ws_)); [apply M_ws; auto; apply close_clear; cbn; tauto|]. ff.
    + destruct (Hs' n') as (n2 & s2 & W & Hc & _ & Hs2). eapply (F_bind2 (fun _ => ws_)); [apply M_k, W|].
      apply (F_bind (fun _ => plit (str ","))), F_k. destruct s2 as [|c s2]; [reflexivity|]. apply (plit_ne 44), N.eqb_neq.
      intros <-. apply Hs2. cbn; tauto.
Qed.
Lemma lp_paren e t g g' : spelled pf 0 e t -> lp e t -> gap g -> gap g' -> forall rest n, F LR (n, (str "(" ++ g ++ t ++ g' ++ str ")") ++ rest).
Proof.
  intros Ht He Hg Hg' rest n. rewrite <- !app_assoc. apply pair_rule.
  apply (no_pair (fun k l _ => ws_ >> on t0 <- LR k; ws_ >> plit (str ")") >> pret (LPair l t0)) e); auto.
Qed.
Lemma lp_pair a b ta tb g1 g2 g3 g4 : spelled pf 0 a ta -> lp a ta -> spelled pf 0 b tb -> lp b tb -> gap g1 -> gap g2 -> gap g3 -> gap g4 ->
  ~ ((exists l, literal_text pf l ta) /\ (exists l, literal_text pf l tb)) ->
  forall rest n, F LR (n, (str "(" ++ g1 ++ ta ++ g2 ++ str "," ++ g3 ++ tb ++ g4 ++ str ")") ++ rest).
Proof.
  intros Ta Ha Tb Hb H1 H2 H3 H4 Hno rest n. rewrite <- !app_assoc. apply pair_rule.
  eapply (F_bind2 (fun _ => ws_)); [apply M_ws; auto; eapply phrase_clear; eauto|].
  destruct (Ha (g2 ++ str "," ++ g3 ++ tb ++ g4 ++ str ")" ++ rest) (n + 1 + bytes_in g1)) as [HF|(l & n' & s' & HM & Hs')].
  - apply gap_apart; auto. apply closer_apart. cbn; tauto.
  - intros _. apply closer_range; auto. cbn; tauto.
  - apply (F_bind LR). auto.
  - eapply (F_bind2 LR); [apply HM|]. destruct Hs' as [[-> HL]|Hs'].
    2: { apply (comma_ws s' n' (fun k _ => ws_ >> on t0 <- LR k; ws_ >> plit (str ")") >> pret (LPair l t0))); auto. }
    eapply (F_bind2 (fun _ => ws_)); [apply M_ws; auto; apply close_clear; cbn; tauto|].
    eapply (F_bind2 (fun _ => plit (str ","))); [apply (M_lit (str ","))|].
    eapply (F_bind2 (fun _ => ws_)); [apply M_ws; auto; eapply phrase_clear; eauto|].
    match goal with |- F _ (?m, _) => destruct (Hb (g4 ++ str ")" ++ rest) m) as [HF|(l2 & n2 & s2 & HM2 & Hs2)] end.
    + apply gap_apart; auto. apply closer_apart. cbn; tauto.
    + intros _. apply closer_range; auto. cbn; tauto.
    + apply (F_bind LR). auto.
    + eapply (F_bind2 LR); [apply HM2|]. destruct Hs2 as [[-> HL2]|Hs2].
      * exfalso. apply Hno. auto.
      * apply (close_ws s2 n2 (fun k => pret (LPair l l2))); auto.
Qed.
Lemma lp_array l t : spelled_args pf l t -> lps l t -> ~ (exists ls, literals_text pf ls t) -> forall rest n, F LR (n, (str "[" ++ t ++ str "]") ++ rest).
Proof.
  intros Hl IH Hno rest n. rewrite <- !app_assoc.
  apply F_up. cbn [r_literal]. do 9 (apply F_alt; [ff|]).
  eapply (F_bind2 (fun _ => plit (str "["))); [apply (M_lit (str "["))|].
  destruct (IH rest (n + bytes_in (str "["))) as [[ls HL]|[Hl0 Hcase]]; [exfalso; eauto|].
  destruct (args_first _ _ _ Hl Hl0) as (g & t1 & -> & Hg & Hb). rewrite <- !app_assoc in Hcase |- *.
  pose proof (begins_clear t1 (str "]" ++ rest) Hb) as Hc.
  eapply (F_bind2 (fun _ => ws_)); [apply M_ws; auto|]. unfold commasep.
  assert (HS : forall s m, bad s -> F (fun k => popt (plit (str ",")) >> ws_ >> ws_ >> plit (str "]") >> pret (LArray [])) (m, s)).
  { intros s m H. destruct (H m) as (n1 & s1 & n2 & s2 & x & E1 & E2 & E3 & E4).
    eapply (F_bind2 (fun _ => popt (plit (str ",")))); [apply M_k, E1|]. eapply (F_bind2 (fun _ => ws_)); [apply M_k, E2|].
    eapply (F_bind2 (fun _ => ws_)); [apply M_ws0; auto|]. apply (F_bind (fun _ => plit (str "]"))), F_k.
    destruct s2 as [|c s2]; [reflexivity|]. apply (plit_ne 93), N.eqb_neq. intros <-. apply E4. reflexivity. }
  assert (HE : exists bs j, M (fun k => psep (piece k) (plit (str ","))) (n + bytes_in (str "[") + bytes_in g, t1 ++ str "]" ++ rest) bs j /\ bad (snd j)).
  { destruct Hcase as [HF|(b & i & bs & j & HM & HLen & Hr & Hj)].
    - eexists [], _. split.
      + unfold psep. eapply (M_right (fun k => psep1 (piece k) (plit (str ",")))); [|apply M_ret]. unfold psep1. apply (F_bind piece).
        apply piece_shift_F; auto.
      + cbn [snd]. apply bad_clear; auto. destruct Hb as (c & t2 & -> & Hld & _). cbn. intros Hi. apply (lead_not _ Hld). cbn; tauto.
    - exists (b :: bs), j. split; auto. unfold psep. apply (M_left (fun k => psep1 (piece k) (plit (str ",")))). unfold psep1.
      eapply (M_bind piece); [apply piece_shift; auto; apply HM|].
      eapply M_bind; [apply M_star, Hr|]. apply M_ret. }
  destruct HE as (bs & [m s] & HM & Hj). cbn [snd] in Hj. destruct (Hj m) as (n1 & s1 & n2 & s2 & x & E1 & E2 & E3 & E4).
  eapply F_bind2.
  - eapply (M_bind (fun _ => ws_)); [apply M_ws0; auto|]. eapply M_bind; [apply HM|].
    eapply (M_bind (fun _ => popt (plit (str ",")))); [apply M_k, E1|]. eapply (M_bind (fun _ => ws_)); [apply M_k, E2|]. apply M_ret.
  - eapply (F_bind2 (fun _ => ws_)); [apply M_ws0; auto|]. apply (F_bind (fun _ => plit (str "]"))), F_k.
    destruct s2 as [|c s2]; [reflexivity|]. apply (plit_ne 93), N.eqb_neq. intros <-. apply E4. reflexivity.
Qed.
(** Something goes on behind the first part. *)
Lemma lp_more e e' t t' : lp e t -> (forall rest, apart (t' ++ rest)) -> (number_last e = true -> forall rest, norange (t' ++ rest)) ->
  (forall rest, nosep (t' ++ rest)) -> lp e' (t ++ t').
Proof.
  intros He H1 H2 H3 rest n _ _. rewrite <- app_assoc.
  destruct (He (t' ++ rest) n) as [HF|(l & n' & s & HM & Hs)]; auto. right. exists l, n', s. split; auto. right.
  destruct Hs as [[-> _]|Hs]; auto.
Qed.
Lemma lp_fail e t : (forall rest n, F LR (n, t ++ rest)) -> lp e t.
Proof. intros H rest n _ _. left. auto. Qed.
Lemma all_lp : (forall k e t, spelled pf k e t -> lp e t) /\ (forall l t, spelled_args pf l t -> lps l t).
Proof.
  pose proof (spelled_all pf (fun _ => lp) lps lp (fun _ _ => True) (fun _ _ => True) (fun _ _ => True) (fun _ _ => True) (fun _ _ => True)
    (fun _ _ => True) (fun _ _ => True)) as IND.
  cut (forall P Q R : Prop, (P /\ Q /\ R -> P /\ Q)). { intros HH. eapply HH. apply IND; auto; clear IND HH.
  - intros k x [Hx _] rest n Hr _. left. apply ev_up, ev_all. intros. apply ProofExpr3.literal_name; auto. apply apart_breaks; auto.
  - intros k l t Hl _ rest n Hr HR. right. destruct (proj1 (all_literals o) l t Hl rest n Hr) as [n' H].
    { destruct l; cbn; auto; contradiction. }
    exists l, n', rest. split; auto. left. eauto.
  - intros k l t Hl IH Hno. apply lp_fail, (lp_array l); auto.
  - intros. apply lp_fail, (lp_pair a b); auto.
  - intros. apply lp_fail, (lp_paren e); auto.
  - intros j a b ta tb g g' _ Ta Ha Tb Hb Hg Hg' Hn. apply (lp_more a); auto.
    + intros rest. rewrite <- !app_assoc. pose proof (gap_first g (proj1 Hg)) as Hf. destruct Hg as [Hg Hne]. destruct g as [|c g]; [congruence|].
      cbn. split; [apply gap_char_word; auto|]. intros ->. cbn in Hf. decompose [or] Hf; try discriminate; contradiction.
    + intros E rest. rewrite <- !app_assoc. apply colon_range; [apply Hg|apply spaced_gap; auto|eapply phrase_begins; eauto|auto].
    + intros rest. rewrite <- !app_assoc. apply nosep_gap; [apply Hg|apply colon_clear|]. cbn. intros Hi; decompose [or] Hi; try discriminate; contradiction.
  - intros k op_ w l a b ta tb g g' Hw Hk Ta Ha Tb Hb Hg Hg'. apply (lp_more a); auto.
    + intros rest. rewrite <- !app_assoc. eapply op_apart; eauto.
    + intros E rest. rewrite <- !app_assoc. destruct Hg' as (c & r & -> & Hc & _). apply no_range; [apply Hg|eapply op_clear; eauto|].
      pose proof (op_not op_ w l ((c :: r) ++ tb ++ rest) Hw) as H. destruct (w ++ (c :: r) ++ tb ++ rest); [auto|]. apply H.
    + intros rest. rewrite <- !app_assoc. destruct Hg' as (c & r & -> & Hc & _). apply nosep_gap; [apply Hg|eapply op_clear; eauto|].
      pose proof (op_not op_ w l ((c :: r) ++ tb ++ rest) Hw) as H. destruct (w ++ (c :: r) ++ tb ++ rest); [auto|]. apply H.
  - intros k op_ w a t g Hw Hk Ta Ha Hg Hd. apply lp_fail. intros rest n. rewrite <- !app_assoc.
    destruct op_; cbn in Hw; try discriminate; injection Hw as <-; [ff| |ff].
    destruct (minus_next pf a t g rest Ta Hg (Hd eq_refl)) as (c & r & E & Hc). 
    change (str "-" ++ g ++ t ++ rest) with (45%N :: (g ++ t ++ rest)). rewrite E. apply minus_literal; auto.
  - intros k l t Hk Hl Hcase rest n Hr HR. right.
    assert (exists l', literal_text pf l' (str "-" ++ t) /\ (is_int l' -> number_last (PUnary ONeg (PLit l)) = true)) as (l' & Hl' & Hi).
    { destruct Hcase as [[Hf Hp]|(z & -> & Hz)].
      - destruct (pf (str "-" ++ t)) as [f|] eqn:E; [|congruence]. exists (LFloat f). split; [apply lt_negative_float; auto|contradiction].
      - exists (LInt (- z)). split; [|reflexivity]. apply lt_integer; [apply it_negative; auto|]. inversion Hl; subst.
        + unfold i64_range in *. assert (0 <= z)%Z by (destruct Hz as (ds & _ & Hds & _ & <-); apply (ProofText.value_bound 10); auto; lia). change (2 ^ 63)%Z with 9223372036854775808%Z in *. lia.
        + inversion H. }
    destruct (proj1 (all_literals o) l' _ Hl' rest n Hr) as [n' H].
    { auto. }
    exists l', n', rest. split; auto. left. eauto.
  - intros k f args t ta Tf Hf Ta _. apply (lp_more f); auto.
    + intros rest. split; [reflexivity|discriminate].
    + intros _ rest. apply (no_range []); [constructor|apply clear_solid; repeat split; discriminate || reflexivity|discriminate].
    + intros rest. apply (nosep_gap []); [constructor|apply clear_solid; repeat split; discriminate || reflexivity|].
      cbn. intros Hi; decompose [or] Hi; try discriminate; contradiction.
  - intros. apply lp_fail. intros. ff.
  - intros k a i ta ti g g' Ta Ha Ti Hi Hg Hg'. apply (lp_more a); auto.
    + intros rest. split; [reflexivity|discriminate].
    + intros _ rest. apply (no_range []); [constructor|apply clear_solid; repeat split; discriminate || reflexivity|discriminate].
    + intros rest. apply (nosep_gap []); [constructor|apply clear_solid; repeat split; discriminate || reflexivity|].
      cbn. intros Hi'; decompose [or] Hi'; try discriminate; contradiction.
  - intros x op_ w e t g g' [Hx _] Hw Te He Hg Hg'. apply lp_fail. intros rest n. rewrite <- !app_assoc.
    apply ev_up, ev_all. intros. apply ProofExpr3.literal_name; auto. apply gap_breaks; auto.
    destruct op_ as [[]|]; cbn in Hw; try discriminate; injection Hw as <-; reflexivity.
  - intros. apply lp_fail. intros. ff.
  - intros. apply lp_fail. intros. ff.
  - intros. apply lp_fail. intros. ff.
  - intros. apply lp_fail. intros. ff.
  - intros. apply lp_fail. intros. ff.
  - intros. apply lp_fail. intros. ff.
  - intros g Hg r n. left. exists []. constructor; auto.
  - intros e t g g' Te He Hg Hg'. apply lps_last; auto.
  - intros. apply lps_more; auto.
  - intros. apply lp_fail. intros. ff. }
  tauto.
Qed.
End Prefix.
