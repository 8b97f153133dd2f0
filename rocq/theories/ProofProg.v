(** Texts of programs: parsers with enough fuel, white space, words. *)
From Verif Require Import Base Float NumText Ast Parse SpecArith SpecParse SpecExpr SpecProg ProofParse ProofParse2 ProofParse3 ProofParse4 ProofExpr.

(** ** With enough fuel *)
Definition ev (Q : nat -> Prop) : Prop := exists k0, forall k, k0 <= k -> Q k.
(** The parser [p k], which is given the fuel [k], reads [a] and leaves [j]; it fails. *)
Definition M {A} (p : nat -> P A) (i : inp) (a : A) (j : inp) : Prop := ev (fun k => p k i = PMatch a j).
Definition F {A} (p : nat -> P A) (i : inp) : Prop := ev (fun k => p k i = PFail).

Lemma ev_all (Q : nat -> Prop) : (forall k, Q k) -> ev Q.
Proof. intros H. exists 0. auto. Qed.
Lemma ev_2 (Q : nat -> Prop) : (forall k, Q (S (S k))) -> ev Q.
Proof. intros H. exists 2. intros k Hk. destruct k as [|[|k]]; try lia. apply H. Qed.
Lemma ev_3 (Q : nat -> Prop) : (forall k, Q (S (S (S k)))) -> ev Q.
Proof. intros H. exists 3. intros k Hk. destruct k as [|[|[|k]]]; try lia. apply H. Qed.
Lemma ev_imp (Q R : nat -> Prop) : ev Q -> (forall k, Q k -> R k) -> ev R.
Proof. intros [k0 H] HI. exists k0. auto. Qed.
Lemma ev_and (Q R : nat -> Prop) : ev Q -> ev R -> ev (fun k => Q k /\ R k).
Proof. intros [k0 H] [k1 H1]. exists (max k0 k1). intros k Hk. split; [apply H|apply H1]; lia. Qed.
Lemma ev_up (Q : nat -> Prop) : ev (fun k => Q (S k)) -> ev Q.
Proof. intros [k0 H]. exists (S k0). intros k Hk. destruct k; [lia|]. apply H. lia. Qed.
Lemma ev_down (Q : nat -> Prop) : ev Q -> ev (fun k => Q (S k)).
Proof. intros [k0 H]. exists k0. intros k Hk. apply H. lia. Qed.

Section Logic.
Context {A B : Type}.
Lemma M_k (p : P A) i a j : p i = PMatch a j -> M (fun _ => p) i a j.
Proof. intros H. apply ev_all. auto. Qed.
Lemma F_k (p : P A) i : p i = PFail -> F (fun _ => p) i.
Proof. intros H. apply ev_all. auto. Qed.
Lemma M_ret (a : A) i : M (fun _ => pret a) i a i.
Proof. apply ev_all. reflexivity. Qed.
Lemma M_up (p : nat -> P A) i a j : M (fun k => p (S k)) i a j -> M p i a j.
Proof. apply (ev_up (fun k => p k i = PMatch a j)). Qed.
Lemma M_down (p : nat -> P A) i a j : M p i a j -> M (fun k => p (S k)) i a j.
Proof. apply (ev_down (fun k => p k i = PMatch a j)). Qed.
Lemma F_up (p : nat -> P A) i : F (fun k => p (S k)) i -> F p i.
Proof. apply (ev_up (fun k => p k i = PFail)). Qed.
Lemma F_down (p : nat -> P A) i : F p i -> F (fun k => p (S k)) i.
Proof. apply (ev_down (fun k => p k i = PFail)). Qed.
Lemma M_bind (p : nat -> P A) (q : nat -> A -> P B) i a j b l :
  M p i a j -> M (fun k => q k a) j b l -> M (fun k => pbind (p k) (q k)) i b l.
Proof. intros H H'. eapply ev_imp; [apply (ev_and _ _ H H')|]. cbn. intros k [E E']. unfold pbind. rewrite E. exact E'. Qed.
Lemma F_bind (p : nat -> P A) (q : nat -> A -> P B) i : F p i -> F (fun k => pbind (p k) (q k)) i.
Proof. intros H. eapply ev_imp; [apply H|]. cbn. intros k E. unfold pbind. rewrite E. reflexivity. Qed.
Lemma F_bind2 (p : nat -> P A) (q : nat -> A -> P B) i a j :
  M p i a j -> F (fun k => q k a) j -> F (fun k => pbind (p k) (q k)) i.
Proof. intros H H'. eapply ev_imp; [apply (ev_and _ _ H H')|]. cbn. intros k [E E']. unfold pbind. rewrite E. exact E'. Qed.
Lemma M_left (p q : nat -> P A) i a j : M p i a j -> M (fun k => palt (p k) (q k)) i a j.
Proof. intros H. eapply ev_imp; [apply H|]. cbn. intros k E. unfold palt. rewrite E. reflexivity. Qed.
Lemma M_right (p q : nat -> P A) i a j : F p i -> M q i a j -> M (fun k => palt (p k) (q k)) i a j.
Proof. intros H H'. eapply ev_imp; [apply (ev_and _ _ H H')|]. cbn. intros k [E E']. unfold palt. rewrite E. exact E'. Qed.
Lemma F_alt (p q : nat -> P A) i : F p i -> F q i -> F (fun k => palt (p k) (q k)) i.
Proof. intros H H'. eapply ev_imp; [apply (ev_and _ _ H H')|]. cbn. intros k [E E']. unfold palt. rewrite E. exact E'. Qed.
Lemma M_some (p : nat -> P A) i a j : M p i a j -> M (fun k => popt (p k)) i (Some a) j.
Proof. intros H. eapply ev_imp; [apply H|]. cbn. intros k E. unfold popt. rewrite E. reflexivity. Qed.
Lemma M_none (p : nat -> P A) i : F p i -> M (fun k => popt (p k)) i None i.
Proof. intros H. eapply ev_imp; [apply H|]. cbn. intros k E. unfold popt. rewrite E. reflexivity. Qed.
Lemma M_pos i : M (fun _ => ppos) i (fst i) i.
Proof. apply ev_all. reflexivity. Qed.
(** Choice from a list. *)
Lemma M_skip (p : nat -> P A) (l : nat -> list (P A)) i a j : F p i -> M (fun k => pfirst (l k)) i a j ->
  M (fun k => pfirst (p k :: l k)) i a j.
Proof. apply M_right. Qed.
Lemma M_hit (p : nat -> P A) (l : nat -> list (P A)) i a j : M p i a j -> M (fun k => pfirst (p k :: l k)) i a j.
Proof. apply M_left. Qed.
Lemma F_skip (p : nat -> P A) (l : nat -> list (P A)) i : F p i -> F (fun k => pfirst (l k)) i -> F (fun k => pfirst (p k :: l k)) i.
Proof. apply F_alt. Qed.
Lemma F_none i : F (fun _ => pfirst (@nil (P A))) i.
Proof. apply ev_all. reflexivity. Qed.
End Logic.

(** ** White space *)
Lemma blank_is c : blank c -> is_simple_ws c = true.
Proof. unfold blank. cbn [In]. intros H. decompose [or] H; subst; try contradiction; reflexivity. Qed.
Lemma term_end e s n : line_end e -> r_TERM (n, e ++ s) = PMatch tt (n + bytes_in e, s).
Proof.
  intros H. destruct H; cbn [app str].
  - unfold r_TERM. rewrite (palt_l _ _ _ tt (n + bytes_in [10%N], s)); reflexivity.
  - unfold r_TERM. erewrite palt_l; [reflexivity|]. cbn. unfold pret. f_equal. f_equal. change (bytes_in [13%N; 10%N]) with 2. lia.
  - reflexivity.
Qed.
Lemma no_term c s n : c <> 10%N -> c <> 13%N -> c <> 59%N -> r_TERM (n, c :: s) = PFail.
Proof.
  intros H1 H2 H3. apply N.eqb_neq in H1, H2, H3. unfold r_TERM. rewrite palt_r.
  - apply plit_ne. rewrite N.eqb_sym; auto.
  - rewrite (pbind_m _ _ _ None (n, c :: s)).
    + apply plit_ne. rewrite N.eqb_sym; auto.
    + unfold popt. rewrite plit_ne; auto. rewrite N.eqb_sym; auto.
Qed.
Lemma bytes_app a b : bytes_in (a ++ b) = bytes_in a + bytes_in b.
Proof. induction a as [|c a IH]; [reflexivity|]. cbn [app]. rewrite !bytes_in_cons, IH. lia. Qed.
Lemma comment_is t e s n : Forall (fun c => c <> 10 /\ c <> 13 /\ c <> 59)%N t -> line_end e ->
  r_COMMENT (n, str "//" ++ t ++ e ++ s) = PMatch tt (n + 2 + bytes_in t, e ++ s).
Proof.
  intros Ht He. unfold r_COMMENT. rewrite (pbind_m _ _ _ tt (n + 2, t ++ e ++ s)).
  2: { cbn. unfold pret. f_equal. f_equal. lia. }
  assert (H : forall k m, length t < k -> pstar_go k (pnot r_TERM >> pchar any) (m, t ++ e ++ s) = PMatch t (m + bytes_in t, e ++ s)).
  { induction Ht as [|c t (H1 & H2 & H3) Ht IH]; intros k m Hk; (destruct k as [|k]; [cbn in Hk; lia|]); cbn [pstar_go app].
    - rewrite (pbind_f _ _ (m, e ++ s)).
      + unfold pret. rewrite Nat.add_0_r. reflexivity.
      + unfold pnot. rewrite (term_end e s m He). reflexivity.
    - assert (E1 : (pnot r_TERM >> pchar any) (m, c :: t ++ e ++ s) = PMatch c (m + N.to_nat (utf8_len c), t ++ e ++ s)).
      { rewrite (pbind_m _ _ _ tt (m, c :: t ++ e ++ s)); [reflexivity|]. unfold pnot. rewrite no_term; auto. }
      pose proof (IH k (m + N.to_nat (utf8_len c)) ltac:(cbn in Hk; lia)) as E2. rw E1. rw E2.
      rewrite bytes_in_cons, Nat.add_assoc. reflexivity. }
  unfold pbind at 1. unfold pstar, inp in *. cbn [snd]. unfold rstring in *. rewrite H; [reflexivity|].
  rewrite app_length. lia.
Qed.
(** The first character of white space. *)
Definition gap_char (c : N) : Prop := In c [32; 9; 11; 12; 160; 10; 13; 59; 92; 47]%N.
Lemma gap_first g : gap g -> match g with c :: _ => gap_char c | [] => True end.
Proof.
  unfold gap_char. destruct 1 as [|c g Hc Hg|e g He Hg|e g He Hg|t e g Ht He Hg]; cbn [app str]; auto.
  - unfold blank in Hc. cbn [In] in *. tauto.
  - destruct He; cbn; tauto.
  - cbn; tauto.
  - cbn; tauto.
Qed.
Lemma gap_app g g' : gap g -> gap g' -> gap (g ++ g').
Proof.
  induction 1 as [|c g Hc Hg IH|e g He Hg IH|e g He Hg IH|t e g Ht He Hg IH]; intros H; cbn [app]; auto.
  - apply ga_blank; auto.
  - rewrite <- app_assoc. apply ga_line; auto.
  - rewrite <- app_assoc. apply ga_continued; auto.
  - change (str "//" ++ t ++ e ++ g) with (47%N :: 47%N :: (t ++ e ++ g)). cbn [app].
    change (47%N :: 47%N :: (t ++ e ++ g) ++ g') with (str "//" ++ (t ++ e ++ g) ++ g'). rewrite <- !app_assoc. apply ga_comment; auto.
Qed.
(** One piece of it. *)
Lemma one_piece g : gap g -> g <> [] -> exists p g', g = p ++ g' /\ gap g' /\ p <> [] /\
  forall s n, one_ws (n, p ++ s) = PMatch tt (n + bytes_in p, s).
Proof.
  destruct 1 as [|c g Hc Hg|e g He Hg|e g He Hg|t e g Ht He Hg]; intros Hn; [contradiction| | | |].
  - exists [c], g. split; auto. split; auto. split; [discriminate|]. intros s n. unfold one_ws, r_WHITESPACE, palt, pbind, pchar. cbn [snd app].
    rewrite (blank_is c Hc). cbn [fst]. rewrite bytes_in_cons. unfold pret. change (bytes_in []) with 0. rewrite Nat.add_0_r. reflexivity.
  - exists e, g. split; auto. split; auto. split; [destruct He; discriminate|]. intros s n. unfold one_ws. rewrite palt_r.
    + erewrite palt_l; [reflexivity|]. unfold r_TERMINATOR. rewrite (pbind_m _ _ _ None (n, e ++ s)); [apply term_end; auto|].
      destruct He; reflexivity.
    + destruct He; reflexivity.
  - exists (92%N :: e), g. split; auto. split; auto. split; [discriminate|]. intros s n. unfold one_ws.
    erewrite palt_l; [reflexivity|]. unfold r_WHITESPACE. rewrite palt_r by reflexivity.
    cbn [app]. rewrite (pbind_m _ _ _ tt (n + 1, e ++ s)) by reflexivity. rewrite (term_end e s _ He).
    rewrite bytes_in_cons. change (N.to_nat (utf8_len 92)) with 1. rewrite Nat.add_assoc. reflexivity.
  - exists (str "//" ++ t ++ e), g. rewrite <- !app_assoc. split; auto. split; auto. split; [discriminate|].
    intros s n. rewrite <- !app_assoc. unfold one_ws.
    rewrite palt_r by reflexivity. erewrite palt_l; [reflexivity|]. unfold r_TERMINATOR.
    rewrite (pbind_m _ _ _ (Some tt) (n + 2 + bytes_in t, e ++ s)).
    + rewrite (term_end e s _ He). rewrite !bytes_app. change (bytes_in (str "//")) with 2. do 2 f_equal. lia.
    + unfold popt. rewrite comment_is; auto.
Qed.
Lemma gap_len g : forall m, length g <= m -> gap g -> forall s, clear s -> forall k n, length g < k ->
  exists l, pstar_go k one_ws (n, g ++ s) = PMatch l (n + bytes_in g, s).
Proof.
  intros m. revert g. induction m as [|m IH]; intros g Hm Hg s Hs k n Hk.
  - destruct g; [|cbn in Hm; lia]. destruct k as [|k]; [cbn in Hk; lia|]. cbn [app pstar_go]. rw (Hs n). exists [].
    change (bytes_in []) with 0. rewrite Nat.add_0_r. reflexivity.
  - destruct (list_eq_dec N.eq_dec g []) as [->|Hn].
    { destruct k as [|k]; [cbn in Hk; lia|]. cbn [app pstar_go]. rw (Hs n). exists [].
      change (bytes_in []) with 0. rewrite Nat.add_0_r. reflexivity. }
    destruct (one_piece g Hg Hn) as (p & g' & -> & Hg' & Hp & E).
    destruct k as [|k]; [cbn in Hk; lia|]. cbn [pstar_go]. rewrite <- app_assoc.
    assert (Lp : 1 <= length p) by (destruct p; [congruence|cbn; lia]).
    rewrite app_length in *.
    rw (E (g' ++ s) n). destruct (IH g' ltac:(lia) Hg' s Hs k (n + bytes_in p) ltac:(lia)) as [l El]. rw El.
    eexists. rewrite bytes_app, Nat.add_assoc. reflexivity.
Qed.
Lemma ws_gap g s n : gap g -> clear s -> ws_ (n, g ++ s) = PMatch tt (n + bytes_in g, s).
Proof.
  intros Hg Hs. unfold ws_. change (r_WHITESPACE <|> r_TERMINATOR <|> r_COMMENT) with one_ws. unfold pbind, pstar.
  destruct (gap_len g _ (le_n _) Hg s Hs (S (length (snd (n, g ++ s)))) n ltac:(cbn; rewrite app_length; lia)) as [l El]. rw El. reflexivity.
Qed.
Lemma M_ws g s n : gap g -> clear s -> M (fun _ => ws_) (n, g ++ s) tt (n + bytes_in g, s).
Proof. intros Hg Hs. apply M_k, ws_gap; auto. Qed.
Lemma M_ws0 s n : clear s -> M (fun _ => ws_) (n, s) tt (n, s).
Proof. intros Hs. apply M_k, ws_clear; auto. Qed.

(** Literal texts. *)
Lemma plit_is w : forall n s, plit w (n, w ++ s) = PMatch tt (n + bytes_in w, s).
Proof.
  induction w as [|c w IH]; intros n s; cbn [plit app]; [unfold pret; change (bytes_in []) with 0; rewrite Nat.add_0_r; reflexivity|].
  unfold pbind, pchar. cbn [snd fst]. unfold is_c at 1. rewrite N.eqb_refl. rewrite IH, bytes_in_cons, Nat.add_assoc. reflexivity.
Qed.
Lemma M_lit w s n : M (fun _ => plit w) (n, w ++ s) tt (n + bytes_in w, s).
Proof. apply M_k, plit_is. Qed.
Lemma kw_is w s n : breaks s -> kw w (n, w ++ s) = PMatch tt (n + bytes_in w, s).
Proof.
  intros Hs. unfold kw. rewrite (pbind_m _ _ _ _ _ (plit_is w n s)). unfold pnot, pchar. cbn [snd].
  destruct s as [|c s]; [reflexivity|]. cbn in Hs. rewrite Hs. reflexivity.
Qed.
Lemma M_kw w s n : breaks s -> M (fun _ => kw w) (n, w ++ s) tt (n + bytes_in w, s).
Proof. intros Hs. apply M_k, kw_is; auto. Qed.

(** Breaks. *)
Lemma gap_char_word c : gap_char c -> is_word c = false.
Proof. unfold gap_char. cbn [In]. intros H. decompose [or] H; subst; try contradiction; reflexivity. Qed.
Lemma some_breaks g s : some g -> breaks (g ++ s).
Proof.
  intros [Hg Hn]. pose proof (gap_first g Hg) as H. destruct g as [|c g]; [contradiction|]. cbn. apply gap_char_word; auto.
Qed.
Lemma gap_breaks g s : gap g -> breaks s -> breaks (g ++ s).
Proof.
  intros Hg Hs. pose proof (gap_first g Hg) as H. destruct g as [|c g]; [exact Hs|]. cbn. apply gap_char_word; auto.
Qed.
Lemma word_is c : is_word c = true <-> letter c \/ digit_c c.
Proof. unfold letter, digit_c, is_word, is_start, is_lower, is_upper, is_digit. lia. Qed.
Lemma word_ends_is t : word_ends t <-> breaks t.
Proof.
  destruct t as [|c t]; [tauto|]. cbn. rewrite <- word_is. destruct (is_word c); split; intros; try congruence; exfalso; apply H; auto.
Qed.

(** Names. *)
Lemma a_name_is x : a_name x -> is_name x.
Proof. intros [H _]. exact H. Qed.
Lemma M_ident x n s : a_name x -> breaks s -> M (fun _ => r_IDENT) (n, x ++ s) x (n + length x, s).
Proof. intros H Hs. apply M_k, ident_name; auto. apply H. Qed.
Lemma M_named id x n s : a_name x -> breaks s -> M (fun _ => ident id) (n, x ++ s) (x, mkSpan n (n + length x) id) (n + length x, s).
Proof.
  intros H Hs. unfold ident, sp_of. eapply (M_bind (fun _ => ppos)); [apply M_pos|]. cbn.
  eapply (M_bind (fun _ => r_IDENT)); [apply M_ident; auto|]. eapply (M_bind (fun _ => ppos)); [apply M_pos|]. apply M_ret.
Qed.
Lemma name_clear x s : is_name x -> clear (x ++ s).
Proof. intros H. destruct (name_word x H) as (c & t & -> & Hc & _). apply clear_solid, letter_solid; auto. Qed.
Lemma kw_other w x n s : Forall (fun d => is_word d = true) w -> is_name x -> w <> x -> breaks s -> kw w (n, x ++ s) = PFail.
Proof.
  intros Hw Hx Hne Hs. destruct (name_word x Hx) as (c & t & -> & Hc & Ht & Hk).
  unfold kw, pbind. destruct (plit w (n, (c :: t) ++ s)) as [[] i| |] eqn:E; auto.
  - apply plit_inv in E as (r & n' & Er & ->). unfold pnot, pchar. cbn [snd].
    assert (Hct : Forall (fun d => is_word d = true) (c :: t)) by (constructor; [apply word_char; auto|auto]).
    destruct r as [|d r].
    + exfalso. apply Hne. exact (word_prefix w (c :: t) [] s Hw Hct Logic.I Hs (eq_sym Er)).
    + destruct (is_word d) eqn:Ed; auto. exfalso. apply Hne.
      exact (word_prefix w (c :: t) (d :: r) s Hw Hct Ed Hs (eq_sym Er)).
  - pose proof (fin_lit (S (length ((c :: t) ++ s))) w (n, (c :: t) ++ s) ltac:(cbn; lia)) as Fn.
    unfold rstring in *. rewrite E in Fn. contradiction.
Qed.
(** Reserved words are no names. *)
Lemma ident_kw w n s : Forall (fun d => is_word d = true) w -> existsb (seqb w) reserved = true -> breaks s ->
  r_IDENT (n, w ++ s) = PFail.
Proof.
  intros Hw Hr Hs. unfold r_IDENT, pbind, pchar. destruct w as [|c w]; [discriminate|]. cbn [app snd fst].
  inversion Hw as [|? ? Hc Hw']; subst. destruct (is_start c) eqn:E; [|reflexivity].
  unfold inp, rstring in *. rewrite (prun_app is_word w s) by auto. rewrite Hr. reflexivity.
Qed.
