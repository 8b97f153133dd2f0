(** Texts of expressions: spaces, words and numbers. *)
From Verif Require Import Base Float NumText Ast Parse SpecArith SpecParse SpecExpr ProofParse ProofParse2 ProofParse3 ProofParse4.

(** Rewriting up to the name of the type of strings. *)
Ltac rw H := let E := fresh in pose proof H as E; unfold rstring, inp in *; rewrite E; clear E.

Definition one_ws : P unit := r_WHITESPACE <|> r_TERMINATOR <|> r_COMMENT.
(** No white space or comment starts here. *)
Definition clear (s : rstring) : Prop := forall n, one_ws (n, s) = PFail.

Lemma one_space n s : one_ws (n, 32%N :: s) = PMatch tt (S n, s).
Proof. unfold one_ws, r_WHITESPACE, palt, pbind, pchar. cbn. f_equal. f_equal. lia. Qed.
Lemma star_spaces g s : spaces g -> clear s -> forall k n, length g < k ->
  exists l, pstar_go k one_ws (n, g ++ s) = PMatch l (n + length g, s).
Proof.
  intros Hg Hs. induction Hg as [|c g -> Hg IH]; intros k n Hk; (destruct k as [|k]; [cbn in Hk; lia|]); cbn [app pstar_go].
  - rw (Hs n). exists []. cbn. f_equal. f_equal. lia.
  - rewrite one_space. destruct (IH k (S n) ltac:(cbn in Hk; lia)) as [l El]. rw El. eexists. f_equal. f_equal. cbn. lia.
Qed.
Lemma ws_spaces g s n : spaces g -> clear s -> ws_ (n, g ++ s) = PMatch tt (n + length g, s).
Proof.
  intros Hg Hs. unfold ws_. change (r_WHITESPACE <|> r_TERMINATOR <|> r_COMMENT) with one_ws. unfold pbind, pstar.
  destruct (star_spaces g s Hg Hs (S (length (snd (n, g ++ s)))) n ltac:(cbn; rewrite app_length; lia)) as [l El]. rw El. reflexivity.
Qed.
Lemma ws_clear s n : clear s -> ws_ (n, s) = PMatch tt (n, s).
Proof. intros H. pose proof (ws_spaces [] s n (Forall_nil _) H) as E. cbn in E. rewrite Nat.add_0_r in E. exact E. Qed.
Lemma clear_nil : clear [].
Proof. intros n. reflexivity. Qed.
(** Characters at which no white space starts. *)
Definition solid (c : N) : Prop :=
  is_simple_ws c = false /\ c <> 92%N /\ c <> 13%N /\ c <> 10%N /\ c <> 59%N /\ c <> 47%N.
Lemma clear_solid c s : solid c -> clear (c :: s).
Proof.
  intros (H1 & H2 & H3 & H4 & H5 & H6) n. apply N.eqb_neq in H2, H3, H4, H5, H6.
  assert (HT : r_TERM (n, c :: s) = PFail).
  { unfold r_TERM. rewrite palt_r.
    - apply plit_ne. rewrite N.eqb_sym; auto.
    - rewrite (pbind_m _ _ _ None (n, c :: s)).
      + apply plit_ne. rewrite N.eqb_sym; auto.
      + unfold popt. rewrite plit_ne; auto. rewrite N.eqb_sym; auto. }
  assert (HC : r_COMMENT (n, c :: s) = PFail).
  { unfold r_COMMENT. apply pbind_f, plit_ne. rewrite N.eqb_sym; auto. }
  unfold one_ws. rewrite palt_r.
  2: { unfold r_WHITESPACE. rewrite palt_r.
       - apply pbind_f, plit_ne. rewrite N.eqb_sym; auto.
       - apply pbind_f. unfold pchar. cbn [snd]. rewrite H1. auto. }
  rewrite palt_r; [exact HC|].
  unfold r_TERMINATOR. rewrite (pbind_m _ _ _ None (n, c :: s)); [exact HT|]. unfold popt. rw HC; auto.
Qed.

(** Words. *)
Lemma letter_start c : letter c -> is_start c = true.
Proof. unfold letter, is_start, is_lower, is_upper. lia. Qed.
Lemma word_char c : letter c \/ digit_c c -> is_word c = true.
Proof. unfold letter, digit_c, is_word, is_start, is_lower, is_upper, is_digit. lia. Qed.
Lemma letter_solid c : letter c -> solid c.
Proof. unfold letter, solid, is_simple_ws. intros H. repeat split; lia. Qed.
Lemma digit_solid c : is_digit c = true -> solid c.
Proof. unfold is_digit, solid, is_simple_ws. intros H. repeat split; lia. Qed.

(** What may follow a word: no letter or digit. *)
Definition breaks (s : rstring) : Prop := stops is_word s.
Lemma name_word x : is_name x -> exists c t, x = c :: t /\ letter c /\ Forall (fun d => is_word d = true) t /\ ~ In x keywords.
Proof.
  destruct x as [|c t]; [contradiction|]. intros (H1 & H2 & H3). exists c, t. repeat split; auto.
  eapply Forall_impl; [|exact H2]. apply word_char.
Qed.
(** A keyword is not matched by a name that is different. *)
Lemma plit_inv w : forall n s i, plit w (n, s) = PMatch tt i -> exists r n', s = w ++ r /\ i = (n', r).
Proof.
  induction w as [|c w IH]; intros n s i H; cbn [plit] in H; [injection H as <-; exists s, n; auto|].
  unfold pbind, pchar in H. cbn [snd] in H. destruct s as [|d s]; [discriminate|].
  destruct (is_c c d) eqn:E; [|discriminate]. unfold is_c in E. apply N.eqb_eq in E. subst d.
  apply IH in H as (r & n' & -> & ->). exists r, n'. auto.
Qed.
Lemma plit_app w : forall n s, exists n', plit w (n, w ++ s) = PMatch tt (n', s).
Proof.
  induction w as [|c w IH]; intros n s; cbn [plit app]; [exists n; reflexivity|].
  unfold pbind, pchar. cbn [snd fst]. unfold is_c at 1. rewrite N.eqb_refl. apply IH.
Qed.
Lemma word_prefix w x s s' : Forall (fun d => is_word d = true) w -> Forall (fun d => is_word d = true) x ->
  breaks s -> breaks s' -> w ++ s = x ++ s' -> w = x.
Proof.
  intros Hw. revert x. induction Hw as [|c w Hc Hw IH]; intros x Hx Hs Hs' E.
  - destruct Hx as [|d x Hd Hx]; auto. cbn in E. subst s. cbn in Hs. congruence.
  - destruct Hx as [|d x Hd Hx].
    + cbn in E. subst s'. cbn in Hs'. congruence.
    + cbn in E. injection E as <- E. f_equal. eapply IH; eauto.
Qed.
Lemma stops_cons f c s : stops f (c :: s) <-> f c = false.
Proof. unfold stops. tauto. Qed.
Lemma kw_name w x n s {B} (k : unit -> P B) : Forall (fun d => is_word d = true) w -> is_name x -> In w keywords -> breaks s ->
  pbind (kw w) k (n, x ++ s) = PFail.
Proof.
  intros Hw Hx Hin Hs. destruct (name_word x Hx) as (c & t & -> & Hc & Ht & Hk). apply pbind_f.
  unfold kw, pbind. destruct (plit w (n, (c :: t) ++ s)) as [[] i| |] eqn:E; auto.
  - apply plit_inv in E as (r & n' & Er & ->). unfold pnot, pchar. cbn [snd].
    assert (Hct : Forall (fun d => is_word d = true) (c :: t)) by (constructor; [apply word_char; auto|auto]).
    destruct r as [|d r].
    + exfalso. apply Hk. rewrite <- (word_prefix w (c :: t) [] s Hw Hct Logic.I Hs (eq_sym Er)). exact Hin.
    + destruct (is_word d) eqn:Ed; auto. exfalso. apply Hk.
      rewrite <- (word_prefix w (c :: t) (d :: r) s Hw Hct Ed Hs (eq_sym Er)). exact Hin.
  - pose proof (fin_lit (S (length ((c :: t) ++ s))) w (n, (c :: t) ++ s) ltac:(cbn; lia)) as F.
    unfold rstring in *. rewrite E in F. contradiction.
Qed.
Lemma ident_name x n s : is_name x -> breaks s -> r_IDENT (n, x ++ s) = PMatch x (n + length x, s).
Proof.
  intros Hx Hs. destruct (name_word x Hx) as (c & t & -> & Hc & Ht & Hk). unfold r_IDENT, pbind, pchar. cbn [app snd fst].
  rewrite (letter_start c Hc).
  assert (U : forall d, is_word d = true -> N.to_nat (utf8_len d) = 1).
  { intros d Hd. unfold utf8_len. unfold is_word, is_start, is_lower, is_upper, is_digit in Hd.
    destruct (d <? 128)%N eqn:E; [reflexivity|lia]. }
  rewrite (prun_app is_word t s); auto.
  replace (existsb (seqb (c :: t)) reserved) with false.
  - rewrite (U c) by (apply word_char; auto). cbn [length].
    assert (B : bytes_in t = length t).
    { clear - U Ht. induction Ht; auto. rewrite bytes_in_cons, IHHt, U; auto. }
    rewrite B. replace (n + 1 + length t) with (n + S (length t)) by lia. reflexivity.
  - symmetry. apply not_true_is_false. intros E. apply existsb_exists in E as (w & Hw & E). apply seqb_eq in E as <-.
    apply Hk. unfold reserved in Hw. unfold keywords. cbn [In] in *. tauto.
Qed.
