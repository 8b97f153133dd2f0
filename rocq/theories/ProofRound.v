(** Reading back what was shown: literals (C98). *)
From Verif Require Import Base RleVec Float NumText Value Ast Parse SpecArith SpecParse SpecExpr SpecProg
  ProofParse ProofParse2 ProofParse3 ProofParse4 ProofExpr ProofProg ProofProg2 ProofProg3 SpecRound.
From Verif Require SpecText ProofText.

Section Round.
Context (o : oracle).
Local Notation pf := (o_f64_parse o).
Local Notation shown := (SpecText.written (o_f64_text o)).

Lemma decimal_numeral z t : SpecText.decimal z t -> numeral 10 t z.
Proof.
  intros (ds & (H1 & H2 & H3) & ->). exists ds. split; [destruct ds; [contradiction|discriminate]|]. auto.
Qed.
Lemma shown_integer z t : SpecText.integer_text z t -> integer_text z t.
Proof.
  unfold SpecText.integer_text. destruct (Z.ltb_spec z 0) as [Hz|Hz].
  - intros (t' & D & ->). rewrite <- (Z.opp_involutive z). apply it_negative, decimal_numeral, D.
  - intros D. apply it_decimal, decimal_numeral, D.
Qed.
Lemma shown_digit h : (0 <= h < 16)%Z -> hex_digit (digit_text h) (Z.to_N h).
Proof.
  intros H. pose proof (hex_char (Z.to_N h) ltac:(lia)) as K. rewrite ProofText.digit_same in K by lia.
  rewrite Z2N.id in K by lia. exact K.
Qed.
Lemma shown_byte n t : SpecText.byte_text n t -> exists a b x y, t = [a; b] /\ hex_digit a x /\ hex_digit b y /\ n = (16 * x + y)%N.
Proof.
  intros (h & l & E & Hh & Hl & ->). exists (digit_text h), (digit_text l), (Z.to_N h), (Z.to_N l).
  repeat split; try apply shown_digit; auto. lia.
Qed.
Lemma one_blank : gap (str " ").
Proof. apply ga_blank; [left; reflexivity|constructor]. Qed.

Lemma items_read l ts t : Forall2 (literal_text pf) l ts -> forall g, gap g -> SpecBuiltins.joined (str ", ") ts t ->
  literals_text pf l (g ++ t).
Proof.
  intros H. revert t. induction H as [|x u l ts Hx Hl IH]; intros t g Hg J; inversion J; subst.
  - rewrite app_nil_r. now constructor.
  - inversion Hl; subst. rewrite <- (app_nil_r t). apply ls_last; auto. constructor.
  - destruct Hl as [|x' u' l ts Hx' Hl]; [contradiction|].
    pose proof (IH _ (str " ") one_blank ltac:(eassumption)) as K.
    change (str ", ") with (str "," ++ str " "). rewrite <- !app_assoc.
    change (u ++ str "," ++ str " " ++ t0) with (u ++ [] ++ str "," ++ (str " " ++ t0)). apply ls_more; auto. constructor.
Qed.

Lemma all_shown l ts : Forall (fun v : value => plain_data o v -> forall t, shown v t -> exists l, stands_for l v /\ literal_text pf l t) l ->
  Forall (plain_data o) l -> Forall2 shown l ts -> exists ls, Forall2 stands_for ls l /\ Forall2 (literal_text pf) ls ts.
Proof.
  intros H HF H2. induction H2 as [|x t l ts Hx Hl IH]; [exists []; split; constructor|].
  inversion H; inversion HF; subst.
  match goal with K : plain_data o x -> _, A : plain_data o x |- _ => destruct (K A _ Hx) as (y & Hy & Ty) end.
  destruct IH as (ys & Hys & Tys); auto. exists (y :: ys). split; constructor; auto.
Qed.
Lemma shown_literal (v : value) : plain_data o v -> forall t, shown v t -> exists l, stands_for l v /\ literal_text pf l t.
Proof.
  induction v using gvalue_rect'; intros P t W; inversion P; subst; inversion W; subst.
  - exists LNone. split; constructor.
  - exists (LBool true). split; constructor.
  - exists (LBool false). split; constructor.
  - exists (LInt z). split; [constructor|]. apply lt_integer; auto. now apply shown_integer.
  - exists (LFloat f). split; [constructor|].
    match goal with H : _ \/ _ |- _ => destruct H as [E|E]; rewrite E in * end; [apply lt_float|apply lt_negative_float]; auto.
  - exists (LRange a b). split; [constructor|].
    match goal with |- literal_text _ _ (?t ++ ?c ++ ?u) => change (t ++ c ++ u) with (t ++ [] ++ c ++ [] ++ u) end.
    apply lt_range; auto using shown_integer; constructor.
  - exists (LColor r g b a). split; [constructor|].
    repeat match goal with H : SpecText.byte_text _ _ |- _ => apply shown_byte in H; destruct H as (? & ? & ? & ? & -> & ? & ? & ->) end.
    apply lt_colour. cbn [app]. apply co_8; auto.
  - match goal with HF : Forall (plain_data o) l, H2 : Forall2 shown l ?ts |- _ =>
      destruct (all_shown l ts H HF H2) as (ls & Hs & Ht) end.
    exists (LArray ls). split; [constructor; auto|]. apply lt_array.
    match goal with J : SpecBuiltins.joined _ _ ?t |- literals_text _ _ ?t => exact (items_read _ _ _ Ht [] ga_nil J) end.
  - repeat match goal with K : plain_data o ?x -> _, A : plain_data o ?x, B : shown ?x _ |- _ => destruct (K A _ B) as (? & ? & ?); clear K end.
    eexists (LPair _ _). split; [constructor; eassumption|].
    match goal with |- literal_text _ _ (str "(" ++ ?t ++ str ", " ++ ?u ++ str ")") =>
      change (str "(" ++ t ++ str ", " ++ u ++ str ")") with (str "(" ++ [] ++ t ++ [] ++ str "," ++ str " " ++ u ++ [] ++ str ")") end.
    apply lt_pair; auto using one_blank; constructor.
Qed.

Lemma norange_end : norange [].
Proof. intros n B q. reflexivity. Qed.
Lemma literal_reads l t fuel : literal_text pf l t -> length t < fuel -> exists n, parse_literal o fuel t = PMatch l (n, []).
Proof.
  intros Hl Hf. destruct (proj1 (all_literals o) l t Hl [] 0 I (fun _ => norange_end)) as (n & k0 & H).
  exists n. pose proof (parse_literal_ends o fuel t Hf) as E.
  rewrite <- (parse_literal_more o fuel (max fuel k0) t (Nat.le_max_l _ _) E).
  unfold parse_literal, whole. specialize (H (max fuel k0) (Nat.le_max_r _ _)). rewrite app_nil_r in H. 
  unfold pbind; unfold rstring in *; rewrite H. reflexivity.
Qed.
Theorem data_back (v : value) t fuel : plain_data o v -> shown v t -> length t < fuel ->
  exists l n, parse_literal o fuel t = PMatch l (n, []) /\ stands_for l v.
Proof.
  intros P W Hf. destruct (shown_literal v P t W) as (l & Hs & Ht). destruct (literal_reads l t fuel Ht Hf) as (n & E).
  exists l, n. auto.
Qed.
End Round.
Lemma stands_same (v : value) : forall l w, stands_for l v -> stands_for l w -> same_data v w.
Proof.
  induction v using gvalue_rect'; intros li w S W; inversion S; subst; inversion W; subst; constructor; eauto.
  match goal with A : Forall2 stands_for ?ls l, B : Forall2 _ ?ls ?ws |- Forall2 _ _ ?ws => clear W S; revert ls ws A B end.
  clear - H. induction H as [|x l Hx Hl IH]; intros ls ws A B; inversion A; subst; inversion B; subst; constructor; eauto.
Qed.
Theorem shown_apart o (v w : value) t : plain_data o v -> plain_data o w -> SpecText.written (o_f64_text o) v t -> SpecText.written (o_f64_text o) w t ->
  same_data v w.
Proof.
  intros Pv Pw Wv Ww. destruct (data_back o v t (S (length t)) Pv Wv ltac:(lia)) as (l & n & E & Hl).
  destruct (data_back o w t (S (length t)) Pw Ww ltac:(lia)) as (l' & n' & E' & Hl'). rewrite E in E'. injection E' as <- _.
  eapply stands_same; eauto.
Qed.
