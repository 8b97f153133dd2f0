(** Texts of programs: operands. *)
From Verif Require Import Base Float NumText Ast Parse SpecArith SpecParse SpecExpr SpecProg ProofParse ProofParse2 ProofParse3 ProofParse4 ProofExpr ProofProg ProofProg2 ProofProg3 ProofProg4 ProofProg5.
From Verif Require ProofExpr3.

(** ** Lists in brackets *)
Section Brackets.
Context {A B : Type} (T : A -> B -> Prop) (X : nat -> P B) (Q : rstring -> Prop).
Lemma ws_commasep tl l t n : clear tl -> ~ starts (fun c => c = 44%N) tl -> list_text Q (item T X Q tl) l t -> (forall n, F X (n, tl)) ->
  exists bs n', Forall2 T l bs /\ forall C (q : nat -> list B -> P C) r j, M (fun k => q k bs) (n', tl) r j ->
    M (fun k => ws_ >> on a <- commasep (X k); ws_ >> q k a) (n, t ++ tl) r j.
Proof.
  intros Hc Hn HL HF. destruct (first_gap T X Q l t tl HL) as (g & t' & [(-> & Hg & Ht' & HL')|(-> & Hg)]).
  - destruct (M_commasep T X Q tl l t' (n + bytes_in g)) as (bs & n2 & HT & HM); auto. exists bs, n2. split; auto. intros C q r j H.
    rewrite <- app_assoc. eapply (M_bind (fun _ => ws_)); [apply M_ws; auto|]. eapply (M_bind (fun k => commasep (X k))); [apply HM|].
    eapply (M_bind (fun _ => ws_)); [apply M_ws0; auto|]. exact H.
  - destruct (M_commasep T X Q tl [] [] (n + bytes_in t)) as (bs & n2 & HT & HM); auto; [apply li_none; constructor|].
    exists bs, n2. split; auto. intros C q r j H.
    eapply (M_bind (fun _ => ws_)); [apply M_ws; auto|]. eapply (M_bind (fun k => commasep (X k))); [apply HM|].
    eapply (M_bind (fun _ => ws_)); [apply M_ws0; auto|]. exact H.
Qed.
Lemma ws_commasepp tl l t n : clear tl -> ~ starts (fun c => c = 44%N) tl -> list_text Q (item T X Q tl) l t -> l <> [] ->
  exists bs n', Forall2 T l bs /\ forall C (q : nat -> list B -> P C) r j, M (fun k => q k bs) (n', tl) r j ->
    M (fun k => ws_ >> on a <- commasepp (X k); ws_ >> q k a) (n, t ++ tl) r j.
Proof.
  intros Hc Hn HL Hl. destruct (first_gap T X Q l t tl HL) as (g & t' & [(-> & Hg & Ht' & HL')|(-> & Hg)]); [|congruence].
  destruct (M_commasepp T X Q tl l t' (n + bytes_in g)) as (bs & n2 & HT & HM); auto. exists bs, n2. split; auto. intros C q r j H.
  rewrite <- app_assoc. eapply (M_bind (fun _ => ws_)); [apply M_ws; auto|]. eapply (M_bind (fun k => commasepp (X k))); [apply HM|].
  eapply (M_bind (fun _ => ws_)); [apply M_ws0; auto|]. exact H.
Qed.
End Brackets.

Lemma digits_numeral i : digits i -> i <> [] -> exists z, numeral 10 i z.
Proof.
  intros Hd Hn. eexists. exists (map (fun c => Z.of_N c - 48)%Z i). split; [destruct i; [congruence|discriminate]|]. split.
  - apply Forall_forall. intros z Hz. apply in_map_iff in Hz as (c & <- & Hc). unfold digits in Hd. rewrite Forall_forall in Hd.
    specialize (Hd c Hc). unfold digit_c in Hd. lia.
  - split; [|reflexivity]. induction Hd as [|c t Hc Ht IH]; [reflexivity|]. cbn [map]. f_equal.
    + assert (H : In c (map (fun n => 48 + N.of_nat n)%N (seq 0 10))).
      { apply in_map_iff. exists (N.to_nat (c - 48)). unfold digit_c in Hc. split; [lia|]. apply in_seq. lia. }
      clear - H. cbn in H. decompose [or] H; subst; try contradiction; reflexivity.
    + destruct t; [reflexivity|]. apply IH. discriminate.
Qed.

Lemma plit_sym y ys c s n : is_start c = true -> is_start y = false -> plit (y :: ys) (n, c :: s) = PFail.
Proof. intros Hc Hy. apply plit_ne, N.eqb_neq. intros ->. congruence. Qed.
Lemma kw_sym w c s n : is_start (hd 0%N w) = true -> is_start c = false -> kw w (n, c :: s) = PFail.
Proof.
  intros Hw Hc. destruct w as [|d w]; [discriminate|]. unfold kw. apply pbind_f, plit_ne, N.eqb_neq. cbn in Hw. intros ->. congruence.
Qed.
Lemma letter_start c : letter c -> is_start c = true.
Proof. unfold letter, is_start, is_lower, is_upper. lia. Qed.

Section Atoms.
Context (o : oracle) (id : nat).
Notation pf := (o_f64_parse o).
Notation LR := (r_literal o).
Notation C := (climb o id).
Definition first_of (k : nat) : P node := pfirst (prefix_atoms o id (C k) k).
Definition back (k : nat) : P node := pfirst (skipn 13 (prefix_atoms o id (C k) k)).
Definition word_atom (k : nat) : P node :=
  on i <- ident id; ws_ >> on f <- popt r_op; plit (str "=") >> ws_ >> on n <- C k 3; pret (NAssignment i (with_op i f n)).

Ltac atoms := unfold first_of, back, prefix_atoms; cbn [app prefixes map fst snd skipn].
Ltac skip_ff := apply M_skip; [ff|].
(** Something that does not start with a letter. *)
Lemma M_front c s n nd j : solid c -> is_start c = false -> M back (n, c :: s) nd j -> M first_of (n, c :: s) nd j.
Proof.
  intros Hc Hs. atoms. intros H.
  do 4 (apply M_skip; [apply (F_bind (fun _ => kw _)), F_k, kw_sym; auto|]).
  apply M_skip.
  { apply (F_bind (fun _ => ident id)), F_k. unfold ident, sp_of. rewrite (pbind_m _ _ _ n (n, c :: s)) by reflexivity.
    apply pbind_f. unfold r_IDENT. apply pbind_f. unfold pchar. cbn [snd]. rewrite Hs. reflexivity. }
  apply M_skip; [apply (F_bind (fun _ => kw _)), F_k, kw_sym; auto|].
  apply M_skip.
  { apply F_up. cbn [r_if]. eapply (F_bind2 (fun _ => ws_)); [apply M_ws0, clear_solid; auto|]. 
    apply (F_bind (fun _ => kw _)), F_k, kw_sym; auto. }
  apply M_skip.
  { unfold r_switch. eapply (F_bind2 (fun _ => ws_)); [apply M_ws0, clear_solid; auto|]. 
    apply (F_bind (fun _ => kw _)), F_k, kw_sym; auto. }
  do 5 (apply M_skip; [apply (F_bind (fun _ => kw _)), F_k, kw_sym; auto|]).
  exact H.
Qed.
(** The literal among the operands. *)
Definition range_atom : P node := on s <- r_INT32; ws_ >> plit (str ":") >> ws_ >> on e <- r_INT32; pret (NLiteral (LRange s e)).
Ltac no_sign Hc := apply (F_bind (fun _ => plit _)), F_k; match goal with |- plit (str ?w) _ = _ => let x := eval cbv in (str w) in change (str w) with x end;
  apply plit_ne, N.eqb_neq; intros <-; apply Hc; cbn; tauto.
Lemma M_literal c s n l j : ~ In c (str "!-~") -> F (fun _ => range_atom) (n, c :: s) -> M LR (n, c :: s) l j -> M back (n, c :: s) (NLiteral l) j.
Proof.
  intros Hc HR HM. atoms. apply M_skip; [exact HR|]. do 3 (apply M_skip; [no_sign Hc|]).
  apply M_hit. eapply (M_bind LR); [apply HM|]. apply M_ret.
Qed.
(** Behind the literal. *)
Definition late (k : nat) : P node := pfirst (skipn 18 (prefix_atoms o id (C k) k)).
Lemma M_late c s n nd j : ~ In c (str "!-~") -> F (fun _ => range_atom) (n, c :: s) -> F LR (n, c :: s) -> M late (n, c :: s) nd j -> M back (n, c :: s) nd j.
Proof.
  intros Hc HR HF. unfold late. atoms. intros HM. apply M_skip; [exact HR|]. do 3 (apply M_skip; [no_sign Hc|]).
  apply M_skip; [apply (F_bind LR), HF|]. exact HM.
Qed.
Lemma no_int c s n : ~ (digit_c c \/ c = 45%N) -> F (fun _ => range_atom) (n, c :: s).
Proof. intros H. apply (F_bind (fun _ => r_INT32)), F_k. unfold r_INT32. apply int_other; auto. Qed.

(** ** Names *)
Lemma op_other c s n : ~ infix_char c -> r_op (n, c :: s) = PFail /\ plit (str "=") (n, c :: s) = PFail.
Proof.
  intros H. assert (Hx : forall d, In d (str "+-*/%&|^<>.=") -> forall ds, plit (d :: ds) (n, c :: s) = PFail).
  { intros d Hd ds. apply plit_ne, N.eqb_neq. intros ->. apply H. cbn in Hd |- *. tauto. }
  split; [|apply (Hx 61%N); cbn; tauto]. unfold r_op.
  do 13 (rewrite palt_r by (apply pbind_f; match goal with |- plit (str ?w) _ = _ => let x := eval cbv in (str w) in change (str w) with x end; apply Hx; cbn; tauto)).
  apply pbind_f. apply (Hx 46%N). cbn; tauto.
Qed.
Lemma follow_assign m g s n {B} (q : nat -> option op -> nodeS -> P B) : follow m g s ->
  F (fun k => ws_ >> on f <- popt r_op; plit (str "=") >> ws_ >> on n <- C k 3; q k f n) (n, g ++ s).
Proof.
  intros [Hg Hf].
  assert (Hc : clear s) by (eapply follow_clear; split; eauto).
  eapply (F_bind2 (fun _ => ws_)); [apply M_ws; auto|].
  destruct Hf as [[_ He]|(_ & _ & Ho)].
  - destruct He as [|c r Hq _|op_ w l c r Hb Hl Hi|c r H0 Hi].
    + ff.
    + apply quiet_infix in Hq. destruct (op_other c r (n + bytes_in g) Hq) as [E1 E2].
      eapply (F_bind2 (fun _ => popt r_op)); [apply M_none, F_k, E1|]. apply (F_bind (fun _ => plit (str "="))), F_k, E2.
    + ops op_; injection Hb as <- <-; try ff; each Hi; ff.
    + ff.
  - destruct s as [|c s]; [contradiction|]. destruct Ho as [->| ->]; ff.
Qed.
Ltac is_kw := apply (F_bind (fun _ => kw _)), F_k, kw_other; auto; [repeat constructor|].
Definition words : list rstring := [str "return"; str "external"; str "let"; str "fn"; str "if"; str "switch"; str "while"; str "for"; str "with"; str "include"].
Lemma not_word x w : is_name x -> In w words -> w <> x.
Proof.
  intros Hx Hw. destruct (name_word x Hx) as (c & t & E & _ & _ & Hk). intros ->. clear E c t.
  unfold keywords in Hk. cbn in Hw. decompose [or] Hw; subst; try contradiction; apply Hk; cbn; tauto.
Qed.
(** A name behind which nothing is assigned. *)
Lemma M_name_front x s n nd j : is_name x -> breaks s -> F word_atom (n, x ++ s) -> M back (n, x ++ s) nd j -> M first_of (n, x ++ s) nd j.
Proof.
  intros Hx Hs HF. unfold word_atom in HF. atoms. intros HM.
  pose proof (fun w => not_word x w Hx) as Hw.
  do 4 (apply M_skip; [is_kw; apply Hw; cbn; tauto|]).
  apply M_skip; [exact HF|].
  apply M_skip; [is_kw; apply Hw; cbn; tauto|].
  apply M_skip.
  { apply F_up. cbn [r_if]. eapply (F_bind2 (fun _ => ws_)); [apply M_ws0, name_clear; auto|]. is_kw. apply Hw; cbn; tauto. }
  apply M_skip.
  { unfold r_switch. eapply (F_bind2 (fun _ => ws_)); [apply M_ws0, name_clear; auto|]. is_kw. apply Hw; cbn; tauto. }
  do 5 (apply M_skip; [is_kw; apply Hw; cbn; tauto|]).
  exact HM.
Qed.
Lemma M_name_back x s n : is_name x -> breaks s -> M back (n, x ++ s) (NIdentifier x) (n + length x, s).
Proof.
  intros Hx Hs. destruct (name_word x Hx) as (c & t & E & Hc & _). pose proof (letter_start c Hc) as Hst.
  pose proof (ident_name x n s Hx Hs) as EI.
  subst x. cbn [app] in *. apply M_late.
  - intros Hi. cbn in Hi. decompose [or] Hi; subst; try discriminate; contradiction.
  - apply no_int. unfold letter in Hc. unfold digit_c. lia.
  - change (c :: t ++ s) with ((c :: t) ++ s). apply ev_up, ev_all. intros. apply ProofExpr3.literal_name; auto.
  - unfold late. atoms. do 4 (apply M_skip; [apply (F_bind (fun _ => plit _)), F_k; apply plit_sym; auto|]).
    apply M_hit. eapply (M_bind (fun _ => r_IDENT)); [apply M_k, EI|]. apply M_ret.
Qed.
Lemma M_name x g s n : is_name x -> follow 10 g s -> M first_of (n, x ++ g ++ s) (NIdentifier x) (n + length x, g ++ s).
Proof.
  intros Hx Hf. pose proof (follow_breaks _ _ _ Hf) as Hb. apply M_name_front; auto; [|apply M_name_back; auto].
  unfold word_atom. eapply (F_bind2 (fun _ => ident id)).
  { unfold ident, sp_of. eapply (M_bind (fun _ => ppos)); [apply M_pos|]. cbn.
    eapply (M_bind (fun _ => r_IDENT)); [apply M_k, ident_name; auto|]. eapply (M_bind (fun _ => ppos)); [apply M_pos|]. apply M_ret. }
  apply (follow_assign 10 g s (n + length x) (fun k f nn => pret (NAssignment (x, mkSpan n (n + length x) id) (with_op (x, mkSpan n (n + length x) id) f nn)))); auto.
Qed.
End Atoms.
