(** Texts of expressions: numbers, names and literals in them. *)
From Verif Require Import Base Float NumText Ast Parse SpecArith SpecParse SpecExpr ProofParse ProofParse2 ProofParse3 ProofParse4 ProofExpr ProofExpr2.

Definition apart (s : rstring) : Prop := match s with c :: _ => not_joined c | [] => True end.
Lemma apart_digit s : apart s -> stops is_digit s.
Proof. destruct s as [|c s]; [auto|]. intros (H & _). cbn. unfold is_word in H. destruct (is_digit c); auto. rewrite orb_true_r in H. discriminate. Qed.

Lemma plit0_app x c s r n : Forall (fun c => is_digit c = true) (c :: s) -> is_start x = true -> apart r ->
  plit [48%N; x] (n, (c :: s) ++ r) = PFail.
Proof.
  intros H Hx Hr. cbn [app]. destruct (N.eqb_spec 48 c) as [<-|Hc]; [|apply plit_ne, N.eqb_neq; auto].
  transitivity (plit [x] (n + 1, s ++ r)); [reflexivity|].
  destruct s as [|d s].
  - cbn [app]. destruct r as [|d r]; [reflexivity|]. apply plit_ne. apply N.eqb_neq. intros <-.
    destruct Hr as [Hr _]. unfold is_word in Hr. rewrite Hx in Hr. discriminate.
  - cbn [app]. apply plit_ne. apply N.eqb_neq. intros <-. inversion H as [|? ? _ H2]; subst. inversion H2; subst.
    unfold is_start, is_lower, is_upper in Hx. unfold is_digit in *. lia.
Qed.
Lemma int_app lo hi parse text v n rest (neg : bool) :
  (forall radix s, parse radix s = parse_int lo hi radix s) -> numeral 10 text v -> apart rest ->
  r_int parse (n, (if neg then [45%N] else []) ++ text ++ rest) =
  PMatch (or0 (fits lo hi (if neg then - v else v))) (n + length ((if neg then [45%N] else []) ++ text), rest).
Proof.
  intros Hp Hn Hr. change 10%Z with (Z.of_N 10) in Hn.
  destruct (numeral_spec 10 text v ltac:(lia) Hn) as (l & H0 & H1 & -> & H2 & H3).
  assert (HD : Forall (fun c => is_digit c = true) (map digit_char l)) by (eapply digits_all; eauto; lia).
  pose proof (digits_ascii _ HD) as HB.
  assert (L : forall j, prun1 is_digit (j, map digit_char l ++ rest) = PMatch (map digit_char l) (j + length (map digit_char l), rest)).
  { intros j. rewrite <- HB. apply prun1_app; auto. destruct l; [congruence|discriminate]. apply apart_digit; auto. }
  assert (V : or0 (parse 10%N ((if neg then [45%N] else []) ++ map digit_char l)) = or0 (fits lo hi (if neg then - v else v))).
  { rewrite Hp, parse_digits by (auto; lia). rewrite H2, Z2N.id by auto. auto. }
  unfold r_int. destruct neg.
  - do 3 (rewrite palt_r by reflexivity).
    rewrite (pbind_m _ _ _ (Some tt) (n + 1, map digit_char l ++ rest)) by reflexivity.
    rewrite (pbind_m _ _ _ _ _ (L _)). unfold pret. rewrite <- Nat.add_assoc. cbn [app] in V. rewrite V. reflexivity.
  - change (str "0b") with [48%N; 98%N]. change (str "0x") with [48%N; 120%N]. change (str "0o") with [48%N; 111%N].
    cbn [app] in *.
    destruct l as [|d l]; [congruence|]. cbn [map] in *.
    rewrite palt_r by (apply pbind_f, plit0_app; auto).
    rewrite palt_r by (apply pbind_f, plit0_app; auto).
    rewrite palt_r by (apply pbind_f, plit0_app; auto).
    rewrite (pbind_m _ _ _ None (n, (digit_char d :: map digit_char l) ++ rest)).
    2: { unfold popt. change (str "-") with [45%N]. cbn [app]. rewrite plit_ne; auto. inversion HD; subst. unfold is_digit in *. lia. }
    rewrite (pbind_m _ _ _ _ _ (L _)). unfold pret. rewrite V. reflexivity.
Qed.

Definition nocolon (s : rstring) : Prop := forall n B (q : unit -> P B), pbind ws_ (fun _ => pbind (plit (str ":")) q) (n, s) = PFail.
Definition nocomma (s : rstring) : Prop := forall n B (q : unit -> P B), pbind ws_ (fun _ => pbind (plit (str ",")) q) (n, s) = PFail.
Lemma follow_colon m s : follow m s -> nocolon s.
Proof.
  intros [g Hg|g c r Hg Hc|g o w l r Hg Hn Hb Hl|c r Hm Hc] n B q.
  - rewrite (pbind_m _ _ _ _ _ (ws_spaces g [] n Hg clear_nil)). reflexivity.
  - rewrite (pbind_m _ _ _ _ _ (ws_spaces g (c :: r) n Hg (clear_close c r Hc))).
    cbn in Hc. decompose [or] Hc; subst; try contradiction; reflexivity.
  - rewrite (pbind_m _ _ _ _ _ (ws_spaces g _ n Hg (clear_op _ _ _ r Hb))). ops o; injection Hb as <- <-; reflexivity.
  - rewrite (pbind_m _ _ _ _ _ (ws_clear (c :: r) n (clear_open c r Hc))).
    cbn in Hc. decompose [or] Hc; subst; try contradiction; reflexivity.
Qed.
Lemma nocomma_op g o w l r : spaces g -> binary_text o = Some (w, l) -> nocomma (g ++ w ++ 32%N :: r).
Proof.
  intros Hg Hb n B q. rewrite (pbind_m _ _ _ _ _ (ws_spaces g _ n Hg (clear_op _ _ _ r Hb))). ops o; injection Hb as <- <-; reflexivity.
Qed.
Lemma nocomma_open c r : In c [40; 91]%N -> nocomma (c :: r).
Proof.
  intros Hc n B q. rewrite (pbind_m _ _ _ _ _ (ws_clear (c :: r) n (clear_open c r Hc))).
  cbn in Hc. decompose [or] Hc; subst; try contradiction; reflexivity.
Qed.
Lemma nocomma_close g r : spaces g -> nocomma (g ++ 41%N :: r).
Proof.
  intros Hg n B q. rewrite (pbind_m _ _ _ _ _ (ws_spaces g (41%N :: r) n Hg (clear_close 41 r ltac:(cbn; auto)))). reflexivity.
Qed.

Lemma literal_app o k text v (neg : bool) n rest : numeral 10 text v -> apart rest -> nocolon rest ->
  r_literal o (S k) (n, (if neg then [45%N] else []) ++ text ++ rest) =
  PMatch (LInt (or0 (fits i64_min i64_max (if neg then - v else v)%Z)))
         (n + length ((if neg then [45%N] else []) ++ text), rest).
Proof.
  intros Hn Hr Hcol. destruct (numeral_digits _ _ Hn) as (H0 & H1 & H2).
  assert (F : exists c t, (if neg then [45%N] else []) ++ text ++ rest = c :: t /\ (45 <= c <= 57)%N /\ c <> 46%N).
  { destruct neg; [cbn; eexists _, _; split; [reflexivity|lia]|]. destruct text as [|c t]; [congruence|].
    exists c, (t ++ rest). split; auto. inversion H1; subst. unfold is_digit in *; lia. }
  destruct F as (c & t & E & Hc & Hc').
  assert (I32 : r_INT32 (n, (if neg then [45%N] else []) ++ text ++ rest) = 
    PMatch (or0 (fits (- 2 ^ 31) (2 ^ 31 - 1) (if neg then - v else v)%Z)) (n + length ((if neg then [45%N] else []) ++ text), rest)).
  { apply int_app; auto. }
  assert (I64 : r_INT (n, (if neg then [45%N] else []) ++ text ++ rest) =
    PMatch (or0 (fits i64_min i64_max (if neg then - v else v)%Z)) (n + length ((if neg then [45%N] else []) ++ text), rest)).
  { apply int_app; auto. }
  assert (FL : r_FLOAT o (n, (if neg then [45%N] else []) ++ text ++ rest) = PFail).
  { unfold r_FLOAT.
    assert (D : plit (str ".") (n + (if neg then 1 else 0) + length text, rest) = PFail).
    { destruct rest as [|d rest]; [reflexivity|]. destruct Hr as (_ & Hd & _). apply (plit_ne 46). apply N.eqb_neq. congruence. }
    assert (L : prun1 is_digit (n + (if neg then 1 else 0), text ++ rest) = PMatch text (n + (if neg then 1 else 0) + length text, rest)).
    { rewrite <- (digits_ascii text) by auto. apply prun1_app; auto. apply apart_digit; auto. }
    rewrite (pbind_m _ _ _ (if neg then Some tt else None) (n + (if neg then 1 else 0), text ++ rest)).
    - rewrite (pbind_m _ _ _ _ _ L). apply pbind_f. exact D.
    - unfold popt. destruct neg; [reflexivity|]. cbn [app] in *. rewrite Nat.add_0_r.
      destruct text as [|e t']; [congruence|]. change (str "-") with [45%N]. cbn [app]. rewrite plit_ne; auto.
      inversion H1; subst. unfold is_digit in *; lia. }
  cbn [r_literal]. rewrite E in *.
  rewrite palt_r by (apply pbind_f, kw_hi; [reflexivity|lia]).
  rewrite palt_r by (apply pbind_f, kw_hi; [reflexivity|lia]).
  rewrite palt_r by (apply pbind_f, kw_hi; [reflexivity|lia]).
  rewrite palt_r by (apply pbind_f; unfold r_HEX; apply pbind_f, (plit_ne 35); lia).
  rewrite palt_r by (apply pbind_f; auto).
  rewrite palt_r.
  2: { rewrite (pbind_m _ _ _ _ _ I32). apply Hcol. }
  erewrite palt_l; [reflexivity|]. rewrite (pbind_m _ _ _ _ _ I64). reflexivity.
Qed.

(** No literal starts with a name. *)
Lemma letter_ne x c : letter c -> is_start x = false -> (x =? c)%N = false.
Proof. intros H Hx. apply letter_start in H. apply N.eqb_neq. congruence. Qed.
Lemma int_letter parse c s n : letter c -> r_int parse (n, c :: s) = PFail.
Proof.
  intros Hc. unfold r_int.
  do 3 (rewrite palt_r by (apply pbind_f, plit_ne, letter_ne; auto)).
  rewrite (pbind_m _ _ _ None (n, c :: s)).
  2: { unfold popt. change (str "-") with [45%N]. rewrite plit_ne; auto. apply letter_ne; auto. }
  apply pbind_f. unfold prun1, prun, pbind. cbn [fst snd prun_go].
  replace (is_digit c) with false; [reflexivity|]. unfold letter in Hc. unfold is_digit. lia.
Qed.
Lemma literal_name o k x n rest : is_name x -> breaks rest -> r_literal o (S k) (n, x ++ rest) = PFail.
Proof.
  intros Hx Hr. cbn [r_literal].
  do 3 (rewrite palt_r by (apply (kw_name _ x); auto; repeat constructor; unfold keywords; cbn; auto)).
  destruct (name_word x Hx) as (c & t & -> & Hc & Ht & Hk). cbn [app].
  rewrite palt_r by (apply pbind_f; unfold r_HEX; apply pbind_f, plit_ne, letter_ne; auto).
  rewrite palt_r.
  2: { apply pbind_f. unfold r_FLOAT. rewrite (pbind_m _ _ _ None (n, c :: t ++ rest)).
       2: { unfold popt. change (str "-") with [45%N]. rewrite plit_ne; auto. apply letter_ne; auto. }
       apply pbind_f. unfold prun1, prun, pbind. cbn [fst snd prun_go].
       replace (is_digit c) with false; [reflexivity|]. unfold letter in Hc. unfold is_digit. lia. }
  rewrite palt_r by (apply pbind_f, int_letter; auto).
  rewrite palt_r by (apply pbind_f, int_letter; auto).
  rewrite palt_r by (apply pbind_f; unfold r_STRING; apply pbind_f, plit_ne, letter_ne; auto).
  rewrite palt_r by (apply pbind_f, plit_ne, letter_ne; auto).
  apply pbind_f, plit_ne, letter_ne; auto.
Qed.

(** ** The first character *)
Lemma spelled_first j e t : spelled j e t -> exists c t', t = c :: t' /\ solid c.
Proof.
  assert (S40 : forall c, In c [40; 33; 45; 126; 64]%N -> solid c).
  { intros c H. cbn in H. decompose [or] H; subst; try contradiction; repeat split; discriminate || reflexivity. }
  induction 1.
  - destruct (name_word x H) as (c & t & -> & Hc & _). exists c, t. split; auto. apply letter_solid; auto.
  - destruct (numeral_digits _ _ H) as (H1 & H2 & _). destruct H2 as [|c t Hc]; [congruence|].
    exists c, t. split; auto. apply digit_solid; auto.
  - eexists _, _. split; [reflexivity|]. apply S40. cbn; auto.
  - destruct IHspelled1 as (c & t' & -> & Hc). eexists _, _. split; [reflexivity|auto].
  - destruct o; cbn in H; try discriminate; injection H as <-; eexists _, _; (split; [reflexivity|]); apply S40; cbn; auto.
  - destruct IHspelled as (c & t' & -> & Hc). eexists _, _. split; [reflexivity|auto].
  - eexists _, _. split; [reflexivity|]. apply S40. cbn; auto 6.
  - destruct IHspelled1 as (c & t' & -> & Hc). eexists _, _. split; [reflexivity|auto].
Qed.
Lemma spelled_clear j e t r : spelled j e t -> clear (t ++ r).
Proof. intros H. destruct (spelled_first _ _ _ H) as (c & t' & -> & Hc). apply clear_solid; auto. Qed.

(** A text that starts with a digit starts with a numeral. *)
Definition numeral_first (s : rstring) : Prop :=
  match s with c :: _ => is_digit c = true -> exists d r z, numeral 10 d z /\ s = d ++ r /\ apart r /\ nocolon r /\ nocomma r | [] => True end.
Lemma spelled_numeral j e t : spelled j e t -> forall rest, follow 10 rest -> nocomma rest -> numeral_first (t ++ rest).
Proof.
  induction 1; intros rest Hr Hc.
  - destruct (name_word x H) as (c & t & -> & Hl & _). cbn. intros Hd. unfold letter in Hl. unfold is_digit in Hd. lia.
  - destruct (numeral_digits _ _ H) as (H1 & H2 & _). destruct t as [|c t]; [congruence|]. cbn [app numeral_first].
    intros _. exists (c :: t), rest, z. repeat split; auto. eapply follow_first; eauto. eapply follow_colon; eauto.
  - cbn. discriminate.
  - rewrite <- !app_assoc. apply IHspelled1.
    + destruct H4 as [|d g' -> H4]; [congruence|]. eapply fo_op; eauto. ops o; injection H as <- <-; lia.
    + destruct H4 as [|d g' -> H4]; [congruence|]. apply nocomma_op with (o := o) (l := l); auto.
  - destruct o; cbn in H; try discriminate; injection H as <-; cbn; discriminate.
  - rewrite <- !app_assoc. apply IHspelled; [apply fo_open; cbn; auto|apply nocomma_open; cbn; auto].
  - cbn. discriminate.
  - rewrite <- !app_assoc. apply IHspelled1; [apply fo_open; cbn; auto|apply nocomma_open; cbn; auto].
Qed.

(** The same without the comma. *)
Lemma spelled_lead j e t : spelled j e t -> forall rest, follow 10 rest -> 
  match t with c :: _ => is_digit c = true | [] => False end ->
  exists d r z, numeral 10 d z /\ t ++ rest = d ++ r /\ apart r /\ nocolon r.
Proof.
  induction 1; intros rest Hr.
  - destruct (name_word x H) as (c & t & -> & Hl & _). cbn. intros Hd. unfold letter in Hl. unfold is_digit in Hd. lia.
  - intros _. exists t, rest, z. repeat split; auto. eapply follow_first; eauto. eapply follow_colon; eauto.
  - cbn. discriminate.
  - rewrite <- !app_assoc. intros Hd. apply IHspelled1.
    + destruct H4 as [|d g' -> H4]; [congruence|]. eapply fo_op; eauto. ops o; injection H as <- <-; lia.
    + destruct (spelled_first _ _ _ H1) as (c & t' & -> & _). exact Hd.
  - destruct o; cbn in H; try discriminate; injection H as <-; cbn; discriminate.
  - rewrite <- !app_assoc. intros Hd. apply IHspelled; [apply fo_open; cbn; auto|].
    destruct (spelled_first _ _ _ H) as (c & t' & -> & _). exact Hd.
  - cbn. discriminate.
  - rewrite <- !app_assoc. intros Hd. apply IHspelled1; [apply fo_open; cbn; auto|].
    destruct (spelled_first _ _ _ H) as (c & t' & -> & _). exact Hd.
Qed.

(** A literal that starts the text of an expression is not followed by a comma. *)
Lemma spelled_literal o j e t : spelled j e t -> forall rest, follow 10 rest -> nocomma rest -> forall fu n,
  match r_literal o fu (n, t ++ rest) with PMatch _ i => nocomma (snd i) | _ => True end.
Proof.
  induction 1; intros rest Hr Hc fu n; (destruct fu as [|fu]; [exact Logic.I|]).
  - rewrite literal_name; auto. eapply follow_breaks; eauto.
  - pose proof (literal_app o fu t z false n rest H (follow_first _ _ Hr) (follow_colon _ _ Hr)) as E. cbn [app] in E. rw E. exact Hc.
  - cbn [app].
    assert (E : r_literal o (S fu) (n, (str "(" ++ g ++ t ++ g' ++ str ")") ++ rest) =
      (plit (str "(") >> ws_ >> on h <- r_literal o fu; ws_ >> plit (str ",") >> ws_ >>
           on t <- r_literal o fu; ws_ >> plit (str ")") >> pret (LPair h t)) (n, (str "(" ++ g ++ t ++ g' ++ str ")") ++ rest)).
    { cbn [r_literal]. do 8 (rewrite palt_r by reflexivity).
      unfold palt. destruct (pbind _ _ _); reflexivity. }
    rewrite E. clear E. change (str "(" ++ g ++ t ++ g' ++ str ")") with (40%N :: (g ++ t ++ g' ++ [41%N])).
    rewrite (pbind_m _ _ _ tt (n + 1, (g ++ t ++ g' ++ [41%N]) ++ rest)) by reflexivity.
    rewrite <- !app_assoc.
    rewrite (pbind_m _ _ _ _ _ (ws_spaces g _ (n + 1) H0 (spelled_clear _ _ _ _ H))).
    specialize (IHspelled (g' ++ [41%N] ++ rest) ltac:(apply fo_close; cbn; auto) ltac:(apply nocomma_close; auto) fu (n + 1 + length g)).
    unfold pbind at 1. unfold rstring in *. destruct (r_literal o fu _) as [h i| |]; auto.
    destruct i as [a b]. rewrite IHspelled. exact Logic.I.
  - rewrite <- !app_assoc. destruct H4 as [|d g' -> H4]; [congruence|].
    apply IHspelled1.
    + eapply fo_op; eauto. ops o0; injection H as <- <-; lia.
    + apply nocomma_op with (o := o0) (l := l); auto.
  - destruct o0; cbn in H; try discriminate; injection H as <-.
    + exact Logic.I.
    + change ((str "-" ++ g ++ t) ++ rest) with (45%N :: (g ++ t) ++ rest).
      assert (U : forall c s, is_digit c = false -> r_literal o (S fu) (n, 45%N :: c :: s) = PFail).
      { intros c s Hd. cbn [r_literal]. do 4 (rewrite palt_r by reflexivity).
        assert (R : forall j, prun1 is_digit (j, c :: s) = PFail).
        { intros j. unfold prun1, prun, pbind. cbn [fst snd prun_go]. rewrite Hd. reflexivity. }
        rewrite palt_r.
        2: { apply pbind_f. unfold r_FLOAT. rewrite (pbind_m _ _ _ (Some tt) (n + 1, c :: s)) by reflexivity. apply pbind_f, R. }
        assert (I : forall parse, r_int parse (n, 45%N :: c :: s) = PFail).
        { intros parse. unfold r_int. do 3 (rewrite palt_r by reflexivity).
          rewrite (pbind_m _ _ _ (Some tt) (n + 1, c :: s)) by reflexivity. apply pbind_f, R. }
        rewrite palt_r by apply pbind_f, I. rewrite palt_r by apply pbind_f, I. reflexivity. }
      destruct H2 as [|d g -> H2].
      * cbn [app]. destruct (spelled_first _ _ _ H1) as (c & t' & Et & Hs).
        destruct (is_digit c) eqn:Ed.
        -- pose proof (spelled_numeral _ _ _ H1 rest Hr Hc) as N. rewrite Et in *. cbn [app numeral_first] in N.
           destruct (N Ed) as (dd & r & z & Hn & Eq & Ha & Hcol & Hcom). cbn [app]. rw Eq.
           pose proof (literal_app o fu dd z true n r Hn Ha Hcol) as E. cbn [app] in E. rw E. exact Hcom.
        -- rewrite Et. cbn [app]. rewrite U; auto.
      * cbn [app]. rewrite U; auto.
    + exact Logic.I.
  - rewrite <- !app_assoc. apply IHspelled; [apply fo_open; cbn; auto|apply nocomma_open; cbn; auto].
  - exact Logic.I.
  - rewrite <- !app_assoc. apply IHspelled1; [apply fo_open; cbn; auto|apply nocomma_open; cbn; auto].
Qed.
