(** Texts of programs: literals. *)
From Verif Require Import Base Float NumText Ast Parse SpecArith SpecParse SpecExpr SpecProg ProofParse ProofParse2 ProofParse3 ProofParse4 ProofExpr ProofProg ProofProg2.

Lemma gap_apart g s : gap g -> apart s -> apart (g ++ s).
Proof.
  intros Hg Hs. pose proof (gap_first g Hg) as H. destruct g as [|c g]; [exact Hs|]. cbn. split; [apply gap_char_word; auto|].
  intros ->. cbn in H. decompose [or] H; try discriminate; contradiction.
Qed.
Definition closer (c : N) : Prop := In c (str ",)]}{=").
Lemma closer_solid c : closer c -> solid c.
Proof. intros H. cbn in H. decompose [or] H; subst; try contradiction; repeat split; discriminate || reflexivity. Qed.
Lemma closer_apart c s : closer c -> apart (c :: s).
Proof. intros H. cbn in H. decompose [or] H; subst; try contradiction; split; discriminate || reflexivity. Qed.
Lemma not_range g c s : gap g -> solid c -> c <> 58%N -> norange (g ++ c :: s).
Proof.
  intros Hg Hc Hn m B q. rewrite (pbind_m _ _ _ _ _ (ws_gap g (c :: s) m Hg (clear_solid c s Hc))).
  apply pbind_f. apply (plit_ne 58). apply N.eqb_neq. congruence.
Qed.
Lemma norange_end g : gap g -> norange g.
Proof.
  intros Hg m B q. pose proof (ws_gap g [] m Hg clear_nil) as E. rewrite app_nil_r in E. rewrite (pbind_m _ _ _ _ _ E). reflexivity.
Qed.
Lemma closer_range g c s : gap g -> closer c -> norange (g ++ c :: s).
Proof.
  intros Hg Hc. apply not_range; auto; [apply closer_solid; auto|]. intros ->. cbn in Hc. decompose [or] Hc; try discriminate; contradiction.
Qed.
Lemma apart_dot s : apart s -> match s with c :: _ => c <> 46%N | [] => True end.
Proof. destruct s; [auto|]. intros H. apply H. Qed.
(** ** Colours and texts *)
Lemma hex_list ds rest n : ds <> [] -> Forall (fun c => is_hex c = true) ds -> breaks rest ->
  r_HEX (n, str "#" ++ ds ++ rest) = match hex_to_rgba ds with Some c => PMatch c (n + S (length ds), rest) | None => PFail end.
Proof.
  intros H0 H1 Hr. unfold r_HEX. rewrite (pbind_m _ _ _ tt (n + 1, ds ++ rest)) by reflexivity.
  rewrite (pbind_m _ _ _ ds (n + S (length ds), rest)).
  - destruct (hex_to_rgba ds); reflexivity.
  - rewrite (prun1_app is_hex ds rest) by (auto; apply breaks_hex; auto). rewrite bytes_in_ascii.
    + do 2 f_equal. lia.
    + eapply Forall_impl; [|exact H1]. intros c. unfold is_hex, is_digit. lia.
Qed.
Lemma colour_reads l t rest n : colour_text l t -> breaks rest -> exists r g b a, l = LColor r g b a /\
  r_HEX (n, t ++ rest) = PMatch (r, g, b, a) (n + length t, rest).
Proof.
  assert (TH : forall ds vs, Forall2 hex_digit ds vs -> Forall (fun c => is_hex c = true) ds /\ trim_hash ds = ds).
  { intros ds vs H. split; [apply (proj2 (hex_signs _ _ H))|]. apply trim_hash_hex. apply (proj2 (hex_signs _ _ H)). }
  intros [a b c x y z|a b c d e f x y z u v w|a b c d e f g h x y z u v w p q] Hr; eexists _, _, _, _; (split; [reflexivity|]).
  - assert (K : Forall2 hex_digit [a;b;c] [x;y;z]) by (repeat (constructor; auto)). destruct (TH _ _ K) as [K1 K2].
    rewrite <- app_assoc. rewrite hex_list by (auto; discriminate). unfold hex_to_rgba. rewrite K2. cbn -[u8_or N.mul].
    rewrite !u8_or1 with (v := x), u8_or1 with (v := y), u8_or1 with (v := z) by auto. reflexivity.
  - assert (K : Forall2 hex_digit [a;b;c;d;e;f] [x;y;z;u;v;w]) by (repeat (constructor; auto)). destruct (TH _ _ K) as [K1 K2].
    rewrite <- app_assoc. rewrite hex_list by (auto; discriminate). unfold hex_to_rgba. rewrite K2. cbn -[u8_or N.mul].
    rewrite (u8_or2 _ a x b y), (u8_or2 _ c z d u), (u8_or2 _ e v f w) by auto. reflexivity.
  - assert (K : Forall2 hex_digit [a;b;c;d;e;f;g;h] [x;y;z;u;v;w;p;q]) by (repeat (constructor; auto)). destruct (TH _ _ K) as [K1 K2].
    rewrite <- app_assoc. rewrite hex_list by (auto; discriminate). unfold hex_to_rgba. rewrite K2. cbn -[u8_or N.mul].
    rewrite (u8_or2 _ a x b y), (u8_or2 _ c z d u), (u8_or2 _ e v f w), (u8_or2 _ g p h q) by auto. reflexivity.
Qed.
Lemma string_reads s rest n : ~ In 34%N s -> r_STRING (n, ([34%N] ++ s ++ [34%N]) ++ rest) = PMatch s (n + bytes_in ([34%N] ++ s ++ [34%N]), rest).
Proof.
  intros Hs. unfold r_STRING. rewrite <- !app_assoc. cbn [app].
  rewrite (pbind_m _ _ _ tt (n + 1, s ++ 34%N :: rest)) by reflexivity.
  rewrite (pbind_m _ _ _ s (n + 1 + bytes_in s, 34%N :: rest)).
  - unfold pbind, plit, pchar, pret. cbn [snd is_c]. cbn. f_equal. f_equal. rewrite bytes_in_cons, bytes_app, bytes_in_cons.
    change (N.to_nat (utf8_len 34)) with 1. change (bytes_in []) with 0. unfold utf8_len. cbn. lia.
  - apply prun_app; [|reflexivity]. apply Forall_forall. intros c Hc. apply negb_true_iff, N.eqb_neq. intros ->. auto.
Qed.

Definition all (g : rstring) : Prop := True.
(** ** Literals *)
Scheme literal_ind2 := Minimality for literal_text Sort Prop
  with literals_ind2 := Minimality for literals_text Sort Prop.
Combined Scheme literals_ind from literal_ind2, literals_ind2.

Section Lit.
Context (o : oracle).
Notation pf := (o_f64_parse o).
Notation LR := (r_literal o).
Definition is_int (l : literal) : Prop := match l with LInt _ => True | _ => False end.
Definition lit_reads (l : literal) (t : rstring) : Prop :=
  forall rest n, apart rest -> (is_int l -> norange rest) -> exists n', M LR (n, t ++ rest) l (n', rest).

Lemma F_kwlow w c s n {B} (q : nat -> unit -> P B) : (57 <? hd 0 w)%N = true -> (c <= 57)%N -> F (fun k => pbind (kw w) (q k)) (n, c :: s).
Proof. intros H H'. apply (F_bind (fun _ => kw w)), F_k, kw_hi; auto. Qed.
Ltac skip := apply M_right; [ff|].
(** The first four rules on a number. *)
Lemma number_rules l c s n j : number_char c ->
  M (fun k => (on f <- r_FLOAT o; pret (LFloat f))
      <|> (on s <- r_INT32; ws_ >> plit (str ":") >> ws_ >> on e <- r_INT32; pret (LRange s e))
      <|> (on i <- r_INT; pret (LInt i))
      <|> (on s <- r_STRING; pret (LString s))
      <|> (plit (str "(") >> ws_ >> on h <- LR k; ws_ >> plit (str ",") >> ws_ >>
           on t <- LR k; ws_ >> plit (str ")") >> pret (LPair h t))
      <|> (plit (str "[") >> ws_ >> on e <- commasep (LR k); ws_ >>
           plit (str "]") >> pret (LArray e))) (n, c :: s) l j ->
  M LR (n, c :: s) l j.
Proof.
  intros Hc H. apply M_up. cbn [r_literal]. assert (Hl : (c <= 57)%N) by (unfold number_char, digit_c in Hc; lia).
  do 3 (apply M_right; [apply F_kwlow; auto|]).
  apply M_right; [|exact H]. apply (F_bind (fun _ => r_HEX)), F_k. unfold r_HEX. apply pbind_f. apply (plit_ne 35). 
  apply N.eqb_neq. unfold number_char, digit_c in Hc. lia.
Qed.
Lemma lit_integer z t : integer_text z t -> i64_range z -> lit_reads (LInt z) t.
Proof.
  intros Ht Hz rest n Hr HR. exists (n + length t). destruct (integer_first z t Ht) as (c & t' & E & Hc).
  assert (Hb : breaks rest) by (apply apart_breaks; auto).
  rewrite E. cbn [app]. apply number_rules; auto. change (c :: t' ++ rest) with ((c :: t') ++ rest). rewrite <- E.
  apply M_right.
  { apply (F_bind (fun _ => r_FLOAT o)), F_k, (float_fails o z); auto. destruct rest; auto. apply Hr. }
  apply M_right.
  { destruct (int32_some z t n rest Ht Hb) as [v Ev]. eapply (F_bind2 (fun _ => r_INT32)); [apply M_k, Ev|]. apply F_k. apply HR. exact Logic.I. }
  apply M_left. eapply (M_bind (fun _ => r_INT)); [apply M_k, (int64_reads z); auto|]. apply M_ret.
Qed.
Lemma lit_range a b ta tb g g' : integer_text a ta -> integer_text b tb -> i32_range a -> i32_range b -> gap g -> gap g' ->
  lit_reads (LRange a b) (ta ++ g ++ str ":" ++ g' ++ tb).
Proof.
  intros Ha Hb Ra Rb Hg Hg' rest n Hr _. destruct (integer_first a ta Ha) as (c & t' & E & Hc).
  assert (Hap : apart (g ++ str ":" ++ g' ++ tb ++ rest)) by (apply gap_apart; auto; split; [reflexivity|discriminate]).
  eexists. rewrite <- !app_assoc.
  rewrite E. cbn [app]. apply number_rules; auto.
  match goal with |- M _ (_, c :: t' ++ ?r) _ _ => change (c :: t' ++ r) with ((c :: t') ++ r) end. rewrite <- E.
  apply M_right.
  { apply (F_bind (fun _ => r_FLOAT o)), F_k, (float_fails o a); auto; [apply apart_breaks; auto|].
    apply apart_dot; auto. }
  apply M_left. eapply (M_bind (fun _ => r_INT32)); [apply M_k, (int32_reads a); auto; apply apart_breaks; auto|].
  eapply (M_bind (fun _ => ws_)); [apply M_ws; auto; apply clear_solid; repeat split; discriminate || reflexivity|].
  eapply (M_bind (fun _ => plit (str ":"))); [apply (M_lit (str ":"))|].
  eapply (M_bind (fun _ => ws_)); [apply M_ws; auto; eapply integer_clear; eauto|].
  eapply (M_bind (fun _ => r_INT32)); [apply M_k, (int32_reads b); auto; apply apart_breaks; auto|]. apply M_ret.
Qed.
Lemma lit_float f t (neg : bool) : float_text t -> pf ((if neg then str "-" else []) ++ t) = Some f -> 
  lit_reads (LFloat f) ((if neg then str "-" else []) ++ t).
Proof.
  intros Ht Hf rest n Hr _. destruct (float_reads o t n rest f Ht Hr) as [H1 H2]. destruct neg.
  - exists (n + S (length t)). rewrite <- app_assoc. cbn [app]. change (str "-" ++ t ++ rest) with (45%N :: t ++ rest).
    apply number_rules; [right; auto|]. apply M_left. eapply (M_bind (fun _ => r_FLOAT o)); [apply M_k, H2; exact Hf|]. apply M_ret.
  - exists (n + length t). destruct (float_first t Ht) as (c & t' & E & Hc). cbn [app]. rewrite E. cbn [app].
    apply number_rules; [left; auto|]. change (c :: t' ++ rest) with ((c :: t') ++ rest). rewrite <- E.
    apply M_left. eapply (M_bind (fun _ => r_FLOAT o)); [apply M_k, H1; exact Hf|]. apply M_ret.
Qed.
Lemma lit_word l w : In (l, w) [(LBool true, str "true"); (LBool false, str "false"); (LNone, str "none")] -> lit_reads l w.
Proof.
  intros Hl rest n Hr _. pose proof (apart_breaks _ Hr) as Hb. exists (n + bytes_in w).
  cbn [In] in Hl. destruct Hl as [Hl|[Hl|[Hl|[]]]]; injection Hl as <- <-; apply M_up; cbn [r_literal].
  - apply M_left. eapply (M_bind (fun _ => kw (str "true"))); [apply M_kw; auto|]. apply M_ret.
  - skip. apply M_left. eapply (M_bind (fun _ => kw (str "false"))); [apply M_kw; auto|]. apply M_ret.
  - skip. skip. apply M_left. eapply (M_bind (fun _ => kw (str "none"))); [apply M_kw; auto|]. apply M_ret.
Qed.
Lemma lit_colour l t : colour_text l t -> lit_reads l t.
Proof.
  intros Ht rest n Hr _. destruct (colour_reads l t rest n Ht (apart_breaks _ Hr)) as (r & g & b & a & -> & E). exists (n + length t).
  apply M_up. cbn [r_literal]. do 3 (apply M_right; [destruct Ht; ff|]). apply M_left. 
  eapply (M_bind (fun _ => r_HEX)); [apply M_k, E|]. apply M_ret.
Qed.
Lemma lit_string s : ~ In 34%N s -> lit_reads (LString s) ([34%N] ++ s ++ [34%N]).
Proof.
  intros Hs rest n Hr _. pose proof (string_reads s rest n Hs) as E. eexists.
  apply M_up. cbn [r_literal]. do 7 skip. apply M_left. eapply (M_bind (fun _ => r_STRING)); [apply M_k, E|]. apply M_ret.
Qed.
Lemma lit_pair a b ta tb g1 g2 g3 g4 : literal_text pf a ta -> lit_reads a ta -> literal_text pf b tb -> lit_reads b tb -> 
  gap g1 -> gap g2 -> gap g3 -> gap g4 ->
  lit_reads (LPair a b) (str "(" ++ g1 ++ ta ++ g2 ++ str "," ++ g3 ++ tb ++ g4 ++ str ")").
Proof.
  intros Ta Ha Tb Hb H1 H2 H3 H4 rest n Hr _.
  destruct (Ha (g2 ++ str "," ++ g3 ++ tb ++ g4 ++ str ")" ++ rest) (n + bytes_in (str "(") + bytes_in g1)) as [n1 M1].
  { apply gap_apart; auto. apply closer_apart. cbn; tauto. }
  { intros _. apply closer_range; auto. cbn; tauto. }
  destruct (Hb (g4 ++ str ")" ++ rest) (n1 + bytes_in g2 + bytes_in (str ",") + bytes_in g3)) as [n2 M2].
  { apply gap_apart; auto. apply closer_apart. cbn; tauto. }
  { intros _. apply closer_range; auto. cbn; tauto. }
  eexists. rewrite <- !app_assoc. apply M_up. cbn [r_literal]. do 8 skip. apply M_left.
  eapply (M_bind (fun _ => plit (str "("))); [apply (M_lit (str "("))|].
  eapply (M_bind (fun _ => ws_)); [apply M_ws; auto; eapply literal_clear; eauto|].
  eapply (M_bind LR); [apply M1|].
  eapply (M_bind (fun _ => ws_)); [apply M_ws; auto; apply comma_clear|].
  eapply (M_bind (fun _ => plit (str ","))); [apply (M_lit (str ","))|].
  eapply (M_bind (fun _ => ws_)); [apply M_ws; auto; eapply literal_clear; eauto|].
  eapply (M_bind LR); [apply M2|].
  eapply (M_bind (fun _ => ws_)); [apply M_ws; auto; apply clear_solid, closer_solid; cbn; tauto|].
  eapply (M_bind (fun _ => plit (str ")"))); [apply (M_lit (str ")"))|]. apply M_ret.
Qed.
Lemma close_clear c s : closer c -> clear (c :: s).
Proof. intros. apply clear_solid, closer_solid; auto. Qed.
Lemma lit_item l t c r : closer c -> literal_text pf l t -> lit_reads l t -> item eq LR all (c :: r) l t.
Proof.
  intros Hc Tl Hl. split; [intros; eapply literal_clear; eauto|]. split.
  { destruct (literal_first pf l t Tl) as (d & t' & -> & _). discriminate. }
  intros g s n Hg Hs. assert (exists d s', s = d :: s' /\ closer d) as (d & s' & -> & Hd).
  { destruct Hs as [Hs|[Hs _]]; [|rewrite Hs; eauto]. destruct s as [|d s]; [contradiction|]. cbn in Hs. subst. exists 44%N, s. split; auto. cbn; tauto. }
  destruct (Hl (g ++ d :: s') n) as [n' HM].
  { apply gap_apart; auto. apply closer_apart; auto. }
  { intros _. apply closer_range; auto. }
  exists l, n', g. auto.
Qed.
Lemma lit_close n s : F LR (n, str "]" ++ s).
Proof. ff. Qed.
Lemma lit_array l t : (forall r, list_text all (item eq LR all (str "]" ++ r)) l t) -> lit_reads (LArray l) (str "[" ++ t ++ str "]").
Proof.
  intros Hl rest n Hr _. destruct (M_commasep eq LR all (str "]" ++ rest) l t (n + bytes_in (str "["))) as (bs & n' & HT & HM); auto.
  { apply close_clear. cbn; tauto. }
  { cbn. discriminate. }
  { intros. apply lit_close. }
  assert (bs = l) as -> by (clear - HT; induction HT; congruence).
  rewrite <- !app_assoc.
  (* the white space before the elements may be read by the first or by the second [ws_] *)
  destruct (first_gap eq LR all l t (str "]" ++ rest) (Hl rest)) as (g & t' & [(-> & Hg & Ht' & HL')|(-> & Hg)]).
  - destruct (M_commasep eq LR all (str "]" ++ rest) l t' (n + bytes_in (str "[") + bytes_in g)) as (bs & n2 & HT2 & HM2); auto.
    { apply close_clear. cbn; tauto. }
    { cbn. discriminate. }
    { intros. apply lit_close. }
    assert (bs = l) as -> by (clear - HT2; induction HT2; congruence).
    eexists. apply M_up. cbn [r_literal]. do 9 skip.
    eapply (M_bind (fun _ => plit (str "["))); [apply (M_lit (str "["))|]. rewrite <- app_assoc.
    eapply (M_bind (fun _ => ws_)); [apply M_ws; auto|].
    eapply (M_bind (fun k => commasep (LR k))); [apply HM2|].
    eapply (M_bind (fun _ => ws_)); [apply M_ws0, close_clear; cbn; tauto|].
    eapply (M_bind (fun _ => plit (str "]"))); [apply (M_lit (str "]"))|]. apply M_ret.
  - destruct (M_commasep eq LR all (str "]" ++ rest) [] [] (n + bytes_in (str "[") + bytes_in t)) as (bs & n2 & HT2 & HM2); auto.
    { apply close_clear. cbn; tauto. }
    { cbn. discriminate. }
    { apply li_none. constructor. }
    { intros. apply lit_close. }
    inversion HT2; subst.
    eexists. apply M_up. cbn [r_literal]. do 9 skip.
    eapply (M_bind (fun _ => plit (str "["))); [apply (M_lit (str "["))|].
    eapply (M_bind (fun _ => ws_)); [apply M_ws; auto; apply close_clear; cbn; tauto|].
    eapply (M_bind (fun k => commasep (LR k))); [apply HM2|].
    eapply (M_bind (fun _ => ws_)); [apply M_ws0, close_clear; cbn; tauto|].
    eapply (M_bind (fun _ => plit (str "]"))); [apply (M_lit (str "]"))|]. apply M_ret.
Qed.
Lemma all_literals : (forall l t, literal_text pf l t -> lit_reads l t) /\
  (forall ls t, literals_text pf ls t -> forall r, list_text all (item eq LR all (str "]" ++ r)) ls t).
Proof.
  apply literals_ind.
  1-3: apply lit_word; cbn; tauto.
  - apply lit_integer.
  - intros. apply (lit_float f t false); auto.
  - intros. apply (lit_float f t true); auto.
  - intros. apply lit_range; auto.
  - apply lit_colour.
  - apply lit_string.
  - intros. apply lit_pair; auto.
  - intros. apply lit_array; auto.
  - intros. apply li_none; auto.
  - intros. apply li_last; auto; [|exact Logic.I]. apply lit_item; auto. cbn; tauto.
  - intros. apply li_more; auto. apply lit_item; auto. cbn; tauto.
Qed.
End Lit.
