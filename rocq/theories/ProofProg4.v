(** Texts of programs: what follows an expression. *)
From Verif Require Import Base Float NumText Ast Parse SpecArith SpecParse SpecExpr SpecProg ProofParse ProofParse2 ProofParse3 ProofParse4 ProofExpr ProofProg ProofProg2 ProofProg3.

Ltac ops o := destruct o; cbn [binary_text] in *; try discriminate.
Ltac each Hx := cbn in Hx; repeat (destruct Hx as [<-|Hx]); try contradiction.

Definition not_else (s : rstring) : Prop := forall n, kw (str "else") (n, s) = PFail.
(** What no operator starts with: the end of a list or of a block, the start of a statement. *)
Definition quiet (c : N) : Prop := letter c \/ digit_c c \/ In c (str "#@{}),]" ++ [34%N]).
(** What may follow something that is wanted at level [m], behind white space. *)
Inductive ends (m : nat) : rstring -> Prop :=
| en_end : ends m []
| en_quiet c r : quiet c -> not_else (c :: r) -> ends m (c :: r)
| en_op o w l c r : binary_text o = Some (w, l) -> l < m -> In c [32; 9; 10]%N -> ends m (w ++ c :: r)
| en_range c r : 0 < m -> In c [32; 9; 10]%N -> ends m (str ":" ++ c :: r).
Definition opens (s : rstring) : Prop := starts (fun c => c = 40%N \/ c = 91%N) s.
Definition follow (m : nat) (g s : rstring) : Prop :=
  gap g /\ ((apart (g ++ s) /\ ends m s) \/ (9 < m /\ g = [] /\ opens s)).

Lemma quiet_solid c : quiet c -> solid c.
Proof.
  intros [H|[H|H]]; [apply letter_solid; auto|apply digit_solid; unfold is_digit, digit_c in *; lia|].
  each H; repeat split; discriminate || reflexivity.
Qed.
Lemma op_clear o w l c r : binary_text o = Some (w, l) -> In c [32; 9; 10]%N -> clear (w ++ c :: r).
Proof. intros H Hc n. ops o; injection H as <- <-; each Hc; reflexivity. Qed.
Lemma colon_clear r : clear (str ":" ++ r).
Proof. apply clear_solid. repeat split; discriminate || reflexivity. Qed.
Lemma ends_clear m s : ends m s -> clear s.
Proof.
  intros [|c r Hc _|o w l c r Hb _ Hc|c r _ Hc].
  - apply clear_nil.
  - apply clear_solid, quiet_solid; auto.
  - eapply op_clear; eauto.
  - apply colon_clear.
Qed.
Lemma open_clear s : opens s -> clear s.
Proof. destruct s as [|c s]; [contradiction|]. intros [->| ->]; apply clear_solid; repeat split; discriminate || reflexivity. Qed.
Lemma follow_clear m g s : follow m g s -> clear s.
Proof. intros [_ [[_ H]|(_ & _ & H)]]; [eapply ends_clear; eauto|apply open_clear; auto]. Qed.
Lemma follow_apart m g s : follow m g s -> apart (g ++ s).
Proof.
  intros [_ [[H _]|(_ & -> & H)]]; auto. destruct s as [|c s]; [contradiction|].
  destruct H as [->| ->]; split; discriminate || reflexivity.
Qed.
Lemma follow_breaks m g s : follow m g s -> breaks (g ++ s).
Proof. intros H. apply apart_breaks. eapply follow_apart; eauto. Qed.
Lemma op_level o w l : binary_text o = Some (w, l) -> 1 <= l <= 7.
Proof. intros H. ops o; injection H as <- <-; lia. Qed.
Lemma ends_more m m' s : ends m s -> m <= m' -> ends m' s.
Proof.
  intros [|c r Hc He|o w l c r Hb Hl Hc|c r Hm Hc] H.
  - apply en_end.
  - apply en_quiet; auto.
  - eapply en_op; eauto. lia.
  - apply en_range; auto. lia.
Qed.
Lemma follow_more m m' g s : follow m g s -> m <= m' -> follow m' g s.
Proof.
  intros [Hg [[Ha He]|(H9 & Hn & Ho)]] H; (split; [auto|]).
  - left. split; auto. eapply ends_more; eauto.
  - right. split; [lia|auto].
Qed.
Lemma ends_8 m s : 8 <= m -> ends m s -> ends 8 s.
Proof.
  intros Hm [|c r Hc He|o w l c r Hb Hl Hc|c r H0 Hc].
  - apply en_end.
  - apply en_quiet; auto.
  - eapply en_op; eauto. apply op_level in Hb. lia.
  - apply en_range; auto. lia.
Qed.
Lemma ends_else m s : ends m s -> not_else s.
Proof.
  intros [|c r Hc He|o w l c r Hb Hl Hc|c r H0 Hc]; auto; intros n; try reflexivity.
  ops o; injection Hb as <- <-; reflexivity.
Qed.
Lemma follow_else m g s : follow m g s -> not_else s.
Proof.
  intros [_ [[_ H]|(_ & _ & H)]]; [eapply ends_else; eauto|]. destruct s as [|c s]; [contradiction|]. intros n.
  destruct H as [->| ->]; reflexivity.
Qed.

(** ** Operators *)
Definition agree (mn m : nat) : Prop := forall l, l <= 7 -> (mn <=? l + 8) = (m <=? l).
Lemma agree_level l : l <= 9 -> agree (l + 8) l.
Proof. intros H j Hj. destruct (Nat.leb_spec (l + 8) (j + 8)), (Nat.leb_spec l j); auto; lia. Qed.
Lemma agree_low mn : mn <= 8 -> agree mn 0.
Proof. intros H j Hj. destruct (Nat.leb_spec mn (j + 8)); cbn; auto; lia. Qed.
Lemma agree_17 : agree 17 8.
Proof. intros j Hj. destruct (Nat.leb_spec 17 (j + 8)), (Nat.leb_spec 8 j); auto; lia. Qed.
Lemma agree_min mn m : agree mn m -> agree mn (Nat.min m 9).
Proof.
  intros H l Hl. rewrite (H l Hl). destruct (Nat.leb_spec m l), (Nat.leb_spec (Nat.min m 9) l); auto; lia.
Qed.

Section Posts.
Context (o : oracle) (id k : nat).
Notation cl := (climb o id (S (S k))).
Definition entry (mn : nat) (lhs : nodeS) (x : nat * (rstring * option op)) : P node :=
  if mn <=? fst x then
    ws_ >> plit (fst (snd x)) >> ws_ >> on y <- cl (S (fst x));
    pret (match snd (snd x) with Some f => NBinary f lhs y | None => NRange lhs y end)
  else pfail.
Definition brackets (lhs : nodeS) : list (P node) :=
  [ ws0 >> on a <- args_ cl; pret (NCall lhs a);
    ws_ >> plit (str "[") >> ws_ >> on i <- r_node cl; ws_ >> plit (str "]") >> pret (NIndexGet lhs i) ].
Lemma posts_eq mn lhs : posts cl mn lhs = map (entry mn lhs) infixes ++ brackets lhs.
Proof. reflexivity. Qed.
Lemma first_fail {A} (l : list (P A)) i : Forall (fun p : P A => p i = PFail) l -> pfirst l i = PFail.
Proof. induction 1 as [|p l H Hl IH]; [reflexivity|]. rewrite pfirst_skip; auto. Qed.
Lemma first_app {A} (l l' : list (P A)) i : Forall (fun p : P A => p i = PFail) l -> pfirst (l ++ l') i = pfirst l' i.
Proof. induction 1 as [|p l H Hl IH]; [reflexivity|]. cbn [app]. rewrite pfirst_skip; auto. Qed.

Lemma entry_ws mn lhs x g s n : gap g -> clear s ->
  (forall n', mn <= fst x -> (plit (fst (snd x)) >> ws_ >> on y <- cl (S (fst x));
     pret (match snd (snd x) with Some f => NBinary f lhs y | None => NRange lhs y end)) (n', s) = PFail) ->
  entry mn lhs x (n, g ++ s) = PFail.
Proof.
  intros Hg Hs H. unfold entry. destruct (Nat.leb_spec mn (fst x)); [|reflexivity].
  rewrite (pbind_m _ _ _ _ _ (ws_gap g s n Hg Hs)). auto.
Qed.
Ltac each_infix Hx := unfold infixes in Hx; cbn [In] in Hx; repeat (destruct Hx as [<-|Hx]); try contradiction.
Lemma entry_op lhs x mn g op_ w l n c r : gap g -> In c [32; 9; 10]%N -> binary_text op_ = Some (w, l) -> In x infixes ->
  fst (snd x) <> w -> entry mn lhs x (n, g ++ w ++ c :: r) = PFail.
Proof.
  intros Hg Hc Hb Hx Hne. apply entry_ws; auto; [eapply op_clear; eauto|]. intros n' _.
  ops op_; injection Hb as <- <-; each_infix Hx; cbn [fst snd] in *; try (exfalso; apply Hne; reflexivity);
    try reflexivity; each Hc; reflexivity.
Qed.
Lemma entry_colon lhs x mn g n c r : gap g -> In c [32; 9; 10]%N -> In x infixes ->
  fst (snd x) <> str ":" -> entry mn lhs x (n, g ++ str ":" ++ c :: r) = PFail.
Proof.
  intros Hg Hc Hx Hne. apply entry_ws; auto; [apply colon_clear|]. intros n' _.
  each_infix Hx; cbn [fst snd] in *; try (exfalso; apply Hne; reflexivity); reflexivity.
Qed.
Definition infix_char (c : N) : Prop := In c (str ":&|=!><^~.+-*/%").
Lemma entry_other lhs x mn g n c r : gap g -> solid c -> ~ infix_char c -> In x infixes -> entry mn lhs x (n, g ++ c :: r) = PFail.
Proof.
  intros Hg Hc Hn Hx. apply entry_ws; auto; [apply clear_solid; auto|]. intros n' _. apply pbind_f.
  unfold infix_char in Hn. cbn [In str] in Hn.
  each_infix Hx; cbn [fst snd]; unfold str; cbn [String.append]; apply plit_ne; apply N.eqb_neq; intros E; apply Hn; rewrite <- E; cbn; tauto.
Qed.
Lemma entry_end lhs x mn g n : gap g -> In x infixes -> entry mn lhs x (n, g ++ []) = PFail.
Proof.
  intros Hg Hx. apply entry_ws; auto; [apply clear_nil|]. intros n' _. each_infix Hx; reflexivity.
Qed.
Lemma entry_low mn m lhs x g op_ w l n c r : agree mn m -> gap g -> In c [32; 9; 10]%N -> binary_text op_ = Some (w, l) -> l < m ->
  In x infixes -> entry mn lhs x (n, g ++ w ++ c :: r) = PFail.
Proof.
  intros Ha Hg Hc Hb Hl Hx. destruct (list_eq_dec N.eq_dec (fst (snd x)) w) as [E|E]; [|eapply entry_op; eauto].
  apply entry_ws; auto; [eapply op_clear; eauto|]. intros n' Hm. exfalso.
  ops op_; injection Hb as <- <-; each_infix Hx; cbn [fst snd] in *; try discriminate E;
    match type of Hl with ?j < _ => specialize (Ha j ltac:(lia)) end; cbn [Nat.add] in Ha;
    apply Nat.leb_le in Hm; rewrite Hm in Ha; symmetry in Ha; apply Nat.leb_le in Ha; lia.
Qed.
Lemma entry_range mn m lhs x g n c r : agree mn m -> gap g -> In c [32; 9; 10]%N -> 0 < m ->
  In x infixes -> entry mn lhs x (n, g ++ str ":" ++ c :: r) = PFail.
Proof.
  intros Ha Hg Hc Hl Hx. destruct (list_eq_dec N.eq_dec (fst (snd x)) (str ":")) as [E|E]; [|eapply entry_colon; eauto].
  apply entry_ws; auto; [apply colon_clear|]. intros n' Hm. exfalso.
  each_infix Hx; cbn [fst snd] in *; try discriminate E. specialize (Ha 0 ltac:(lia)). cbn [Nat.add] in Ha.
  apply Nat.leb_le in Hm; rewrite Hm in Ha; symmetry in Ha; apply Nat.leb_le in Ha; lia.
Qed.

(** Blanks before a bracket, a part of the white space. *)
Lemma blanks_off g : gap g -> forall s n, match s with c :: _ => is_simple_ws c = false | [] => True end -> exists n' g', gap g' /\ ws0 (n, g ++ s) = PMatch tt (n', g' ++ s) /\
  match g' with c :: _ => is_simple_ws c = false /\ gap_char c | [] => True end.
Proof.
  induction 1 as [|c g Hc Hg IH|e g He Hg IH|e g He Hg IH|t e g Ht He Hg IH]; intros s n Hs.
  - exists (n + 0), []. split; [constructor|]. split; [|exact Logic.I].
    pose proof (prun_app is_simple_ws [] s n ltac:(constructor) ltac:(destruct s; auto)) as E. cbn [app] in E |- *.
    unfold ws0, pbind. rewrite E. reflexivity.
  - destruct (IH s (n + N.to_nat (utf8_len c)) Hs) as (n' & g' & Hg' & E & Hf). exists n', g'. split; auto. split; auto.
    unfold ws0, pbind, prun in E |- *. cbn [snd app fst prun_go] in E |- *. rewrite (blank_is c Hc).
    destruct (prun_go is_simple_ws (n + N.to_nat (utf8_len c)) (g ++ s)). exact E.
  - exists n, (e ++ g). split; [apply ga_line; auto|]. destruct He; (split; [reflexivity|split; [reflexivity|cbn; tauto]]).
  - exists n, (92%N :: e ++ g). split; [apply ga_continued; auto|]. split; [reflexivity|split; [reflexivity|cbn; tauto]].
  - exists n, (str "//" ++ t ++ e ++ g). split; [apply ga_comment; auto|]. split; [reflexivity|split; [reflexivity|cbn; tauto]].
Qed.
(** No call and no index. *)
Lemma no_brackets lhs g s n : gap g -> clear s ->
  match s with c :: _ => is_simple_ws c = false /\ c <> 40%N /\ c <> 91%N | [] => True end ->
  Forall (fun p : P node => p (n, g ++ s) = PFail) (brackets lhs).
Proof.
  intros Hg Hc Hs. constructor; [|constructor; [|constructor]].
  - destruct (blanks_off g Hg s n ltac:(destruct s; tauto)) as (n' & g' & Hg' & E & Hf). rewrite (pbind_m _ _ _ _ _ E).
    apply pbind_f. unfold args_. apply pbind_f. destruct g' as [|d g']; cbn [app].
    + destruct s as [|c s]; [reflexivity|]. apply plit_ne, N.eqb_neq. intros <-. tauto.
    + apply plit_ne, N.eqb_neq. intros <-. destruct Hf as [_ Hf]. cbn in Hf. decompose [or] Hf; try discriminate; contradiction.
  - rewrite (pbind_m _ _ _ _ _ (ws_gap g s n Hg Hc)).
    destruct s as [|c s]; [reflexivity|]. apply pbind_f, plit_ne. apply N.eqb_neq. intros <-. tauto.
Qed.
Lemma quiet_plain c : quiet c -> is_simple_ws c = false /\ c <> 40%N /\ c <> 91%N.
Proof.
  intros H. split; [apply (quiet_solid c H)|]. destruct H as [H|[H|H]]; [unfold letter in H; lia|unfold digit_c in H; lia|].
  each H; split; discriminate.
Qed.
Lemma quiet_infix c : quiet c -> ~ infix_char c.
Proof.
  intros H Hi. destruct H as [H|[H|H]].
  - unfold letter in H. each Hi; lia.
  - unfold digit_c in H. each Hi; lia.
  - each H; cbn in Hi; decompose [or] Hi; try discriminate; contradiction.
Qed.
Lemma posts_stop mn m lhs n g s : agree mn m -> gap g -> ends m s -> pfirst (posts cl mn lhs) (n, g ++ s) = PFail.
Proof.
  intros Ha Hg He. rewrite posts_eq. apply first_fail. apply Forall_app.
  assert (M : forall s, (forall x, In x infixes -> entry mn lhs x (n, g ++ s) = PFail) ->
              Forall (fun p : P node => p (n, g ++ s) = PFail) (map (entry mn lhs) infixes)).
  { intros u H. apply Forall_forall. intros p Hp. apply in_map_iff in Hp as (x & <- & Hx). apply H; auto. }
  split.
  - apply M. intros x Hx. destruct He as [|c r Hc _|op_ w l c r Hb Hl Hc|c r Hm Hc].
    + apply entry_end; auto.
    + apply entry_other; auto; [apply quiet_solid; auto|apply quiet_infix; auto].
    + eapply entry_low; eauto.
    + eapply entry_range; eauto.
  - apply no_brackets; auto; [eapply ends_clear; eauto|].
    destruct He as [|c r Hc _|op_ w l c r Hb Hl Hc|c r Hm Hc]; auto.
    + apply quiet_plain; auto.
    + ops op_; injection Hb as <- <-; repeat split; reflexivity || discriminate.
    + repeat split; reflexivity || discriminate.
Qed.
Lemma entries_open lhs mn n s : opens s -> Forall (fun p : P node => p (n, s) = PFail) (map (entry mn lhs) infixes).
Proof.
  intros Ho. apply Forall_forall. intros p Hp. apply in_map_iff in Hp as (x & <- & Hx).
  destruct s as [|c s]; [contradiction|].
  apply (entry_other lhs x mn [] n c s); [constructor| | |auto]; destruct Ho as [->| ->];
    try (repeat split; discriminate || reflexivity); intros Hi; cbn in Hi; decompose [or] Hi; try discriminate; contradiction.
Qed.

(** An operator that may follow. *)
Lemma posts_op mn lhs n g o_ w l g' s : gap g -> spaced g' -> clear s ->
  binary_text o_ = Some (w, l) -> mn <= l + 8 ->
  forall y i, cl (S (l + 8)) (n + bytes_in g + bytes_in w + bytes_in g', s) = PMatch y i ->
    pfirst (posts cl mn lhs) (n, g ++ w ++ g' ++ s) = PMatch (NBinary o_ lhs y) i.
Proof.
  intros Hg Hg' Hs Hb Hm.
  assert (S : exists l1 l2, infixes = l1 ++ (l + 8, (w, Some o_)) :: l2 /\ Forall (fun x => fst (snd x) <> w) l1).
  { ops o_; injection Hb as <- <-; unfold infixes; cbn [Nat.add].
    all: let rec go i := first [ exists (firstn i infixes); eexists; split; [reflexivity|repeat constructor; discriminate] | go (S i) ] in go 1. }
  destruct S as (l1 & l2 & E & Hl1).
  assert (Hin : forall x, In x l1 -> In x infixes) by (intros x Hx; rewrite E; apply in_or_app; auto).
  assert (Gg : gap g').
  { destruct Hg' as (c & r & -> & Hc & Hr). cbn in Hc. destruct Hc as [<-|[<-|[<-|[]]]].
    - apply ga_blank; auto. cbn; tauto.
    - apply ga_blank; auto. cbn; tauto.
    - apply (ga_line [10%N]); auto. constructor. }
  intros y i Hy. rewrite posts_eq, E, map_app, <- app_assoc.
  destruct Hg' as (c & r & -> & Hc & Hr). cbn [app] in *.
  rewrite first_app.
  2: { apply Forall_forall. intros p Hp. apply in_map_iff in Hp as (x & <- & Hx).
       eapply entry_op; eauto. rewrite Forall_forall in Hl1. apply Hl1; auto. }
  cbn [map app]. apply pfirst_hit. unfold entry. cbn [fst snd].
  destruct (Nat.leb_spec mn (l + 8)); [|lia].
  rewrite (pbind_m _ _ _ _ _ (ws_gap g _ n Hg (op_clear _ _ _ _ _ Hb Hc))).
  rewrite (pbind_m _ _ _ _ _ (plit_is w _ _)).
  change (c :: r ++ s) with ((c :: r) ++ s). rewrite (pbind_m _ _ _ _ _ (ws_gap (c :: r) s _ Gg Hs)).
  rewrite (pbind_m _ _ _ _ _ Hy). reflexivity.
Qed.
Lemma spaced_gap g' : spaced g' -> gap g'.
Proof.
  intros (c & r & -> & Hc & Hr). cbn in Hc. destruct Hc as [<-|[<-|[<-|[]]]].
  - apply ga_blank; auto. cbn; tauto.
  - apply ga_blank; auto. cbn; tauto.
  - apply (ga_line [10%N]); auto. constructor.
Qed.
Lemma posts_range mn lhs n g g' s : gap g -> spaced g' -> clear s -> mn <= 8 ->
  forall y i, cl 9 (n + bytes_in g + bytes_in (str ":") + bytes_in g', s) = PMatch y i ->
    pfirst (posts cl mn lhs) (n, g ++ str ":" ++ g' ++ s) = PMatch (NRange lhs y) i.
Proof.
  intros Hg Hg' Hs Hm. intros y i Hy. rewrite posts_eq.
  unfold infixes. cbn [map app]. apply pfirst_hit. unfold entry. cbn [fst snd].
  destruct (Nat.leb_spec mn 8); [|lia].
  rewrite (pbind_m _ _ _ _ _ (ws_gap g _ n Hg (colon_clear _))).
  rewrite (pbind_m _ _ _ _ _ (plit_is (str ":") _ _)).
  rewrite (pbind_m _ _ _ _ _ (ws_gap g' s _ (spaced_gap _ Hg') Hs)).
  rewrite (pbind_m _ _ _ _ _ Hy). reflexivity.
Qed.
End Posts.
