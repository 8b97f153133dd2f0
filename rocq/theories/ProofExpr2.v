(** Texts of expressions: what follows an operand. *)
From Verif Require Import Base Float NumText Ast Parse SpecArith SpecParse SpecExpr ProofParse ProofParse2 ProofParse3 ProofParse4 ProofExpr.

(** What may follow an operand that is wanted at level [m]: spaces and then the end, a
    closing bracket, a comma or an operator of a lower level; behind what binds tightest, an
    opening bracket. *)
Inductive follow (m : nat) : rstring -> Prop :=
| fo_end g : spaces g -> follow m (g ++ [])
| fo_close g c r : spaces g -> In c [41; 93; 44]%N -> follow m (g ++ c :: r)
| fo_op g o w l r : spaces g -> g <> [] -> binary_text o = Some (w, l) -> l < m -> follow m (g ++ w ++ 32%N :: r)
| fo_open c r : 9 < m -> In c [40; 91]%N -> follow m (c :: r).

Lemma follow_more m m' s : follow m s -> m <= m' -> follow m' s.
Proof.
  intros H Hm. destruct H.
  - apply fo_end; auto.
  - apply fo_close; auto.
  - eapply fo_op; eauto; lia.
  - apply fo_open; auto; lia.
Qed.
Lemma follow_spaces m g s : spaces g -> follow m s -> m <= 9 -> follow m (g ++ s).
Proof.
  intros Hg H Hm. destruct H as [h|h c r|h o w l r|c r]; try lia; rewrite app_assoc.
  - apply fo_end. apply Forall_app; auto.
  - apply fo_close; auto. apply Forall_app; auto.
  - eapply fo_op; eauto. apply Forall_app; auto. destruct g; cbn; auto. discriminate.
Qed.

Ltac ops o := destruct o; cbn [binary_text] in *; try discriminate.

(** Behind the spaces no white space begins. *)
Lemma clear_op o w l r : binary_text o = Some (w, l) -> clear (w ++ 32%N :: r).
Proof. intros H n. ops o; injection H as <- <-; reflexivity. Qed.
Lemma clear_close c r : In c [41; 93; 44]%N -> clear (c :: r).
Proof. intros H n. cbn in H. decompose [or] H; subst; try contradiction; reflexivity. Qed.
Lemma clear_open c r : In c [40; 91]%N -> clear (c :: r).
Proof. intros H n. cbn in H. decompose [or] H; subst; try contradiction; reflexivity. Qed.
Lemma spaces_first (P : N -> Prop) g s : spaces g -> P 32%N -> match s with c :: _ => P c | [] => True end ->
  match g ++ s with c :: _ => P c | [] => True end.
Proof. intros Hg H Hs. destruct Hg; cbn; auto. subst; auto. Qed.
(** No word, number or other operand goes on there. *)
Definition not_joined (c : N) : Prop := is_word c = false /\ c <> 46%N /\ c <> 58%N /\ c <> 35%N.
Lemma follow_first m s : follow m s -> match s with c :: _ => not_joined c | [] => True end.
Proof.
  intros [g Hg|g c r Hg Hc|g o w l r Hg Hn Hb Hl|c r Hm Hc].
  - apply (spaces_first not_joined); auto. repeat split; discriminate || reflexivity.
  - apply (spaces_first not_joined); auto; [repeat split; discriminate || reflexivity|].
    cbn in Hc. decompose [or] Hc; subst; try contradiction; repeat split; discriminate || reflexivity.
  - destruct Hg as [|d g -> Hg]; [contradiction|]. repeat split; discriminate || reflexivity.
  - cbn in Hc. decompose [or] Hc; subst; try contradiction; repeat split; discriminate || reflexivity.
Qed.
Lemma follow_breaks m s : follow m s -> breaks s.
Proof. intros H. apply follow_first in H. destruct s; [exact Logic.I|]. apply H. Qed.

(** ** Operators that may not follow *)
Definition agree (mn m : nat) : Prop := forall l, 1 <= l <= 7 -> (mn <=? l + 8) = (m <=? l).
Lemma agree_level l : l <= 8 -> agree (l + 8) l.
Proof. intros H j Hj. destruct (Nat.leb_spec (l + 8) (j + 8)), (Nat.leb_spec l j); auto; lia. Qed.
Lemma agree_0 : agree 0 0.
Proof. intros j Hj. reflexivity. Qed.
Lemma agree_17 : agree 17 8.
Proof. intros j Hj. destruct (Nat.leb_spec 17 (j + 8)), (Nat.leb_spec 8 j); auto; lia. Qed.

Section Posts.
Context (o : oracle) (id k : nat).
Notation cl := (climb o id (S (S k))).
Definition entry (mn : nat) (lhs : nodeS) (x : nat * (rstring * option op)) : P node :=
  if mn <=? fst x then
    ws_ >> plit (fst (snd x)) >> ws_ >> on y <- cl (S (fst x));
    pret (match snd (snd x) with Some f => NBinary f lhs y | None => NRange lhs y end)
  else pfail.
Lemma posts_eq mn lhs : posts cl mn lhs = map (entry mn lhs) infixes ++
  [ ws0 >> on a <- args_ cl; pret (NCall lhs a);
    ws_ >> plit (str "[") >> ws_ >> on i <- r_node cl; ws_ >> plit (str "]") >> pret (NIndexGet lhs i) ].
Proof. reflexivity. Qed.

Lemma first_fail {A} (l : list (P A)) i : Forall (fun p : P A => p i = PFail) l -> pfirst l i = PFail.
Proof. induction 1 as [|p l H Hl IH]; [reflexivity|]. rewrite pfirst_skip; auto. Qed.
Lemma first_app {A} (l l' : list (P A)) i : Forall (fun p : P A => p i = PFail) l -> pfirst (l ++ l') i = pfirst l' i.
Proof. induction 1 as [|p l H Hl IH]; [reflexivity|]. cbn [app]. rewrite pfirst_skip; auto. Qed.

Lemma entry_ws mn lhs x n n' s r : ws_ (n, s) = PMatch tt (n', r) ->
  (mn <= fst x -> (plit (fst (snd x)) >> ws_ >> on y <- cl (S (fst x));
     pret (match snd (snd x) with Some f => NBinary f lhs y | None => NRange lhs y end)) (n', r) = PFail) ->
  entry mn lhs x (n, s) = PFail.
Proof.
  intros Hw H. unfold entry. destruct (Nat.leb_spec mn (fst x)); [|reflexivity].
  rewrite (pbind_m _ _ _ _ _ Hw). auto.
Qed.
Ltac each_infix Hx := unfold infixes in Hx; cbn [In] in Hx; repeat (destruct Hx as [<-|Hx]); try contradiction.

Lemma entry_op mn lhs x g op_ w l n r : spaces g -> binary_text op_ = Some (w, l) -> In x infixes ->
  fst (snd x) <> w -> entry mn lhs x (n, g ++ w ++ 32%N :: r) = PFail.
Proof.
  intros Hg Hb Hx Hne. eapply entry_ws; [apply ws_spaces; [exact Hg|eapply clear_op; exact Hb]|]. intros _.
  ops op_; injection Hb as <- <-; each_infix Hx; cbn [fst snd] in *; try (exfalso; apply Hne; reflexivity); reflexivity.
Qed.
Lemma entry_close mn lhs x g c n r : spaces g -> In c [41; 93; 44]%N -> In x infixes ->
  entry mn lhs x (n, g ++ c :: r) = PFail.
Proof.
  intros Hg Hc Hx. eapply entry_ws; [apply ws_spaces; [exact Hg|apply clear_close; exact Hc]|]. intros _.
  cbn in Hc. decompose [or] Hc; subst; try contradiction; each_infix Hx; reflexivity.
Qed.
Lemma entry_open mn lhs x c n r : In c [40; 91]%N -> In x infixes -> entry mn lhs x (n, c :: r) = PFail.
Proof.
  intros Hc Hx. eapply entry_ws; [apply ws_clear, clear_open; exact Hc|]. intros _.
  cbn in Hc. decompose [or] Hc; subst; try contradiction; each_infix Hx; reflexivity.
Qed.
Lemma entry_end mn lhs x g n : spaces g -> In x infixes -> entry mn lhs x (n, g ++ []) = PFail.
Proof.
  intros Hg Hx. eapply entry_ws; [apply ws_spaces; [exact Hg|apply clear_nil]|]. intros _.
  each_infix Hx; reflexivity.
Qed.
Lemma entry_low mn m lhs x g op_ w l n r : agree mn m -> spaces g -> binary_text op_ = Some (w, l) -> l < m ->
  In x infixes -> entry mn lhs x (n, g ++ w ++ 32%N :: r) = PFail.
Proof.
  intros Ha Hg Hb Hl Hx. destruct (list_eq_dec N.eq_dec (fst (snd x)) w) as [E|E]; [|eapply entry_op; eauto].
  eapply entry_ws; [apply ws_spaces; [exact Hg|eapply clear_op; exact Hb]|]. intros Hm. exfalso.
  ops op_; injection Hb as <- <-; each_infix Hx; cbn [fst snd] in *; try discriminate E;
    match type of Hl with ?j < _ => specialize (Ha j ltac:(lia)) end; cbn [Nat.add] in Ha;
    apply Nat.leb_le in Hm; rewrite Hm in Ha; symmetry in Ha; apply Nat.leb_le in Ha; lia.
Qed.

Lemma simple_spaces g s : spaces g -> match s with c :: _ => is_simple_ws c = false | [] => True end ->
  forall n, exists n', ws0 (n, g ++ s) = PMatch tt (n', s).
Proof.
  intros Hg Hs n. unfold ws0. eexists. unfold pbind.
  rw (prun_app is_simple_ws g s n). reflexivity.
  - eapply Forall_impl; [|exact Hg]. intros ? ->. reflexivity.
  - destruct s; auto.
Qed.
(** No call and no index. *)
Lemma ends_post lhs g s n : spaces g -> clear s ->
  match s with c :: _ => is_simple_ws c = false /\ c <> 40%N /\ c <> 91%N | [] => True end ->
  Forall (fun p : P node => p (n, g ++ s) = PFail)
  [ ws0 >> on a <- args_ cl; pret (NCall lhs a);
    ws_ >> plit (str "[") >> ws_ >> on i <- r_node cl; ws_ >> plit (str "]") >> pret (NIndexGet lhs i) ].
Proof.
  intros Hg Hc Hs. constructor; [|constructor; [|constructor]].
  - destruct (simple_spaces g s Hg ltac:(destruct s; tauto) n) as [n' E]. rewrite (pbind_m _ _ _ _ _ E).
    destruct s as [|c s]; [reflexivity|]. apply pbind_f. unfold args_. apply pbind_f, plit_ne. apply N.eqb_neq. intros <-. tauto.
  - rewrite (pbind_m _ _ _ _ _ (ws_spaces g s n Hg Hc)).
    destruct s as [|c s]; [reflexivity|]. apply pbind_f, plit_ne. apply N.eqb_neq. intros <-. tauto.
Qed.
Lemma op_first o_ w l r : binary_text o_ = Some (w, l) ->
  match w ++ 32%N :: r with c :: _ => is_simple_ws c = false /\ c <> 40%N /\ c <> 91%N | [] => True end.
Proof. intros H. ops o_; injection H as <- <-; repeat split; reflexivity || discriminate. Qed.

Lemma posts_stop mn m lhs n s : agree mn m -> m <= 9 -> follow m s -> pfirst (posts cl mn lhs) (n, s) = PFail.
Proof.
  intros Ha Hm Hf. rewrite posts_eq. apply first_fail. apply Forall_app.
  assert (M : forall s, (forall x, In x infixes -> entry mn lhs x (n, s) = PFail) ->
              Forall (fun p : P node => p (n, s) = PFail) (map (entry mn lhs) infixes)).
  { intros u H. apply Forall_forall. intros p Hp. apply in_map_iff in Hp as (x & <- & Hx). apply H; auto. }
  destruct Hf as [g Hg|g c r Hg Hc|g o_ w l r Hg Hn Hb Hl|c r H9 Hc]; [| | |lia]; split.
  - apply M. intros x Hx. apply entry_end; auto.
  - apply ends_post; auto. apply clear_nil.
  - apply M. intros x Hx. apply entry_close; auto.
  - apply ends_post; auto. apply clear_close; auto.
    cbn in Hc. decompose [or] Hc; subst; try contradiction; repeat split; discriminate.
  - apply M. intros x Hx. eapply entry_low; eauto.
  - apply ends_post; auto. eapply clear_op; eauto. eapply op_first; eauto.
Qed.

(** An operator that may follow. *)
Lemma posts_op mn lhs n g o_ w l g' s : spaces g -> spaces g' -> g' <> [] -> clear s ->
  binary_text o_ = Some (w, l) -> mn <= l + 8 ->
  exists n', forall y i, cl (S (l + 8)) (n', s) = PMatch y i ->
    pfirst (posts cl mn lhs) (n, g ++ w ++ g' ++ s) = PMatch (NBinary o_ lhs y) i.
Proof.
  intros Hg Hg' Hn Hs Hb Hm.
  assert (S : exists l1 l2, infixes = l1 ++ (l + 8, (w, Some o_)) :: l2 /\ Forall (fun x => fst (snd x) <> w) l1).
  { ops o_; injection Hb as <- <-; unfold infixes; cbn [Nat.add];
    match goal with |- context [(?j, (?v, Some ?p))] => idtac end.
    all: first [ exists (firstn 1 infixes); eexists; split; [reflexivity|repeat constructor; discriminate]
               | exists (firstn 2 infixes); eexists; split; [reflexivity|repeat constructor; discriminate]
               | exists (firstn 3 infixes); eexists; split; [reflexivity|repeat constructor; discriminate]
               | exists (firstn 4 infixes); eexists; split; [reflexivity|repeat constructor; discriminate]
               | exists (firstn 5 infixes); eexists; split; [reflexivity|repeat constructor; discriminate]
               | exists (firstn 6 infixes); eexists; split; [reflexivity|repeat constructor; discriminate]
               | exists (firstn 7 infixes); eexists; split; [reflexivity|repeat constructor; discriminate]
               | exists (firstn 8 infixes); eexists; split; [reflexivity|repeat constructor; discriminate]
               | exists (firstn 9 infixes); eexists; split; [reflexivity|repeat constructor; discriminate]
               | exists (firstn 10 infixes); eexists; split; [reflexivity|repeat constructor; discriminate]
               | exists (firstn 11 infixes); eexists; split; [reflexivity|repeat constructor; discriminate]
               | exists (firstn 12 infixes); eexists; split; [reflexivity|repeat constructor; discriminate]
               | exists (firstn 13 infixes); eexists; split; [reflexivity|repeat constructor; discriminate]
               | exists (firstn 15 infixes); eexists; split; [reflexivity|repeat constructor; discriminate]
               | exists (firstn 16 infixes); eexists; split; [reflexivity|repeat constructor; discriminate]
               | exists (firstn 17 infixes); eexists; split; [reflexivity|repeat constructor; discriminate]
               | exists (firstn 18 infixes); eexists; split; [reflexivity|repeat constructor; discriminate]
               | exists (firstn 19 infixes); eexists; split; [reflexivity|repeat constructor; discriminate]
               | exists (firstn 20 infixes); eexists; split; [reflexivity|repeat constructor; discriminate]
               | exists (firstn 21 infixes); eexists; split; [reflexivity|repeat constructor; discriminate] ]. }
  destruct S as (l1 & l2 & E & Hl1).
  assert (Hin : forall x, In x l1 -> In x infixes) by (intros x Hx; rewrite E; apply in_or_app; auto).
  destruct Hg' as [|c g' -> Hg']; [contradiction|].
  destruct (plit_app w (n + length g) ((32%N :: g') ++ s)) as [n1 E1].
  exists (n1 + length (32%N :: g')). intros y i Hy. rewrite posts_eq, E, map_app, <- app_assoc.
  rewrite first_app.
  - cbn [map app]. apply pfirst_hit. unfold entry. cbn [fst snd].
    destruct (Nat.leb_spec mn (l + 8)); [|lia].
    rewrite (pbind_m _ _ _ _ _ (ws_spaces g (w ++ 32%N :: g' ++ s) n Hg (clear_op _ _ _ _ Hb))).
    rewrite (pbind_m _ _ _ _ _ E1).
    rewrite (pbind_m _ _ _ _ _ (ws_spaces (32%N :: g') s n1 ltac:(constructor; auto) Hs)).
    rewrite (pbind_m _ _ _ _ _ Hy). reflexivity.
  - apply Forall_forall. intros p Hp. apply in_map_iff in Hp as (x & <- & Hx). 
    change (g ++ w ++ (32%N :: g') ++ s) with (g ++ w ++ 32%N :: (g' ++ s)).
    eapply entry_op; eauto. rewrite Forall_forall in Hl1. apply Hl1; auto.
Qed.
End Posts.
