(** All trees of a program are one tree up to positions (C87). *)
From Verif Require Import Base Float Ast SpecArith SpecParse SpecExpr SpecProg ProofProg12 SpecLayout ProofLayout.

Lemma named_same xs ns ns' : named xs ns -> named xs ns' -> map bare_name ns = map bare_name ns'.
Proof.
  unfold named. revert ns ns'. induction xs as [|x xs IH]; intros [|n ns] [|n' ns'] H H'; try discriminate; auto. cbn in *.
  injection H as <- H. injection H' as H1 H'. unfold bare_name at 1 3. rewrite H1. f_equal. apply IH; auto.
Qed.
Definition bares (l : list nodeS) : list nodeS := map (fun e => (bare (fst e), default_span)) l.
Definition bare_cases (cs : list (nodeS * list nodeS)) : list (nodeS * list nodeS) :=
  map (fun c => ((bare (fst (fst c)), default_span), bares (snd c))) cs.
Lemma combined_same x n n' o v v' : bare n = bare n' -> combined x n o v -> combined x n' o v' -> bare v = bare v'.
Proof.
  intros HB HC HC'. inversion HC; subst; inversion HC'; subst; auto. cbn [bare fst]. congruence.
Qed.
Lemma no_value_expr e n : tree_of e n -> no_value n -> False.
Proof. intros H. inversion H; subst; cbn; auto. Qed.
Definition P1 (e : phrase) (n : node) := forall n', tree_of e n' -> bare n = bare n'.
Definition P2 (l : list phrase) (nl : list nodeS) := forall nl', trees_of l nl' -> bares nl = bares nl'.
Definition P3 (cs : list (list phrase * list line)) ncs := forall ncs', cases_tree cs ncs' -> bare_cases ncs = bare_cases ncs'.
Definition P4 (s : line) (n : node) := forall n', line_tree s n' -> bare n = bare n'.
Definition P5 (f : bool) (l : list line) (nl : list nodeS) := forall nl', body_tree f l nl' -> bares nl = bares nl'.
Lemma cases_one nvs nvs' (nb nb' : list nodeS) : bares nvs = bares nvs' -> bares nb = bares nb' ->
  bare_cases (map (fun v => (v, nb)) nvs) = bare_cases (map (fun v => (v, nb')) nvs').
Proof.
  intros HV HB. unfold bare_cases. rewrite !map_map. cbn [fst snd]. rewrite HB. revert nvs' HV. induction nvs as [|v nvs IH]; intros [|v' nvs'] HV; try discriminate; auto.
  cbn in *. injection HV as H1 H2. rewrite H1. f_equal. apply IH. exact H2.
Qed.
Lemma bares_one n n' sp sp' nl nl' : bare n = bare n' -> bares nl = bares nl' -> bares ((n, sp) :: nl) = bares ((n', sp') :: nl').
Proof. unfold bares. cbn. intros -> ->. reflexivity. Qed.
Ltac use_ih := repeat match goal with
  | IH : forall n', tree_of ?e n' -> _ = bare n', H : tree_of ?e _ |- _ => rewrite (IH _ H); clear IH
  | IH : forall n', trees_of ?e n' -> bares ?l = bares n', H : trees_of ?e _ |- _ => change (map (fun e : nodeS => (bare (fst e), default_span)) l) with (bares l); rewrite (IH _ H); clear IH
  | IH : forall n', cases_tree ?e n' -> bare_cases ?l = bare_cases n', H : cases_tree ?e _ |- _ => fold (bares) in *; change (map (fun c : nodeS * list nodeS => ((bare (fst (fst c)), default_span), map (fun e : nodeS => (bare (fst e), default_span)) (snd c))) l) with (bare_cases l); rewrite (IH _ H); clear IH
  | IH : forall n', line_tree ?e n' -> _ = bare n', H : line_tree ?e _ |- _ => rewrite (IH _ H); clear IH
  | IH : forall n', body_tree ?f ?e n' -> bares ?l = bares n', H : body_tree ?f ?e _ |- _ => change (map (fun e : nodeS => (bare (fst e), default_span)) l) with (bares l); rewrite (IH _ H); clear IH
  | H : named ?xs ?ns, H' : named ?xs ?ns' |- _ => rewrite (named_same _ _ _ H H'); clear H
  end.
Ltac mins := unfold P1, P2, P3, P4, P5; intros;
  match goal with
  | H : tree_of _ ?n |- bare _ = bare ?n => inversion H; subst
  | H : line_tree _ ?n |- bare _ = bare ?n => inversion H; subst
  | H : trees_of _ ?n |- bares _ = bares ?n => inversion H; subst
  | H : body_tree _ _ ?n |- bares _ = bares ?n => inversion H; subst
  | H : cases_tree _ ?n |- bare_cases _ = bare_cases ?n => inversion H; subst
  end; cbn [bare bare_var fst option_map length] in *; try lia; use_ih; try reflexivity.
Lemma body_same f l nl : body_tree f l nl -> P5 f l nl.
Proof.
  apply (bt_min P1 P2 P3 P4 P5); mins.
  - match goal with Ha : combined x n o _, Hb : combined x n0 o _ |- _ => rewrite (combined_same _ _ _ _ _ _ (H0 _ H7) Ha Hb) end. reflexivity.
  - destruct n, n0. apply bares_one; cbn [fst] in *; auto.
  - unfold bare_cases in *. rewrite !map_app. f_equal; auto. apply cases_one; auto.
  - match goal with Ha : combined x n o _, Hb : combined x n0 o _ |- _ => rewrite (combined_same _ _ _ _ _ _ (H0 _ H7) Ha Hb) end. reflexivity.
  - apply bares_one; auto. destruct f0; cbn [bare option_map fst]; auto. do 3 f_equal. auto.
  - exfalso. match goal with Ha : line_tree (SValue _) _ |- _ => inversion Ha; subst end. eapply no_value_expr; eauto.
  - destruct n, n0. apply bares_one; cbn [fst] in *; auto.
  - exfalso. match goal with Ha : line_tree (SReturn _) n0 |- _ => inversion Ha; subst; cbn in *; contradiction end.
  - exfalso. match goal with Ha : line_tree (SValue _) _ |- _ => inversion Ha; subst end. eapply no_value_expr; eauto.
  - exfalso. match goal with Ha : line_tree (SReturn _) n |- _ => inversion Ha; subst; cbn in *; contradiction end.
  - apply bares_one; auto.
  - destruct n, n0. apply bares_one; cbn [fst] in *; auto.
Qed.
Theorem program_trees f l nl nl' : body_tree f l nl -> body_tree f l nl' -> same_trees nl nl'.
Proof. intros H H'. apply two_same_trees, ones. exact (body_same f l nl H nl' H'). Qed.
