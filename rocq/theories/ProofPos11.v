(** Errors of includes are reported in the file that includes (C92). *)
From Verif Require Import Base Float Ast Parse Includes Cli SpecPos ProofIncludes ProofPos1 ProofPos10.

Section Includes.
Context (read : rstring -> option rstring) (parse : rstring -> nat -> option (list nodeS)) (name text : rstring).
Context (Hparse : forall t id a sp, parse t id = Some a -> position_of a sp -> within t sp /\ sp_src sp = id).
Notation resolve := (resolve_includes read parse).

Definition from (l : list rstring) (x : rstring) (xs : span) : Prop := exists a b sp, source_of read name text l (sp_src xs) a /\
  exists ast, parse a (sp_src xs) = Some ast /\ In (NInclude (x, xs) b, sp) ast.
Definition all_from (l : list rstring) (ast : list nodeS) : Prop := forall x xs b sp, In (NInclude (x, xs) b, sp) ast -> from l x xs.
Lemma source_mono l l' k t : source_of read name text l k t -> source_of read name text (l ++ l') k t.
Proof using.
  intros (f & H1 & H2). exists f. split; [|exact H2]. rewrite nth_error_app1; [exact H1|]. apply nth_error_Some. congruence.
Qed.
Lemma from_mono l l' x xs : from l x xs -> from (l ++ l') x xs.
Proof using. intros (a & b & sp & H1 & H2). exists a, b, sp. split; [now apply source_mono|exact H2]. Qed.
Lemma all_mono l l' ast : all_from l ast -> all_from (l ++ l') ast.
Proof using. intros H x xs b sp Hi. eapply from_mono, H, Hi. Qed.
Lemma all_tail l n t : all_from l (n :: t) -> all_from l t.
Proof using. intros H x xs b sp Hi. eapply H. right; eauto. Qed.

Lemma resolve_grows fuel : forall ast s,
  match resolve fuel ast s with
  | IOk ast' s' => exists l, i_sources s' = i_sources s ++ l /\ forall x xs b sp, In (NInclude (x, xs) b, sp) ast' -> exists b', In (NInclude (x, xs) b', sp) ast
  | _ => True
  end.
Proof using.
  induction fuel as [|k IH]; [cbn; auto|].
  induction ast as [|[n sp] t IHt]; intros s.
  - rewrite resolve_nil. exists []. rewrite app_nil_r. split; [reflexivity|intros ? ? ? ? []].
  - destruct (is_include n) as [([x xs] & b & ->)|Hn].
    + rewrite resolve_include. destruct (i_mem x s); [exact I|]. destruct (read x) as [txt|]; [|exact I].
      destruct (parse txt _) as [a1|]; [|exact I]. pose proof (IH a1 (i_add x s)) as H1. destruct (resolve k a1 _) as [a2 s2| |]; try exact I.
      pose proof (IH a2 (i_mark x s2)) as H2. destruct (resolve k a2 _) as [a3 s3| |]; try exact I.
      specialize (IHt s3). destruct (resolve (S k) t s3) as [t' s4| |]; try exact I.
      destruct H1 as (l1 & L1 & _), H2 as (l2 & L2 & _), IHt as (l3 & L3 & K). cbn [i_add i_mark i_sources] in *.
      exists ([x] ++ l1 ++ l2 ++ l3). split; [rewrite L3, L2, L1, <- !app_assoc; reflexivity|].
      intros y ys c ysp [Hi|Hi]; [injection Hi as <- <- _ <-; eexists; now left|]. destruct (K _ _ _ _ Hi) as [b' Hb]. exists b'. now right.
    + rewrite resolve_other by auto. specialize (IHt s). destruct (resolve (S k) t s) as [t' s4| |]; try exact I.
      destruct IHt as (l & L & K). exists l. split; [exact L|].
      intros y ys c ysp [Hi|Hi]; [injection Hi as -> ->; eexists; now left|]. destruct (K _ _ _ _ Hi) as [b' Hb]. exists b'. now right.
Qed.
Lemma resolve_err fuel : forall ast s e sp s', i_sources s <> [] -> all_from (i_sources s) ast ->
  resolve fuel ast s = IErr e sp s' -> include_fails read parse name text (i_sources s') e sp.
Proof using Hparse.
  induction fuel as [|k IH]; [discriminate|].
  induction ast as [|[n nsp] t IHt]; intros s e sp s' Hs Ha E; [discriminate|].
  destruct (is_include n) as [([x xs] & b & ->)|Hn].
  - rewrite resolve_include in E. pose proof (Ha _ _ _ _ (or_introl eq_refl)) as (a & b' & asp & H1 & H2).
    destruct (i_mem x s). { injection E as <- <- <-. right. exists x. split; [now left|]. destruct H2 as (q & Hq & Hi). exists a, q, b', asp. auto. }
    destruct (read x) as [txt|] eqn:Er; [|injection E as <- <- <-; right; exists x; split; [right; auto|destruct H2 as (q & Hq & Hi); exists a, q, b', asp; auto]].
    assert (Ht : source_of read name text (i_sources (i_add x s)) (length (i_sources s)) txt).
    { exists x. cbn [i_add i_sources]. rewrite nth_error_app2, Nat.sub_diag by lia. split; [reflexivity|].
      destruct (i_sources s); [congruence|exact Er]. }
    destruct (parse txt (length (i_sources s))) as [a1|] eqn:Ep.
    2:{ injection E as <- <- <-. left. split; [reflexivity|]. exists txt. cbn [sp_src]. auto. }
    assert (A1 : all_from (i_sources (i_add x s)) a1).
    { intros y ys c ysp Hi. destruct (Hparse txt (length (i_sources s)) a1 ys Ep) as [_ Es].
      { eapply po_name; [apply oc_top; exact Hi|]. cbn. now left. }
      exists txt, c, ysp. rewrite Es. split; [exact Ht|]. exists a1. auto. }
    assert (N1 : i_sources (i_add x s) <> []) by (cbn; destruct (i_sources s); discriminate).
    pose proof (resolve_grows k a1 (i_add x s)) as G1.
    destruct (resolve k a1 (i_add x s)) as [a2 s2|e1 sp1 s1|] eqn:E1; [|injection E as <- <- <-; eapply IH; [| |exact E1]; auto|discriminate].
    destruct G1 as (l1 & L1 & K1).
    assert (A2 : all_from (i_sources (i_mark x s2)) a2).
    { intros y ys c ysp Hi. destruct (K1 _ _ _ _ Hi) as [c' Hc]. cbn [i_mark i_sources]. rewrite L1. eapply from_mono, A1, Hc. }
    assert (N2 : i_sources (i_mark x s2) <> []) by (cbn; rewrite L1; cbn; destruct (i_sources s); discriminate).
    pose proof (resolve_grows k a2 (i_mark x s2)) as G2.
    destruct (resolve k a2 (i_mark x s2)) as [a3 s3|e1 sp1 s1|] eqn:E2; [|injection E as <- <- <-; eapply IH; [| |exact E2]; auto|discriminate].
    destruct G2 as (l2 & L2 & _). cbn [i_add i_mark i_sources] in *.
    destruct (resolve (S k) t s3) as [t' s4|e1 sp1 s1|] eqn:E3; [discriminate| |discriminate]. injection E as <- <- <-.
    eapply IHt; [| |exact E3].
    + rewrite L2, L1. destruct (i_sources s); discriminate.
    + rewrite L2, L1, <- !app_assoc. apply all_mono. eapply all_tail; eauto.
  - rewrite resolve_other in E by auto. destruct (resolve (S k) t s) as [t' s4|e1 sp1 s1|] eqn:E3; [discriminate| |discriminate].
    injection E as <- <- <-. eapply IHt; [| |exact E3]; [exact Hs|]. eapply all_tail; eauto.
Qed.
Lemma includes_err fuel e sp s : parse_with_includes read parse fuel name text = IErr e sp s ->
  include_fails read parse name text (i_sources s) e sp.
Proof using Hparse.
  unfold parse_with_includes. destruct (parse text 0) as [a|] eqn:E.
  - intros H. eapply resolve_err; [| |exact H]; [discriminate|]. cbn [i_sources].
    intros y ys c ysp Hi. destruct (Hparse text 0 a ys E) as [_ Es].
    { eapply po_name; [apply oc_top; exact Hi|]. cbn. now left. }
    exists text, c, ysp. rewrite Es. split; [exists name; split; [reflexivity|split; reflexivity]|]. exists a. auto.
  - intros [= <- <- <-]. left. split; [reflexivity|]. exists text. split; [exists name; split; [reflexivity|split; reflexivity]|exact E].
Qed.
(** A position of an include's name lies in the text. *)
Lemma fails_placed l e sp : include_fails read parse name text l e sp -> e <> EUnexpectedToken 0 -> placed read name text l sp.
Proof using Hparse.
  intros [[-> _]|(x & He & t & ast & b & nsp & (f & H1 & H2) & Hp & Hi)] Hn; [congruence|]. exists f, t. split; [exact H1|]. split; [exact H2|].
  refine (proj1 (Hparse t _ ast sp Hp _)). eapply po_name; [apply oc_top; exact Hi|]. cbn. now left.
Qed.
End Includes.
