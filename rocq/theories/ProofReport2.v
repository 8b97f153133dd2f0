(** What tracebacks say (C89). *)
From Verif Require Import Base Float NumText Value Ast Arith VmOps Args Builtins Compiler Vm Report Lines SpecLines ProofLines SpecReport ProofReport.

Lemma breaks_app a b : breaks (a ++ b) = breaks a + breaks b.
Proof. unfold breaks. rewrite filter_app, app_length. reflexivity. Qed.
Lemma breaks_other c s : c <> 10%N -> breaks (c :: s) = breaks s.
Proof. intros H. unfold breaks. cbn [filter]. destruct (N.eqb_spec 10 c); [congruence|reflexivity]. Qed.
Lemma drop_while_split (p : N -> bool) s : exists a, s = a ++ trim_start p s /\ Forall (fun c => p c = true) a /\
  match trim_start p s with c :: _ => p c = false | [] => True end.
Proof.
  unfold trim_start. induction s as [|c s (a & E & H1 & H2)]; [exists []; repeat split; constructor|]. cbn [drop_while].
  destruct (p c) eqn:EP.
  - exists (c :: a). split; [cbn; congruence|]. split; [constructor; auto|exact H2].
  - exists []. split; [reflexivity|]. split; [constructor|exact EP].
Qed.
(** The line around a position. *)
Lemma line_around before rest : rest <> [] -> exists t, is_line (before ++ rest) (breaks before) t.
Proof.
  intros HR.
  assert (F : exists a u, before = a ++ u /\ (a = [] \/ exists a', a = a' ++ [10%N]) /\ breaks u = 0).
  { clear HR. induction before as [|c s (a & u & E & H1 & H2)] using rev_ind; [exists [], []; auto|].
    destruct (N.eq_dec c 10) as [->|Hc].
    - exists (s ++ [10%N]), []. split; [now rewrite app_nil_r|]. split; [right; eauto|reflexivity].
    - exists a, (u ++ [c]). split; [rewrite E, <- app_assoc; reflexivity|]. split; [exact H1|]. rewrite breaks_app, H2.
      rewrite breaks_other by exact Hc. reflexivity. }
  assert (G : exists v b, rest = v ++ b /\ breaks v = 0 /\ (b = [] \/ exists b', b = 10%N :: b')).
  { clear HR. induction rest as [|c s (v & b & E & H1 & H2)]; [exists [], []; auto|].
    destruct (N.eq_dec c 10) as [->|Hc].
    - exists [], (10%N :: s). split; [reflexivity|]. split; [reflexivity|right; eauto].
    - exists (c :: v), b. split; [rewrite E; reflexivity|]. split; [|exact H2]. rewrite breaks_other by exact Hc. exact H1. }
  destruct F as (a & u & -> & Ha & Hu), G as (v & b & -> & Hv & Hb). exists (u ++ v), a, b.
  split; [rewrite <- !app_assoc; reflexivity|]. split; [rewrite breaks_app; lia|]. split; [exact Ha|].
  split; [rewrite breaks_app; lia|]. split; [exact Hb|]. intros E. apply HR. rewrite <- app_assoc in E. apply app_eq_nil in E. apply E.
Qed.

Theorem entry_shows ol nl ws c src f sp L :
  line_table ol -> line_lister ws nl -> nth_error c (sp_src sp) = Some src -> ascii (src_text src) -> only_lf (src_text src) ->
  line_at (src_text src) (sp_start sp) L -> starts_with_dots f = false ->
  exists t shown, is_line (src_text src) (pred L) t /\ indented ws t shown /\
    trace_entry ol nl ws c (TFrame f sp) = call_text (src_name src) (pred L) f shown.
Proof.
  intros [T _] HN Hc Ha Hl (before & (ch & rest & E & Hb) & ->) Hf.
  assert (Hb' : length before = sp_start sp) by (rewrite <- Hb; symmetry; apply slen_ascii; rewrite E in Ha; apply Forall_app in Ha; tauto).
  destruct (line_around before (ch :: rest)) as (t & Ht); [discriminate|]. rewrite <- E in Ht.
  destruct (HN _ _ _ Hl Ht) as (u & r & Hu & -> & Hr).
  destruct (drop_while_split ws u) as (a & Eu & H1 & H2).
  exists (u ++ r), (trim_start ws u). split; [exact Ht|]. split.
  { exists a, r. split; [rewrite app_assoc, <- Eu; reflexivity|auto]. }
  cbn [trace_entry]. rewrite Hf, Hc. destruct (src_text src) as [|x y] eqn:ES; [destruct before; discriminate|].
  rewrite T; [|exact Hl|rewrite E, app_length; cbn; lia].
  assert (EB : firstn (sp_start sp) (x :: y) = before) by (rewrite E, <- Hb', firstn_app, Nat.sub_diag, firstn_all, firstn_O, app_nil_r; reflexivity).
  rewrite EB, Hu. reflexivity.
Qed.

(** Names of functions do not start with dots. *)
Lemma trace_is ol nl ws c t : trace_text ol nl ws c t = str "Traceback (most recent call last):" ++ [10%N] ++ flat_map (trace_entry ol nl ws c) (rev t).
Proof. reflexivity. Qed.

(** Lines that meet the assumption. *)
Fixpoint simple_lines (s : rstring) : list rstring :=
  match s with
  | [] => [[]]
  | c :: t => if (c =? 10)%N then [] :: simple_lines t else match simple_lines t with l :: r => (c :: l) :: r | [] => [[c]] end
  end.
Definition simple_line (s : rstring) (k : nat) : option rstring := nth_error (simple_lines s) k.
Lemma simple_lines_first t b : breaks t = 0 -> (b = [] \/ exists b', b = 10%N :: b') -> exists r, simple_lines (t ++ b) = t :: r.
Proof.
  induction t as [|c t IH]; intros H HB.
  - destruct HB as [->|(b' & ->)]; cbn; eauto.
  - cbn [app simple_lines]. unfold breaks in H. cbn [filter] in H. rewrite N.eqb_sym in H. destruct (c =? 10)%N; [discriminate|].
    destruct (IH H HB) as (r & ->). eauto.
Qed.
Lemma simple_lines_skip a s : (a = [] \/ exists a', a = a' ++ [10%N]) -> nth_error (simple_lines (a ++ s)) (breaks a) = nth_error (simple_lines s) 0.
Proof.
  revert s. induction a as [|c a IH]; intros s H; [reflexivity|].
  destruct H as [H|(a' & E)]; [discriminate|].
  assert (HA : a = [] \/ exists a', a = a' ++ [10%N]).
  { destruct a' as [|d a']; [injection E as _ ->; auto|injection E as _ ->; right; eauto]. }
  cbn [app simple_lines]. destruct (N.eqb_spec c 10) as [->|Hc].
  - change (breaks (10%N :: a)) with (S (breaks a)). cbn [nth_error]. apply IH. exact HA.
  - rewrite (breaks_other c a Hc). destruct a as [|d a]; [exfalso; destruct a' as [|? [|]]; try discriminate; injection E as E; congruence|].
    specialize (IH s HA).
    assert (HB : exists n, breaks (d :: a) = S n).
    { destruct HA as [?|(a2 & ->)]; [discriminate|]. rewrite breaks_app. exists (breaks a2). cbn. lia. }
    destruct HB as (n & HB). rewrite HB in IH |- *. destruct (simple_lines ((d :: a) ++ s)) as [|l r].
    + cbn in IH |- *. destruct n; exact IH.
    + exact IH.
Qed.
Lemma simple_line_ok ws : line_lister ws simple_line.
Proof.
  intros s k t _ (a & b & -> & <- & Ha & Ht & Hb & _). exists t, []. split; [|split; [now rewrite app_nil_r|constructor]].
  unfold simple_line. rewrite simple_lines_skip by exact Ha. destruct (simple_lines_first t b Ht Hb) as (r & ->). reflexivity.
Qed.
Lemma entry_line_wrong ol nl ws c src f sp L :
  line_table ol -> line_lister ws nl -> nth_error c (sp_src sp) = Some src -> ascii (src_text src) -> only_lf (src_text src) ->
  line_at (src_text src) (sp_start sp) L -> starts_with_dots f = false ->
  forall shown, trace_entry ol nl ws c (TFrame f sp) <> call_text (src_name src) L f shown.
Proof.
  intros H1 H2 H3 H4 H5 H6 H7 shown E. destruct (entry_shows ol nl ws c src f sp L H1 H2 H3 H4 H5 H6 H7) as (t & sh & _ & _ & E').
  rewrite E' in E. unfold call_text in E. repeat apply app_inv_head in E.
  change (str ", in ") with (44%N :: str " in ") in E. cbn [app] in E.
  apply cut_first in E as [E _]; [|apply int_not_in; lia|apply int_not_in; lia]. apply int_text_inj in E.
  destruct H6 as (b & _ & ->). cbn in E. lia.
Qed.
