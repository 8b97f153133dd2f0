From Verif Require Import Base Lines SpecLines.

Lemma slen_ascii s : ascii s -> N.to_nat (slen s) = length s.
Proof.
  induction 1 as [|c s Hc Hs IH]; [reflexivity|]. change (slen (c :: s)) with (utf8_len c + slen s)%N.
  unfold utf8_len. destruct (N.ltb_spec c 128); [|lia]. cbn [length]. lia.
Qed.

Lemma lineno_ascii ol c id s b e l : line_table ol -> nth_error c id = Some s -> ascii s -> only_lf s ->
  line_at s b l -> get_lineno ol c (mkSpan b e id) = Some l.
Proof.
  intros [T _] Hc Ha Hl (before & (ch & rest & -> & Hb) & ->). unfold get_lineno. cbn [sp_src sp_start]. rewrite Hc.
  assert (Hb' : length before = b).
  { rewrite <- Hb. symmetry. apply slen_ascii. apply Forall_app in Ha. tauto. }
  destruct (before ++ ch :: rest) as [|x y] eqn:E; [destruct before; discriminate|].
  rewrite <- E in *. rewrite T; auto.
  - rewrite <- Hb'. rewrite firstn_app, Nat.sub_diag, firstn_all, firstn_O, app_nil_r. reflexivity.
  - rewrite app_length. cbn. lia.
Qed.

(** Other scripts: ["é\n1"] has its 1 at byte 3, which is the end of its three characters;
    ["éé\n1\n2"] has its 1 on line 2 at byte 5, the character 2 on line 3. *)
Definition text1 : rstring := [233; 233; 10; 49; 10; 50]%N.
Lemma lineno_wrong ol : line_table ol ->
  line_at text1 5 2 /\ get_lineno ol [text1] (mkSpan 5 6 0) = Some 3.
Proof.
  intros [T _]. split.
  - exists [233; 233; 10]%N. split; [exists 49%N, [10; 50]%N; split; reflexivity|reflexivity].
  - unfold get_lineno. cbn [sp_src sp_start nth_error text1]. rewrite T; [reflexivity| |cbn; lia].
    repeat constructor; cbn; intuition discriminate.
Qed.
Lemma lineno_none ol : line_table ol ->
  line_at text1 7 3 /\ get_lineno ol [text1] (mkSpan 7 8 0) = None.
Proof.
  intros [_ T]. split.
  - exists [233; 233; 10; 49; 10]%N. split; [exists 50%N, []; split; reflexivity|reflexivity].
  - unfold get_lineno. cbn [sp_src sp_start nth_error text1]. rewrite T; [reflexivity|cbn; lia].
Qed.

(** A table that meets the assumption. *)
Definition simple_table (s : rstring) (k : nat) : option nat :=
  if length s <? k then None else Some (breaks (firstn k s)).
Lemma simple_ok : line_table simple_table.
Proof.
  split; intros s k.
  - intros _ H. unfold simple_table. destruct (Nat.ltb_spec (length s) k); [lia|reflexivity].
  - intros H. unfold simple_table. destruct (Nat.ltb_spec (length s) k); [reflexivity|lia].
Qed.

Lemma simple_end : end_line simple_table.
Proof. intros s _ _. unfold simple_table. rewrite Nat.ltb_irrefl. discriminate. Qed.
