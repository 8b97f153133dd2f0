(** Line numbers of source positions (C53).  Positions are byte offsets. *)
From Verif Require Import Base Lines SpecLines ProofLines.

(** ** C53  In a text of ASCII characters the number is that of the line. *)
Theorem C53_ascii_partial :
  forall ol c id s b e l, line_table ol -> nth_error c id = Some s -> ascii s -> only_lf s ->
  line_at s b l -> get_lineno ol c (mkSpan b e id) = Some l.
Proof. exact lineno_ascii. Qed.
Print Assumptions C53_ascii_partial.
Example C53_example : line_table simple_table /\ ascii (str "a b") /\ only_lf [97; 10; 98]%N /\
  line_at [97; 10; 98]%N 2 2 /\ get_lineno simple_table [[]; [97; 10; 98]%N] (mkSpan 2 3 1) = Some 2.
Proof.
  split; [exact simple_ok|]. split; [repeat constructor|].
  split; [repeat constructor; cbn; intuition discriminate|]. split; [|reflexivity].
  exists [97; 10]%N. split; [exists 98%N, []; split; reflexivity|reflexivity].
Qed.

(** Refuted for other texts: the number can be that of another line, or missing. *)
Theorem C53_refuted :
  exists s b e l, only_lf s /\ line_at s b l /\
  forall ol, line_table ol -> exists l', get_lineno ol [s] (mkSpan b e 0) = Some l' /\ l' <> l.
Proof.
  exists text1, 5, 6, 2. split; [repeat constructor; cbn; intuition discriminate|].
  split; [apply (lineno_wrong simple_table simple_ok)|].
  intros ol H. exists 3. split; [apply (lineno_wrong ol H)|discriminate].
Qed.
Print Assumptions C53_refuted.
Theorem C53_missing_refuted :
  exists s b e l, only_lf s /\ line_at s b l /\
  forall ol, line_table ol -> get_lineno ol [s] (mkSpan b e 0) = None.
Proof.
  exists text1, 7, 8, 3. split; [repeat constructor; cbn; intuition discriminate|].
  split; [apply (lineno_none simple_table simple_ok)|].
  intros ol H. apply (lineno_none ol H).
Qed.
Print Assumptions C53_missing_refuted.
