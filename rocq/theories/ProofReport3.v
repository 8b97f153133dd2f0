(** The messages of errors, word by word (C90). *)
From Verif Require Import Base RleVec Float NumText SpecArith SpecBuiltins Value Ast Arith Compiler Vm Report SpecText ProofText SpecReport ProofReport.

Section Quoted.
Context (escape : N -> rstring).

Lemma debug_written n : plain n -> written_as (AName n) (debug_text escape n).
Proof using.
  intros H. cbn [written_as]. unfold debug_text. f_equal. f_equal. induction H as [|c n Hc Hn IH]; [reflexivity|].
  cbn [flat_map]. rewrite IH. f_equal. unfold debug_char.
  destruct (N.eqb_spec c 34) as [->|H1]; [reflexivity|]. destruct (N.eqb_spec c 92) as [->|H2]; [reflexivity|]. cbn [orb].
  destruct (N.leb_spec 32 c); [|lia]. destruct (N.leb_spec c 126); [reflexivity|lia].
Qed.
Lemma filled_name n words things text : plain n -> filled words things text ->
  filled (123%N :: 125%N :: words) (AName n :: things) (debug_text escape n ++ text).
Proof using. intros H. apply fl_hole, debug_written, H. Qed.
Lemma filled_number z words things text : filled words things text ->
  filled (123%N :: 125%N :: words) (ANumber z :: things) (int_text z ++ text).
Proof using. intros H. apply fl_hole; [apply integer_shown|exact H]. Qed.
Lemma filled_word w words things text : filled words things text ->
  filled (123%N :: 125%N :: words) (AWord w :: things) (w ++ text).
Proof using. intros H. apply fl_hole; [reflexivity|exact H]. Qed.
Lemma filled_same words things text text' : text = text' -> filled words things text -> filled words things text'.
Proof using. intros ->. auto. Qed.

End Quoted.
Ltac fills := cbn [app];
  first [apply fl_end | apply fl_char; [discriminate|fills] | apply filled_name; [assumption|fills] | apply filled_number; fills | apply filled_word; fills].

Section Messages.
Context (escape : N -> rstring) (duration_text : N -> rstring) (syntax_text : nat -> rstring).
Theorem texts_filled e : settled e -> filled (snd (fst (message e))) (snd (message e)) (error_text escape duration_text syntax_text e).
Proof using.
  intros H. apply (filled_same _ _ (error_text escape duration_text syntax_text e ++ [])); [apply app_nil_r|].
  destruct e; cbn [settled] in H; try contradiction; cbn [message fst snd error_text]; unfold ticked, n_text; rewrite <- ?app_assoc; fills.
Qed.
Theorem titles e : error_name e = fst (fst (message e)).
Proof using. destruct e; reflexivity. Qed.
End Messages.
