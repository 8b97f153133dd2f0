(** Witnesses for the properties of expressions. *)
From Verif Require Import Base Float Ast Parse SpecArith SpecParse SpecExpr.

Ltac name_ok := split; [vm_compute; intuition discriminate|split; [repeat constructor; vm_compute; intuition discriminate|cbn; intuition discriminate]].
Lemma a_ok k : spelled k (EName (str "a")) (str "a"). Proof. apply sp_name. name_ok. Qed.
Lemma b_ok k : spelled k (EName (str "b")) (str "b"). Proof. apply sp_name. name_ok. Qed.
Lemma two_ok k : spelled k (ENumber 2) (str "2").
Proof. apply sp_number; [|lia]. exists [2%Z]. split; [discriminate|]. split; [repeat constructor; lia|]. split; reflexivity. Qed.
Lemma sp1 : spaces (str " "). Proof. repeat constructor. Qed.
Lemma sp0 : spaces []. Proof. constructor. Qed.
Lemma some_space : str " " <> []. Proof. discriminate. Qed.

