(** Two texts with one disassembly (C94). *)
From Verif Require Import Base RleVec Pool Float NumText Bytecode Chunk Value Ast Compiler Vm CodeSize Parse ProofReadyEx Lines SpecLines ProofLines Disasm SpecDisasm Listing SpecListing
  Includes Cli SpecPos SpecTold ProofArithEx ProofDisasmEx ProofListingEx ExProg.

Definition wide_text : rstring := loop_text ++ str " ".
Definition wide_ast : list nodeS := match parse_code no_oracle 100 wide_text 1 with PMatch a _ => a | _ => [] end.
Definition listing_of (c : list rstring) (ast : list nodeS) : list listing :=
  match disassemble (get_lineno simple_table c) 5 (script_of ast) with Some (Ok l) => l | _ => [] end.
Notation narrow_out := (listing_of [loop_text] loop_ast).
Notation wide_out := (listing_of [[]; wide_text] wide_ast).
Definition wide_file (k : nat) : option rstring := if k =? 1 then Some (str "a.ql") else None.
Lemma wide_parsed : exists i, parse_code no_oracle 100 wide_text 1 = PMatch wide_ast i. Proof. eexists. vm_compute. reflexivity. Qed.
Lemma wide_compiled : compile Release wide_ast = COk (script_of wide_ast). Proof. vm_compute. reflexivity. Qed.
Lemma wide_done : disassemble (get_lineno simple_table [[]; wide_text]) 5 (script_of wide_ast) = Some (Ok wide_out). Proof. vm_compute. reflexivity. Qed.
Lemma narrow_done : disassemble (get_lineno simple_table [loop_text]) 5 (script_of loop_ast) = Some (Ok narrow_out). Proof. vm_compute. reflexivity. Qed.
Lemma wide_weight : weights wide_ast <= N.to_nat 65535.
Proof. apply (Nat.le_trans _ 100); [apply Nat.leb_le; vm_compute; reflexivity|lia]. Qed.
Lemma wide_chars : ascii wide_text /\ only_lf wide_text.
Proof.
  destruct loop_chars as [H1 H2]. split; apply Forall_app; (split; [assumption|]); repeat constructor; cbn; lia.
Qed.
Lemma wide_printed : output_text no_oracle one_quoted (get_lineno simple_table [loop_text]) one_file narrow_out =
  output_text no_oracle one_quoted (get_lineno simple_table [[]; wide_text]) wide_file wide_out.
Proof. vm_compute. reflexivity. Qed.
Lemma narrow_listed : listed no_oracle simple_table [loop_text] narrow_out.
Proof.
  destruct loop_listed as ([i Hp] & Hc & _).
  exact (ld_text no_oracle simple_table [loop_text] narrow_out 100 loop_text 0 loop_ast i Release _ 5 Hp Hc loop_weight simple_ok simple_end (proj1 loop_chars) (proj2 loop_chars) loop_nonempty (eq_refl (Some loop_text)) narrow_done).
Qed.
Lemma wide_listed : listed no_oracle simple_table [[]; wide_text] wide_out.
Proof.
  destruct wide_parsed as [i Hp]. assert (wide_text <> []) as Hn by discriminate.
  exact (ld_text no_oracle simple_table [[]; wide_text] wide_out 100 wide_text 1 wide_ast i Release _ 5 Hp wide_compiled wide_weight simple_ok simple_end (proj1 wide_chars) (proj2 wide_chars) Hn (eq_refl (Some wide_text)) wide_done).
Qed.
Lemma wide_file_line k s : wide_file k = Some s -> one_line s.
Proof. unfold wide_file. destruct (k =? 1); [|discriminate]. intros [= <-] H. cbn in H. lia. Qed.
