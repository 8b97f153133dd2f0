(** Examples for C97. *)
From Verif Require Import Base RleVec Pool Vecc Float NumText Bytecode Chunk Value Ast Arith VmOps Args Parse Builtins
  Compiler Vm Std Console Includes Report Repl Cli SpecPos SpecDrawn ProofArith3 ProofLines ProofConsoleEx ProofCliEx ExProg.

(** A printer that says so when it is asked for a place that is not in the texts. *)
Definition is_there (c : list source) (sp : span) : bool :=
  match nth_error c (sp_src sp) with
  | Some src => (sp_start sp <=? sp_end sp) && (sp_end sp <=? N.to_nat (slen (src_text src)))
  | None => false
  end.
Definition strict_printer : printer :=
  mkPrinter (fun c => [c]) (fun _ => []) (fun _ => str "?")
    (fun c title sp text => if is_there c sp then text ++ [10%N] else str "OUTSIDE") (p_offset_line plain_printer) (p_nth_line plain_printer).
Lemma strict_agrees : agree plain_printer strict_printer.
Proof.
  constructor; try reflexivity. intros c title sp text (src & Hn & a & b & d & Et & Es & Ee). cbn [p_draw plain_printer strict_printer].
  unfold is_there. rewrite Hn, Et, Es, Ee.
  replace (N.to_nat (slen a) <=? N.to_nat (slen (a ++ b))) with true by (symmetry; apply Nat.leb_le; rewrite slen_app; lia).
  replace (N.to_nat (slen (a ++ b)) <=? N.to_nat (slen (a ++ b ++ d))) with true by (symmetry; apply Nat.leb_le; rewrite !slen_app; lia).
  reflexivity.
Qed.
Lemma strict_outside : report strict_printer [mkSource (str "a") (str "1 / none")] (ENameUndefined (str "x")) (mkSpan 0 9 0) = str "OUTSIDE".
Proof. vm_compute. reflexivity. Qed.
(** The first line includes a file that is not there; the second one fails in a function of the
    included file. *)
Definition lib_world : world :=
  mkWorld [] (map Some [str "include ""nope"""; str "include ""lib"""; str "total(none)"]) files (fun _ => None) 0
    (fun _ => 0%N) (fun _ => fzero) 0 (fun _ => 0%N).
Definition lib_session (pr : printer) : option (list source * rstring) :=
  match rounds Release talk_host talk_oracle pr 200 3 (interactive_new Release talk_host no_feq no_fhash small lib_world) with
  | Some r => Some (n_sources r, w_out (n_world r))
  | None => None
  end.
Lemma lib_says : exists out, lib_session strict_printer = Some
  ([mkSource (str "@__exec__0") (str "include ""nope"""); mkSource (str "@__exec__1") (str "include ""lib""");
    mkSource (str "lib") lib_text; mkSource (str "@__exec__2") (str "total(none)")], out) /\
  lib_session plain_printer = lib_session strict_printer.
Proof. eexists. split; vm_compute; reflexivity. Qed.
