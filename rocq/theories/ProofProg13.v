(** Texts of programs: whole programs. *)
From Verif Require Import Base Float NumText Ast Parse SpecArith SpecParse SpecExpr SpecProg ProofParse ProofParse2 ProofParse3 ProofParse4 ProofExpr ProofProg ProofProg2 ProofProg3 ProofProg4 ProofProg5 ProofProg6 ProofProg7 ProofProg8 ProofProg9 ProofProg10 ProofProg11 ProofProg12.

Section Whole.
Context (o : oracle) (id : nat).
Notation C := (climb o id).
Notation sep := (plit (str ";") <|> ws_).
Lemma M_ws_end g n : gap g -> M (fun _ => ws_) (n, g) tt (n + bytes_in g, []).
Proof. intros H. pose proof (M_ws g [] n H clear_nil) as E. rewrite app_nil_r in E. exact E. Qed.
Ltac go p tac := eapply (M_bind p); [tac|].
Lemma M_program b t : spelled_body (o_f64_parse o) b t -> exists nb n, body_tree false b nb /\ M (fun k => r_code o id k) (0, t) nb (n, []).
Proof.
  intros [g Hg|g l u Hg Hl].
  - eexists _, _. split; [apply (bt_empty false (mkSpan (0 + bytes_in g) (0 + bytes_in g) id))|]. unfold r_code.
    go (fun _ : nat => ws_) ltac:(apply M_ws_end; auto).
    go (fun _ : nat => ppos) ltac:(apply M_pos).
    go (fun k => popt (psep (C k 0) sep)) ltac:(apply M_some, M_none_code; exact Logic.I).
    go (fun _ : nat => ppos) ltac:(apply M_pos). go (fun _ : nat => ws_) ltac:(apply M_ws0, clear_nil). apply M_ret.
  - destruct (M_code o id l u [] (0 + bytes_in g)) as (nl & n' & g' & TT & Hg' & HM); [apply all_programs; auto|exact Logic.I|].
    rewrite !app_nil_r in HM. 
    eexists _, _. split; [apply (lines_body false l nl (mkSpan (0 + bytes_in g) n' id)); auto; destruct Hl; discriminate|]. unfold r_code.
    go (fun _ : nat => ws_) ltac:(apply M_ws; [auto|rewrite <- (app_nil_r u); eapply lines_start; eauto]).
    go (fun _ : nat => ppos) ltac:(apply M_pos).
    go (fun k => popt (psep (C k 0) sep)) ltac:(apply M_some, HM).
    go (fun _ : nat => ppos) ltac:(apply M_pos).
    go (fun _ : nat => ws_) ltac:(apply M_ws_end; auto). apply M_ret.
Qed.
Theorem program_reads b t fuel : spelled_body (o_f64_parse o) b t -> S (length t) < fuel ->
  exists nb i, parse_code o fuel t id = PMatch nb i /\ body_tree false b nb.
Proof.
  intros Hb Hf. destruct (M_program b t Hb) as (nb & n & T & [k0 HM]). exists nb, (n, []). split; auto.
  pose proof (parse_code_ends o fuel t id Hf) as HE.
  rewrite <- (parse_code_more o fuel (max k0 fuel) t id ltac:(lia) HE).
  unfold parse_code, whole. rw (HM (max k0 fuel) ltac:(lia)). reflexivity.
Qed.
End Whole.
Theorem program_one o b b' t : spelled_body (o_f64_parse o) b t -> spelled_body (o_f64_parse o) b' t ->
  exists nb, body_tree false b nb /\ body_tree false b' nb.
Proof.
  intros H H'. destruct (program_reads o 0 b t (S (S (length t))) H ltac:(lia)) as (nb & i & E & T).
  destruct (program_reads o 0 b' t (S (S (length t))) H' ltac:(lia)) as (nb' & i' & E' & T'). exists nb. split; auto. congruence.
Qed.
