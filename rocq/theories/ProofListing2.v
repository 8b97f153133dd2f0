(** Printed listings: the words of a row (C94). *)
From Verif Require Import Base RleVec Pool Float NumText Bytecode Chunk Value Ast Compiler CodeSize Vm Disasm SpecDisasm Listing SpecBuiltins SpecText SpecListing ProofText ProofListing.
From Verif Require Import ProofCode.
From Verif Require ProofDisasm2.

Lemma words_dark a : forall acc s, forallb dark a = true -> words_from acc (a ++ s) = words_from (acc ++ a) s.
Proof.
  induction a as [|c a IH]; intros acc s H; cbn [app]; [now rewrite app_nil_r|]. cbn [forallb] in H. apply andb_true_iff in H as [H1 H2].
  cbn [words_from]. unfold dark in H1. apply negb_true_iff in H1. rewrite H1, IH, <- app_assoc by exact H2. reflexivity.
Qed.
Lemma words_space s : words (32%N :: s) = words s. Proof. reflexivity. Qed.
Lemma words_spaces n s : words (repeat 32%N n ++ s) = words s.
Proof. induction n as [|n IH]; [reflexivity|]. cbn [repeat app]. now rewrite words_space. Qed.
Lemma words_field k a s : forallb dark a = true -> a <> [] -> words (pad k a ++ str " " ++ s) = a :: words s.
Proof.
  intros H Hn. rewrite pad_cut. unfold words. rewrite words_dark by exact H. cbn [app words_from]. change (32 =? 32)%N with true. cbv iota.
  destruct a; [congruence|]. f_equal. apply words_spaces.
Qed.

(** ** Names *)
Lemma alookup_in {B} k (l : list (N * B)) v : alookup N.eqb k l = Some v -> In (k, v) l.
Proof.
  induction l as [|[k' v'] l IH]; [discriminate|]. cbn [alookup]. destruct (N.eqb_spec k k') as [->|]; [intros [= ->]; now left|right; auto].
Qed.
Ltac cases H := repeat (destruct H as [H|H]; [injection H as <- <-; reflexivity|]); destruct H.
Lemma plain_names b i : In (b, i) plain_ops -> op_name b = instr_name i.
Proof. intros H. cases H. Qed.
Lemma u16_names b f v : In (b, f) u16_ops -> op_name b = instr_name (f v).
Proof. intros H. cases H. Qed.
Lemma u8_names b f v : In (b, f) u8_ops -> op_name b = instr_name (f v).
Proof. intros H. cases H. Qed.
Lemma u16u8_names b f v w : In (b, f) u16u8_ops -> op_name b = instr_name (f v w).
Proof. intros H. cases H. Qed.
Lemma decode_name ops p i next b : decode ops p = Ok (i, next) -> bc_read_u8 ops p = Ok b -> op_name b = instr_name i.
Proof.
  unfold decode. intros H E. rewrite E in H. cbn [rbind] in H.
  destruct (alookup N.eqb b plain_ops) eqn:E1. { apply alookup_in in E1. injection H as <- _. now apply plain_names. }
  destruct (alookup N.eqb b u16_ops) eqn:E2; [apply alookup_in in E2; destruct (bc_read_u16 _ _); try discriminate; cbn in H; injection H as <- _; now apply u16_names|].
  destruct (alookup N.eqb b u8_ops) eqn:E3; [apply alookup_in in E3; destruct (bc_read_u8 _ (p + 1)); try discriminate; cbn in H; injection H as <- _; now apply u8_names|].
  destruct (alookup N.eqb b u16u8_ops) eqn:E4; [|discriminate]. apply alookup_in in E4.
  destruct (bc_read_u16 _ _); try discriminate. cbn [rbind] in H. destruct (bc_read_u8 _ (p + 3)); try discriminate. cbn in H. injection H as <- _; now apply u16u8_names.
Qed.
Lemma op_name_some b : op_name b <> [].
Proof.
  unfold op_name. destruct (nth_error op_names (N.to_nat b)) eqn:E; [|discriminate]. apply nth_error_In in E.
  repeat (destruct E as [<-|E]; [discriminate|]). destruct E.
Qed.

(** ** Explanations *)
Section Says.
Context (o : oracle) (quoted : rstring -> rstring) (lineno : span -> option nat) (file : nat -> option rstring).
Notation const := (constant (o_f64_text o) quoted lineno file).
Lemma place_shown sp : place lineno file sp (fn_at lineno file sp).
Proof.
  exists (dec (fn_line lineno sp)). split; [|reflexivity]. unfold fn_line, dec. destruct (lineno sp); apply integer_shown.
Qed.
Lemma items_joined l : joined (str ", ") l (items_text l).
Proof.
  assert (K : forall x l, joined (str ", ") (x :: l) (x ++ items_from false l)).
  { intros x t. revert x. induction t as [|y t IH]; intros x; cbn [items_from]; [rewrite app_nil_r; constructor|]. constructor; [discriminate|apply IH]. }
  destruct l as [|x l]; [constructor|]. unfold items_text. cbn [items_from app]. apply K.
Qed.
Lemma constants l : Forall (fun v => sound_value v -> const v (value_hint o quoted lineno file v)) l -> Forall sound_value l ->
  Forall2 const l (map (value_hint o quoted lineno file) l).
Proof. induction 1 as [|v l Hv _ IH]; intros H; inversion H; subst; cbn [map]; constructor; auto. Qed.
Lemma value_shown v : sound_value v -> const v (value_hint o quoted lineno file v).
Proof.
  induction v as [| | | | | | | |l s mx IH| |a1 a2 IH1 IH2|f] using gvalue_rect'; intros H; inversion H; subst; cbn [value_hint]; try contradiction.
  - constructor.
  - destruct b; constructor.
  - constructor. apply integer_shown.
  - constructor.
  - constructor; apply integer_shown.
  - apply ct_color; now apply byte_shown.
  - constructor.
  - constructor. apply integer_shown.
  - match goal with K : Forall sound_value l |- _ => pose proof (constants l IH K) as F end.
    destruct (Nat.leb_spec (length l) 10) as [Hl|Hl]; [eapply ct_array; [exact Hl|exact F|apply items_joined]|].
    rewrite <- app_assoc. change (str ", ..." ++ str "]") with (str ", ...]").
    rewrite <- (firstn_skipn 9 l) at 1. eapply ct_long; [rewrite firstn_length; lia|rewrite skipn_length; lia| |apply items_joined].
    clear - F. revert F. generalize (map (value_hint o quoted lineno file) l) as ts. intros ts F.
    assert (K : Forall2 const (firstn 9 l) (firstn 9 ts)); [|]. { revert ts F. generalize 9. induction l as [|x l IHl]; intros n ts F; inversion F; subst; destruct n; cbn; constructor; auto. }
    exact K.
  - constructor; auto.
  - constructor. apply place_shown.
Qed.
Lemma hint_shown off h : (forall v, h = Some (HValue v) -> sound_value v) ->
  says (o_f64_text o) quoted lineno file off h
    match h with
    | Some (HJump t) => (if off <? t then str ">> " else str "<< ") ++ dec t
    | Some h => str "(" ++ hint_text o quoted lineno file h ++ str ")"
    | None => []
    end.
Proof.
  intros H. destruct h as [h|]; [|constructor]. destruct h; cbn [hint_text].
  - destruct (Nat.ltb_spec off target); constructor; auto; apply integer_shown.
  - constructor.
  - constructor. apply value_shown. auto.
  - rewrite <- !app_assoc. exact (sy_closure _ _ _ _ off f _ _ (place_shown _) (integer_shown _)).
  - rewrite <- !app_assoc. apply sy_builtin.
  - constructor.
  - constructor.
Qed.
Lemma row_tells last r i ops next : decode ops (ln_offset r) = Ok (i, next) -> bc_read_u8 ops (ln_offset r) = Ok (ln_opcode r) ->
  (forall v, ln_hint r = Some (HValue v) -> sound_value v) ->
  tells (o_f64_text o) quoted lineno file last r i (words (row_text o quoted lineno file last r)).
Proof.
  intros Hd Hb Hs. set (h := match ln_hint r with Some (HJump t) => (if ln_offset r <? t then str ">> " else str "<< ") ++ dec t
    | Some h => str "(" ++ hint_text o quoted lineno file h ++ str ")" | None => [] end).
  exists (dec (ln_number r)), (dec (ln_offset r)), (match ln_oparg r with Some k => [decN k] | None => [] end), h.
  split; [apply integer_shown|]. split; [apply integer_shown|]. split; [destruct (ln_oparg r); [apply integer_shown|exact I]|].
  split; [apply hint_shown, Hs|]. unfold row_text. fold h.
  assert (Hc : forall n, dec n <> []) by (intros n; destruct (dec_cons n) as (c & t & -> & _); discriminate).
  assert (A : forall x, words ((if last =? ln_number r then str "       " else pad 4 (dec (ln_number r)) ++ str "   ") ++ x) =
    (if last =? ln_number r then [] else [dec (ln_number r)]) ++ words x).
  { intros x. destruct (last =? ln_number r); [reflexivity|]. rewrite <- app_assoc. change (str "   " ++ x) with (str " " ++ 32%N :: 32%N :: x).
    rewrite words_field by auto using dec_dark. reflexivity. }
  rewrite A. f_equal. clear A.
  assert (A : forall x, words ((if ln_is_jump r then str ">>  " else str "    ") ++ x) = (if ln_is_jump r then [str ">>"] else []) ++ words x).
  { intros x. destruct (ln_is_jump r); reflexivity. }
  rewrite A. f_equal. clear A. rewrite words_field by auto using dec_dark. cbn [app]. f_equal.
  rewrite words_field by auto using op_name_dark, op_name_some. f_equal; [eapply decode_name; eauto|].
  destruct (ln_oparg r) as [k|]; [|reflexivity]. rewrite <- app_assoc. rewrite words_field; [reflexivity|apply decN_dark|].
  destruct (text_cons k) as (c & t & E & _). unfold decN. rewrite E. discriminate.
Qed.
Lemma rows_right ops ls : forall first last,
  (forall r, In r ls -> (exists i next, decode ops (ln_offset r) = Ok (i, next)) /\ bc_read_u8 ops (ln_offset r) = Ok (ln_opcode r) /\
     forall v, ln_hint r = Some (HValue v) -> sound_value v) ->
  rows_printed (o_f64_text o) quoted lineno file ops first last ls (rows_text o quoted lineno file first last ls).
Proof.
  induction ls as [|r ls IH]; intros first last H; [constructor|]. cbn [rows_text]. rewrite andb_comm.
  destruct (H r (or_introl eq_refl)) as ((i & next & Hd) & Hb & Hs).
  eapply rp_row; [exact Hd|eapply row_tells; eauto|]. apply IH. intros q Hq. apply H. now right.
Qed.
Lemma listing_right s c l stop : right_listing s c (li_lines l) stop ->
  (forall r v, In r (li_lines l) -> ln_hint r = Some (HValue v) -> sound_value v) ->
  printed (o_f64_text o) quoted lineno file (ck_ops c) l (listing_text o quoted lineno file l).
Proof.
  intros R H. exists (fn_at lineno file (li_span l)), (rows_text o quoted lineno file true 0 (li_lines l)).
  split; [apply place_shown|]. split; [|reflexivity]. apply rows_right. intros r Hr.
  destruct (rl_shows _ _ _ _ R r Hr) as (i & next & Hd & Sh). split; [eauto|]. split; [exact (sh_opcode _ _ _ _ _ _ Sh)|eauto].
Qed.
Lemma output_has l out : In l out -> exists a b, output_text o quoted lineno file out = a ++ listing_text o quoted lineno file l ++ [10%N] ++ b.
Proof.
  unfold output_text. induction out as [|x out IH]; [intros []|]. intros [->|H]; cbn [map concat].
  - exists [], (concat (map (fun l => listing_text o quoted lineno file l ++ [10%N]) out)). now rewrite <- app_assoc.
  - destruct (IH H) as (a & b & ->). exists ((listing_text o quoted lineno file x ++ [10%N]) ++ a), b. rewrite <- !app_assoc. reflexivity.
Qed.
Lemma output_printed m ast s f depth out : compile m ast = COk s -> weights ast <= u16max ->
  disassemble lineno depth s = Some (Ok out) -> used s f -> has_lines lineno (fn_chunk f) ->
  (forall l r v, In l out -> In r (li_lines l) -> ln_hint r = Some (HValue v) -> sound_value v) ->
  exists a t b lines, output_text o quoted lineno file out = a ++ t ++ [10%N] ++ b /\
    printed (o_f64_text o) quoted lineno file (ck_ops (fn_chunk f)) (mkListing (fn_name f) (fn_nspan f) lines) t /\
    right_listing s (fn_chunk f) lines (length (ck_ops (fn_chunk f))).
Proof.
  intros Hc Hw Hd Hu Hl Hs. destruct (ProofDisasm2.output_right m ast s f lineno depth out Hc Hw Hd Hu Hl) as (lines & Hi & R).
  destruct (output_has _ _ Hi) as (a & b & E). exists a, (listing_text o quoted lineno file (mkListing (fn_name f) (fn_nspan f) lines)), b, lines.
  split; [exact E|]. split; [|exact R]. eapply listing_right; [exact R|]. intros r v Hr. exact (Hs _ _ _ Hi Hr).
Qed.
End Says.
