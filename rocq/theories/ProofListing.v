(** Printed listings: the text tells the rows (C94). *)
From Verif Require Import Base RleVec Pool Float NumText Bytecode Chunk Value Ast Compiler Disasm Listing SpecListing ProofReport.

Lemma cut_at (p : N -> bool) a : forall b x y c d, forallb p a = true -> forallb p b = true -> p c = false -> p d = false ->
  a ++ c :: x = b ++ d :: y -> a = b /\ c = d /\ x = y.
Proof.
  induction a as [|e a IH]; intros [|f b] x y c d Ha Hb Hc Hd H; cbn in *.
  - now injection H as -> ->.
  - injection H as -> _. rewrite Hc in Hb. discriminate.
  - injection H as -> _. rewrite Hd in Ha. discriminate.
  - injection H as -> H. apply andb_true_iff in Ha as [_ Ha]. apply andb_true_iff in Hb as [_ Hb].
    destruct (IH _ _ _ _ _ Ha Hb Hc Hd H) as (-> & -> & ->). auto.
Qed.
Definition dark (c : N) : bool := negb (c =? 32)%N.
Lemma repeat_shift (c : N) n x : repeat c n ++ c :: x = c :: repeat c n ++ x.
Proof. induction n as [|n IH]; cbn; [reflexivity|]. now rewrite IH. Qed.
Lemma pad_cut k a x : pad k a ++ str " " ++ x = a ++ 32%N :: repeat 32%N (k - length a) ++ x.
Proof. unfold pad. rewrite <- app_assoc. change (str " " ++ x) with (32%N :: x). now rewrite repeat_shift. Qed.
Lemma pad_field k a b x y : forallb dark a = true -> forallb dark b = true ->
  pad k a ++ str " " ++ x = pad k b ++ str " " ++ y -> a = b /\ x = y.
Proof.
  rewrite !pad_cut. intros Ha Hb H. destruct (cut_at dark a b _ _ 32%N 32%N Ha Hb eq_refl eq_refl H) as (-> & _ & E).
  split; [reflexivity|]. now apply app_inv_head in E.
Qed.

(** ** Numbers *)
Definition digit (c : N) : bool := ((48 <=? c) && (c <=? 57))%N.
Lemma dec_digits n : forallb digit (int_text (Z.of_N n)) = true.
Proof.
  apply forallb_forall. intros c Hc. pose proof (ProofText.integer_shown (Z.of_N n)) as H. unfold SpecText.integer_text in H.
  destruct (Z.ltb_spec (Z.of_N n) 0); [lia|]. apply decimal_chars in H. rewrite Forall_forall in H. apply H in Hc.
  unfold digit. apply andb_true_iff. rewrite !N.leb_le. exact Hc.
Qed.
Lemma digit_dark s : forallb digit s = true -> forallb dark s = true.
Proof.
  rewrite !forallb_forall. intros H c Hc. apply H in Hc. unfold digit in Hc. apply andb_true_iff in Hc as [H1 _]. apply N.leb_le in H1.
  unfold dark. apply negb_true_iff, N.eqb_neq. lia.
Qed.
Lemma dec_dark n : forallb dark (dec n) = true.
Proof. apply digit_dark. unfold dec. rewrite <- nat_N_Z. apply dec_digits. Qed.
Lemma decN_dark n : forallb dark (decN n) = true.
Proof. apply digit_dark. apply dec_digits. Qed.
Lemma text_cons n : exists c r, int_text (Z.of_N n) = c :: r /\ digit c = true.
Proof.
  pose proof (dec_digits n) as H. destruct (int_text (Z.of_N n)) as [|c r] eqn:E.
  - exfalso. pose proof (ProofText.integer_shown (Z.of_N n)) as H1. unfold SpecText.integer_text in H1. destruct (Z.ltb_spec (Z.of_N n) 0); [lia|].
    rewrite E in H1. destruct H1 as (ds & Hd & Ht). destruct ds; [|discriminate]. destruct Hd as (_ & _ & Hl). exact Hl.
  - cbn in H. apply andb_true_iff in H as [H _]. eauto.
Qed.
Lemma dec_cons n : exists c r, dec n = c :: r /\ digit c = true.
Proof. unfold dec. rewrite <- nat_N_Z. apply text_cons. Qed.
Lemma dec_inj a b : dec a = dec b -> a = b. Proof. intros H. apply int_text_inj in H. lia. Qed.
Lemma decN_inj a b : decN a = decN b -> a = b. Proof. intros H. apply int_text_inj in H. lia. Qed.

(** ** Names of instructions *)
Definition names_apart : bool :=
  forallb (fun a => forallb (fun b => implb (seqb (nth a op_names []) (nth b op_names [])) (a =? b)) (seq 0 62)) (seq 0 62).
Lemma names_apart_ok : names_apart = true. Proof. vm_compute. reflexivity. Qed.
Lemma op_name_nth a : (a < 62)%N -> op_name a = nth (N.to_nat a) op_names [].
Proof.
  intros H. unfold op_name. destruct (nth_error op_names (N.to_nat a)) as [s|] eqn:E; [symmetry; now apply nth_error_nth|].
  apply nth_error_None in E. change (length op_names) with 62 in E. lia.
Qed.
Lemma op_name_inj a b : (a < 62)%N -> (b < 62)%N -> op_name a = op_name b -> a = b.
Proof.
  intros Ha Hb. rewrite !op_name_nth by assumption. intros H. pose proof names_apart_ok as K. unfold names_apart in K.
  rewrite forallb_forall in K. specialize (K (N.to_nat a)). rewrite forallb_forall in K.
  assert (E : implb (seqb (nth (N.to_nat a) op_names []) (nth (N.to_nat b) op_names [])) (N.to_nat a =? N.to_nat b) = true).
  { apply K; apply in_seq; lia. }
  rewrite H, seqb_refl in E. cbn in E. apply Nat.eqb_eq in E. lia.
Qed.
Lemma names_dark : forallb (forallb dark) op_names = true. Proof. vm_compute. reflexivity. Qed.
Lemma op_name_dark a : forallb dark (op_name a) = true.
Proof.
  unfold op_name. destruct (nth_error op_names (N.to_nat a)) eqn:E; [|reflexivity]. apply nth_error_In in E.
  pose proof names_dark as H. rewrite forallb_forall in H. now apply H.
Qed.

Lemma ops_flat : forallb (forallb (fun c => negb (c =? 10)%N)) op_names = true. Proof. vm_compute. reflexivity. Qed.

(** ** One row *)
Section Row.
Context (o : oracle) (quoted : rstring -> rstring) (lineno : span -> option nat) (file : nat -> option rstring).
Notation row := (row_text o quoted lineno file).
Lemma dec_field a b x y : pad 4 (dec a) ++ str " " ++ x = pad 4 (dec b) ++ str " " ++ y -> a = b /\ x = y.
Proof. intros H. apply pad_field in H as [H ->]; auto using dec_dark. apply dec_inj in H. auto. Qed.
Lemma pad_first k s c r : s = c :: r -> exists t, pad k s = c :: t.
Proof. intros ->. unfold pad. cbn [app]. eauto. Qed.
Lemma digit_not c (d : N) : digit c = true -> digit d = false -> c <> d.
Proof. intros H1 H2 ->. congruence. Qed.

(** ** Lines of the output *)
Definition breaks_up (ps : list rstring) : rstring := concat (map (fun p => p ++ [10%N]) ps).
Definition flat (c : N) : bool := negb (c =? 10)%N.
Lemma one_line_flat s : one_line s <-> forallb flat s = true.
Proof.
  unfold one_line, flat. rewrite forallb_forall. split.
  - intros H c Hc. apply negb_true_iff, N.eqb_neq. intros ->. auto.
  - intros H Hc. apply H in Hc. discriminate.
Qed.
Lemma breaks_same ps : forall qs, Forall one_line ps -> Forall one_line qs -> breaks_up ps = breaks_up qs -> ps = qs.
Proof.
  unfold breaks_up. induction ps as [|p ps IH]; intros [|q qs] Hp Hq H; cbn in H; auto.
  - destruct q; discriminate H.
  - destruct p; discriminate H.
  - rewrite <- !app_assoc in H. cbn [app] in H.
    pose proof (proj1 (one_line_flat _) (Forall_inv Hp)) as Fp. pose proof (proj1 (one_line_flat _) (Forall_inv Hq)) as Fq.
    destruct (cut_at flat p q _ _ 10%N 10%N Fp Fq eq_refl eq_refl H) as (-> & _ & E).
    f_equal. apply IH; [exact (Forall_inv_tail Hp)|exact (Forall_inv_tail Hq)|exact E].
Qed.

Notation header l := (str "Disassembly of <func " ++ li_name l ++ fn_at lineno file (li_span l) ++ str ">").
Fixpoint row_lines (last : nat) (ls : list line) : list rstring :=
  match ls with [] => [] | l :: rest => row last l :: row_lines (ln_number l) rest end.
Fixpoint row_pieces (first : bool) (last : nat) (ls : list line) : list rstring :=
  match ls with
  | [] => []
  | l :: rest => (if negb (ln_number l =? last) && negb first then [[]] else []) ++ row last l :: row_pieces false (ln_number l) rest
  end.
Definition pieces (out : list listing) : list rstring := flat_map (fun l => (header l :: row_pieces true 0 (li_lines l)) ++ [[]]) out.
Lemma breaks_app a b : breaks_up (a ++ b) = breaks_up a ++ breaks_up b.
Proof. unfold breaks_up. now rewrite map_app, concat_app. Qed.
Lemma breaks_cons a b : breaks_up (a :: b) = a ++ [10%N] ++ breaks_up b.
Proof. unfold breaks_up. cbn [map concat]. now rewrite <- app_assoc. Qed.
Lemma rows_broken ls : forall first last, rows_text o quoted lineno file first last ls = breaks_up (row_pieces first last ls).
Proof.
  induction ls as [|l ls IH]; intros first last; [reflexivity|]. cbn [rows_text row_pieces]. rewrite breaks_app, breaks_cons, IH.
  f_equal. destruct (negb (ln_number l =? last) && negb first); reflexivity.
Qed.
Lemma output_broken out : output_text o quoted lineno file out = breaks_up (pieces out).
Proof.
  induction out as [|l out IH]; [reflexivity|]. unfold output_text, pieces in *. cbn [map concat flat_map]. rewrite !breaks_app, breaks_cons, IH, <- rows_broken.
  unfold listing_text. rewrite <- !app_assoc. reflexivity.
Qed.

(** Lines that are not empty: a heading or a row. *)
Definition full (s : rstring) : bool := match s with [] => false | _ => true end.
Definition heading (s : rstring) : bool := match s with c :: _ => (c =? 68)%N | [] => false end.
Lemma row_first last r : exists c t, row last r = c :: t /\ (c =? 68)%N = false.
Proof.
  unfold row_text. destruct (last =? ln_number r); [cbn; eauto|]. destruct (dec_cons (ln_number r)) as (c & t & Hc & Hd).
  destruct (pad_first 4 _ _ _ Hc) as [u Hu]. rewrite Hu. cbn. do 2 eexists. split; [reflexivity|]. apply N.eqb_neq. intros ->. discriminate.
Qed.
Lemma rows_full ls : forall first last, filter full (row_pieces first last ls) = row_lines last ls.
Proof.
  induction ls as [|l ls IH]; intros first last; [reflexivity|]. cbn [row_pieces row_lines]. rewrite filter_app. cbn [filter]. rewrite IH.
  destruct (row_first last l) as (c & t & E & _). rewrite E. cbn [full].
  destruct (negb (ln_number l =? last) && negb first); reflexivity.
Qed.
Lemma pieces_full out : filter full (pieces out) = flat_map (fun l => header l :: row_lines 0 (li_lines l)) out.
Proof.
  induction out as [|l out IH]; [reflexivity|]. change (pieces (l :: out)) with (((header l :: row_pieces true 0 (li_lines l)) ++ [[]]) ++ pieces out).
  rewrite (@filter_app rstring). etransitivity; [apply (f_equal2 (@app rstring)); [reflexivity|exact IH]|].
  rewrite (@filter_app rstring). cbn [flat_map]. f_equal. rewrite <- (rows_full _ true). cbn [filter].
  change (full (header l)) with true. change (full []) with false. cbv iota. now rewrite app_nil_r.
Qed.
Lemma rows_not_heading ls : forall last, forallb (fun s => negb (heading s)) (row_lines last ls) = true.
Proof.
  induction ls as [|l ls IH]; intros last; [reflexivity|]. cbn [row_lines forallb]. rewrite IH, andb_true_r.
  destruct (row_first last l) as (c & t & -> & E). cbn [heading]. now rewrite E.
Qed.
Definition starts (l : list rstring) : Prop := match l with [] => True | x :: _ => heading x = true end.
Lemma outs_start out : starts (flat_map (fun l => header l :: row_lines 0 (li_lines l)) out).
Proof. destruct out; cbn; auto. Qed.
Lemma span_rows a : forall b x y, forallb (fun s => negb (heading s)) a = true -> forallb (fun s => negb (heading s)) b = true ->
  starts x -> starts y -> a ++ x = b ++ y -> a = b /\ x = y.
Proof.
  induction a as [|e a IH]; intros [|f b] x y Ha Hb Hx Hy H; cbn in *; auto.
  - subst x. cbn in Hx. rewrite Hx in Hb. discriminate.
  - subst y. cbn in Hy. rewrite Hy in Ha. discriminate.
  - injection H as -> H. apply andb_true_iff in Ha as [_ Ha], Hb as [_ Hb]. destruct (IH _ _ _ Ha Hb Hx Hy H) as [-> ->]. auto.
Qed.

(** *** On one line *)
Context (Hq : forall s, one_line (quoted s)) (Hf : forall f, one_line (o_f64_text o f)) (Hn : forall k s, file k = Some s -> one_line s).
Lemma ol_app a b : one_line a -> one_line b -> one_line (a ++ b).
Proof using. unfold one_line. intros H1 H2 H. apply in_app_iff in H as [H|H]; auto. Qed.
Lemma ol_flat s : forallb flat s = true -> one_line s. Proof using. apply one_line_flat. Qed.
Lemma ol_int z : one_line (int_text z). Proof using. apply int_not_in. lia. Qed.
Lemma ol_digit d : (d < 36)%N -> digit_char d <> 10%N.
Proof using. intros H. unfold digit_char. destruct (d <? 10)%N; lia. Qed.
Lemma ol_at sp : one_line (fn_at lineno file sp).
Proof using Hn.
  unfold fn_at. apply ol_app; [now apply ol_flat|]. apply ol_app; [|apply ol_app; [now apply ol_flat|apply ol_int]].
  unfold fn_file. destruct (file (sp_src sp)) eqn:E; [eapply Hn; eauto|now apply ol_flat].
Qed.
Lemma ol_pad k s : one_line s -> one_line (pad k s).
Proof using. intros H. apply ol_app; [exact H|]. intros K. apply repeat_spec in K. discriminate. Qed.
Lemma ol_items l : Forall one_line l -> one_line (items_text l).
Proof using.
  unfold items_text. assert (K : forall b, Forall one_line l -> one_line (items_from b l)); [|apply K].
  induction l as [|x l IH]; intros b H; [now intros []|]. inversion H; subst. cbn [items_from].
  apply ol_app; [destruct b; now apply ol_flat|]. apply ol_app; [assumption|]. apply IH. assumption.
Qed.
Lemma ol_hex n : one_line (hex2 n).
Proof using.
  apply ol_flat. unfold hex2, digit_char, flat. cbn [forallb]. rewrite andb_true_r. apply andb_true_iff.
  split; apply negb_true_iff, N.eqb_neq; [destruct (n / 16 <? 10)%N|destruct (n mod 16 <? 10)%N]; lia.
Qed.
Lemma forall_firstn {A} (P : A -> Prop) k l : Forall P l -> Forall P (firstn k l).
Proof using. revert k. induction l as [|x l IH]; intros [|k] H; cbn; auto. inversion H; subst. auto. Qed.
Ltac ol := repeat first [assumption | apply ol_int | apply ol_hex | apply ol_at | now apply ol_flat | apply ol_app].
Lemma ol_value v : tidy_value v -> one_line (value_hint o quoted lineno file v).
Proof using Hq Hf Hn.
  induction v as [| | | | | | | |l s mx IH| |a1 a2 IH1 IH2|f] using gvalue_rect'; intros H; inversion H; subst; cbn [value_hint]; try contradiction; ol; auto.
  - destruct b; now apply ol_flat.
  - assert (K : Forall one_line (map (value_hint o quoted lineno file) l)).
    { clear - IH H1. induction IH as [|v l Hv IH IHl]; [constructor|]. inversion H1; subst. cbn [map]. constructor; auto. }
    destruct (length l <=? 10); [now apply ol_items|]. ol. apply ol_items, forall_firstn, K.
  - destruct f as [f|f us]; cbn [mfn_function] in *; ol.
Qed.
Lemma ol_hint h : tidy_hint h -> one_line (hint_text o quoted lineno file h).
Proof using Hq Hf Hn. destruct h; intros H; cbn [hint_text tidy_hint] in *; [| |now apply ol_value| | | |]; ol. Qed.
Lemma ol_row last r : (forall h, ln_hint r = Some h -> tidy_hint h) -> one_line (row last r).
Proof using Hq Hf Hn.
  intros H. unfold row_text. apply ol_app.
  { destruct (last =? ln_number r); [now apply ol_flat|]. apply ol_app; [apply ol_pad, ol_int|now apply ol_flat]. }
  apply ol_app; [destruct (ln_is_jump r); now apply ol_flat|]. apply ol_app; [apply ol_pad, ol_int|]. apply ol_app; [now apply ol_flat|].
  apply ol_app. { apply ol_pad, ol_flat. pose proof ops_flat as K. unfold op_name. destruct (nth_error op_names (N.to_nat (ln_opcode r))) eqn:E; [|reflexivity].
    apply nth_error_In in E. rewrite forallb_forall in K. now apply K. }
  apply ol_app; [now apply ol_flat|]. apply ol_app.
  { destruct (ln_oparg r); [|now apply ol_flat]. apply ol_app; [apply ol_pad, ol_int|now apply ol_flat]. }
  destruct (ln_hint r) as [h|]; [|now apply ol_flat]. specialize (H h eq_refl). apply ol_hint in H.
  destruct h; try (ol; fail). apply ol_app; [destruct (ln_offset r <? target); now apply ol_flat|apply ol_int].
Qed.
Lemma ol_rows ls : forall first last, (forall r, In r ls -> forall h, ln_hint r = Some h -> tidy_hint h) -> Forall one_line (row_pieces first last ls).
Proof using Hq Hf Hn.
  induction ls as [|l ls IH]; intros first last H; [constructor|]. cbn [row_pieces]. apply Forall_app. split.
  - destruct (negb (ln_number l =? last) && negb first); repeat constructor. now intros [].
  - constructor; [apply ol_row, H; now left|]. apply IH. intros r Hr. apply H. now right.
Qed.
Lemma ol_pieces out : Forall tidy out -> Forall one_line (pieces out).
Proof using Hq Hf Hn.
  induction 1 as [|l out (H1 & H2 & H3) _ IH]; [constructor|].
  change (pieces (l :: out)) with (((header l :: row_pieces true 0 (li_lines l)) ++ [[]]) ++ pieces out).
  apply Forall_app. split; [|exact IH]. apply Forall_app. split; [|repeat constructor; now intros []].
  constructor; [ol|]. apply ol_rows. intros r Hr. apply H3, Hr.
Qed.
Lemma cons_inj (a b : rstring) x y : a :: x = b :: y -> a = b /\ x = y.
Proof using. intros H. now injection H. Qed.
End Row.

(** ** Two outputs *)
Section Two.
Context (o : oracle) (quoted : rstring -> rstring) (lineno lineno' : span -> option nat) (file file' : nat -> option rstring).
Notation row1 := (row_text o quoted lineno file).
Notation row2 := (row_text o quoted lineno' file').
Notation rl1 := (row_lines o quoted lineno file).
Notation rl2 := (row_lines o quoted lineno' file').
Notation header1 l := (str "Disassembly of <func " ++ li_name l ++ fn_at lineno file (li_span l) ++ str ">").
Notation header2 l := (str "Disassembly of <func " ++ li_name l ++ fn_at lineno' file' (li_span l) ++ str ">").
Lemma row_same last r r' : (ln_opcode r < 62)%N -> (ln_opcode r' < 62)%N -> row1 last r = row2 last r' -> same_row r r'.
Proof.
  intros Ho Ho' H. unfold row_text in H.
  assert (Hn : ln_number r = ln_number r' /\ forall A B x y, A = (if last =? ln_number r then str "       " else pad 4 (dec (ln_number r)) ++ str "   ") ->
     B = (if last =? ln_number r' then str "       " else pad 4 (dec (ln_number r')) ++ str "   ") -> A ++ x = B ++ y -> x = y).
  { destruct (Nat.eqb_spec last (ln_number r)) as [E|E], (Nat.eqb_spec last (ln_number r')) as [E'|E'].
    - split; [congruence|]. intros A B x y -> -> K. now apply app_inv_head in K.
    - exfalso. destruct (dec_cons (ln_number r')) as (c & t & Hc & Hd). destruct (pad_first 4 _ _ _ Hc) as [u Hu]. rewrite Hu in H. cbn in H.
      injection H as K _. subst c. discriminate.
    - exfalso. destruct (dec_cons (ln_number r)) as (c & t & Hc & Hd). destruct (pad_first 4 _ _ _ Hc) as [u Hu]. rewrite Hu in H. cbn in H.
      injection H as K _. subst c. discriminate.
    - assert (N : forall x y, (pad 4 (dec (ln_number r)) ++ str "   ") ++ x = (pad 4 (dec (ln_number r')) ++ str "   ") ++ y -> ln_number r = ln_number r' /\ x = y).
      { intros x y K. rewrite <- !app_assoc in K. change (str "   " ++ x) with (str " " ++ str "  " ++ x) in K. change (str "   " ++ y) with (str " " ++ str "  " ++ y) in K.
        apply dec_field in K as [K1 K2]. now apply app_inv_head in K2. }
      split; [exact (proj1 (N _ _ H))|]. intros A B x y -> -> K. exact (proj2 (N _ _ K)). }
  destruct Hn as [Hn Hr]. apply (Hr _ _ _ _ eq_refl eq_refl) in H. clear Hr.
  assert (Hj : ln_is_jump r = ln_is_jump r').
  { destruct (ln_is_jump r), (ln_is_jump r'); auto; discriminate H. }
  rewrite <- Hj in H. apply app_inv_head in H. apply dec_field in H as [Hoff H].
  apply pad_field in H as [Hop H]; auto using op_name_dark. apply op_name_inj in Hop; [|assumption|assumption].
  assert (Hf : forall k k' x y, (pad 4 (decN k) ++ str " ") ++ x = (pad 4 (decN k') ++ str " ") ++ y -> k = k' /\ x = y).
  { intros k k' x y K. rewrite <- !app_assoc in K. apply pad_field in K as [K ->]; auto using decN_dark. apply decN_inj in K. auto. }
  assert (Ha : ln_oparg r = ln_oparg r' /\
    match ln_hint r with Some (HJump t) => (if ln_offset r <? t then str ">> " else str "<< ") ++ dec t
      | Some h => str "(" ++ hint_text o quoted lineno file h ++ str ")" | None => [] end =
    match ln_hint r' with Some (HJump t) => (if ln_offset r' <? t then str ">> " else str "<< ") ++ dec t
      | Some h => str "(" ++ hint_text o quoted lineno' file' h ++ str ")" | None => [] end).
  { destruct (ln_oparg r) as [k|], (ln_oparg r') as [k'|].
    - apply Hf in H as [-> H]. auto.
    - exfalso. destruct (text_cons k) as (c & t & Hc & Hd). destruct (pad_first 4 _ _ _ Hc) as [u Hu]. unfold decN in H. rewrite Hu in H. cbn in H.
      injection H as K _. subst c. discriminate.
    - exfalso. destruct (text_cons k') as (c & t & Hc & Hd). destruct (pad_first 4 _ _ _ Hc) as [u Hu]. unfold decN in H. rewrite Hu in H. cbn in H.
      injection H as K _. subst c. discriminate.
    - apply app_inv_head in H. auto. }
  destruct Ha as [Ha Hh]. split; [exact Hn|]. split; [exact Hj|]. split; [exact Hoff|]. split; [exact Hop|]. split; [exact Ha|].
  rewrite <- Hoff in Hh. clear H Hf.
  assert (J : forall t t', (if ln_offset r <? t then str ">> " else str "<< ") ++ dec t = (if ln_offset r <? t' then str ">> " else str "<< ") ++ dec t' -> t = t').
  { intros t t' K. apply dec_inj. destruct (ln_offset r <? t), (ln_offset r <? t'); try discriminate K; now apply app_inv_head in K. }
  assert (X : forall t s, (if ln_offset r <? t then str ">> " else str "<< ") ++ dec t <> str "(" ++ s).
  { intros t s K. destruct (ln_offset r <? t); discriminate K. }
  assert (Y : forall t, (if ln_offset r <? t then str ">> " else str "<< ") ++ dec t <> []).
  { intros t K. destruct (ln_offset r <? t); discriminate K. }
  split; [|split].
  2:{ clear - Hh Y. split; intros E; rewrite E in Hh; [destruct (ln_hint r') as [[]|]|destruct (ln_hint r) as [[]|]]; auto; try discriminate Hh;
      [exfalso; symmetry in Hh|exfalso]; eapply Y; exact Hh. }
  2:{ clear - Hh. intros h h' E E'. rewrite E, E' in Hh. destruct h as [| |v| | | |], h' as [| |v'| | | |]; try exact I; try (destruct v; exact I); cbn [same_word].
      - destruct v; try exact I; destruct v'; try exact I. cbn [hint_text value_hint] in Hh. apply app_inv_head, app_inv_tail in Hh. now apply int_text_inj.
      - cbn [hint_text] in Hh. apply app_inv_head, app_inv_tail, app_inv_head, app_inv_tail in Hh. exact Hh.
      - cbn [hint_text] in Hh. apply app_inv_head, app_inv_tail in Hh. exact Hh.
      - cbn [hint_text] in Hh. apply app_inv_head, app_inv_tail in Hh. exact Hh. }
  intros t. split; intros E; rewrite E in Hh.
  - destruct (ln_hint r') as [[t'| | | | | |]|]; try (exfalso; exact (X _ _ Hh)); [|exfalso; exact (Y _ Hh)]. apply J in Hh. congruence.
  - destruct (ln_hint r) as [[t'| | | | | |]|]; try (exfalso; exact (X _ _ (eq_sym Hh))); [|exfalso; exact (Y _ (eq_sym Hh))]. apply J in Hh. congruence.
Qed.
Lemma rows_same ls : forall ls' last, (forall r, In r ls -> (ln_opcode r < 62)%N) -> (forall r, In r ls' -> (ln_opcode r < 62)%N) ->
  rl1 last ls = rl2 last ls' -> Forall2 same_row ls ls'.
Proof.
  induction ls as [|l ls IH]; intros [|l' ls'] last H H' E; cbn in E; try discriminate; [constructor|]. injection E as E1 E2.
  apply row_same in E1; [|apply H; now left|apply H'; now left]. pose proof E1 as (En & _). rewrite <- En in E2.
  constructor; [exact E1|]. eapply IH; [| |exact E2]; intros r Hr; [apply H|apply H']; now right.
Qed.
Lemma header_same l l' : ~ In 44%N (li_name l) -> ~ In 44%N (li_name l') -> header1 l = header2 l' ->
  li_name l = li_name l' /\ fn_line lineno (li_span l) = fn_line lineno' (li_span l') /\ fn_file file (li_span l) = fn_file file' (li_span l').
Proof.
  intros H H' E. apply app_inv_head in E. unfold fn_at in E. rewrite <- !app_assoc in E.
  assert (K : forall s, ~ In 44%N s -> forallb (fun c => negb (c =? 44)%N) s = true).
  { intros s Hs. apply forallb_forall. intros c Hc. apply negb_true_iff, N.eqb_neq. intros ->. auto. }
  destruct (cut_at (fun c => negb (c =? 44)%N) (li_name l) (li_name l') (str " file """ ++ fn_file file (li_span l) ++ str """, line " ++ dec (fn_line lineno (li_span l)) ++ str ">")
    (str " file """ ++ fn_file file' (li_span l') ++ str """, line " ++ dec (fn_line lineno' (li_span l')) ++ str ">") 44%N 44%N (K _ H) (K _ H') eq_refl eq_refl E) as (E1 & _ & E2).
  split; [exact E1|]. apply app_inv_head in E2. rewrite !app_assoc in E2. apply app_inv_tail in E2. apply (f_equal (@rev N)) in E2.
  rewrite !rev_app_distr in E2.
  assert (D : forall n, forallb digit (rev (dec n)) = true).
  { intros n. apply forallb_forall. intros c Hc. apply in_rev in Hc. unfold dec in Hc. rewrite <- nat_N_Z in Hc. pose proof (dec_digits (N.of_nat n)) as F.
    rewrite forallb_forall in F. now apply F. }
  destruct (cut_at digit (rev (dec (fn_line lineno (li_span l)))) (rev (dec (fn_line lineno' (li_span l')))) (rev (str """, line") ++ rev (fn_file file (li_span l)))
    (rev (str """, line") ++ rev (fn_file file' (li_span l'))) 32%N 32%N (D _) (D _) eq_refl eq_refl E2) as (E3 & _ & E4).
  split.
  - apply dec_inj. apply (f_equal (@rev N)) in E3. now rewrite !rev_involutive in E3.
  - apply app_inv_head in E4. apply (f_equal (@rev N)) in E4. now rewrite !rev_involutive in E4.
Qed.
Lemma listings_same out : forall out', Forall tidy out -> Forall tidy out' ->
  flat_map (fun l => header1 l :: rl1 0 (li_lines l)) out = flat_map (fun l => header2 l :: rl2 0 (li_lines l)) out' ->
  Forall2 (same_listing lineno file lineno' file') out out'.
Proof.
  induction out as [|l out IH]; intros [|l' out'] H H' E; cbn [flat_map] in E; try discriminate E; [constructor|].
  destruct (Forall_inv H) as (_ & C & R), (Forall_inv H') as (_ & C' & R'). 
  change (header1 l :: (rl1 0 (li_lines l) ++ flat_map (fun l => header1 l :: rl1 0 (li_lines l)) out) =
          header2 l' :: (rl2 0 (li_lines l') ++ flat_map (fun l => header2 l :: rl2 0 (li_lines l)) out')) in E.
  apply cons_inj in E as [E1 E2].
  apply span_rows in E2 as [E2 E3]; try (apply rows_not_heading || apply outs_start).
  constructor; [|apply IH; [exact (Forall_inv_tail H)|exact (Forall_inv_tail H')|exact E3]].
  destruct (header_same _ _ C C' E1) as (N1 & N2 & N3). split; [exact N1|]. split; [exact N2|]. split; [exact N3|].
  eapply rows_same; [| |exact E2]; intros r Hr; [apply R|apply R']; exact Hr.
Qed.
Context (Hq : forall s, one_line (quoted s)) (Hf : forall f, one_line (o_f64_text o f)).
Context (Hn : forall k s, file k = Some s -> one_line s) (Hn' : forall k s, file' k = Some s -> one_line s).
Lemma output_same out out' : Forall tidy out -> Forall tidy out' ->
  output_text o quoted lineno file out = output_text o quoted lineno' file' out' -> Forall2 (same_listing lineno file lineno' file') out out'.
Proof.
  intros H H' E. rewrite !output_broken in E. apply breaks_same in E; [|now apply ol_pieces|now apply ol_pieces].
  apply listings_same; [exact H|exact H'|]. rewrite <- !pieces_full. now rewrite E.
Qed.
End Two.
