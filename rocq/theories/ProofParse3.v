(** Integer literals, alone and as programs. *)
From Verif Require Import Base Float NumText Value Ast Args Builtins Parse SpecArith ProofArith4 SpecParse ProofParse2.
Ltac Zify.zify_post_hook ::= Z.div_mod_to_equations.

Lemma color_text_builtin {Fn} m o o' (fi : fn_info Fn) feq amax r g b a :
  (r < 256)%N -> (g < 256)%N -> (b < 256)%N -> (a < 256)%N ->
  std_call m o fi feq amax (str "color") [VString (display o' fi (VColor r g b a))] = Ok (VColor r g b a).
Proof.
  intros Hr Hg Hb Ha.
  transitivity (b_color fi (VString (display o' fi (VColor r g b a)))); [reflexivity|].
  change (display o' fi (VColor r g b a)) with
    (35%N :: [digit_char (r / 16); digit_char (r mod 16); digit_char (g / 16); digit_char (g mod 16);
              digit_char (b / 16); digit_char (b mod 16); digit_char (a / 16); digit_char (a mod 16)]).
  unfold b_color.
  assert (NE : forall n, (n < 16)%N -> (35 =? digit_char n)%N = false).
  { intros n Hn. apply N.eqb_neq. pose proof (hex_digit_is _ _ (hex_char n Hn)). intuition congruence. }
  unfold trim_both, trim_start, trim_end.
  cbn [drop_while]. change (35 =? 35)%N with true. cbn iota.
  rewrite (NE (r / 16)%N) by lia. cbn [rev app drop_while]. rewrite (NE (a mod 16)%N) by lia.
  cbn [rev app firstn].
  change (@hex_or) with (@u8_or).
  erewrite (u8_or2 0 (digit_char (r / 16))), (u8_or2 0 (digit_char (g / 16))),
           (u8_or2 0 (digit_char (b / 16))), (u8_or2 0 (digit_char (a / 16))); try (apply hex_char; lia).
  repeat f_equal; lia.
Qed.

Lemma digit_char_text d : (0 <= d < 36)%Z -> digit_text d = digit_char (Z.to_N d).
Proof.
  intros H. unfold digit_text. assert (C : exists k, (k < 36)%nat /\ d = Z.of_nat k) by (exists (Z.to_nat d); lia).
  destruct C as (k & Hk & ->). clear H. rewrite Nat2Z.id.
  do 36 (destruct k as [|k]; [reflexivity|]). lia.
Qed.

Lemma numeral_spec radix text n : (2 <= radix <= 36)%N -> numeral (Z.of_N radix) text n ->
  exists l, l <> [] /\ Forall (fun d => d < radix)%N l /\ text = map digit_char l /\ dval radix l = Z.to_N n /\ (0 <= n)%Z.
Proof.
  intros Hr (ds & H0 & H1 & -> & H2). exists (map Z.to_N ds).
  assert (E : map Z.of_N (map Z.to_N ds) = ds).
  { rewrite map_map. rewrite <- (map_id ds) at 2. apply map_ext_in. intros a Ha.
    rewrite Forall_forall in H1. apply H1 in Ha. lia. }
  assert (Hv : Z.of_N (dval radix (map Z.to_N ds)) = n) by (rewrite dval_digits, E; auto).
  split; [destruct ds; cbn; congruence|]. split; [|split; [|split; lia]].
  - apply Forall_map. eapply Forall_impl; [|exact H1]. intros a Ha; cbn in Ha. lia.
  - rewrite map_map. apply map_ext_in. intros a Ha. rewrite Forall_forall in H1. apply H1 in Ha.
    apply digit_char_text. lia.
Qed.

Lemma digit_char_is d : (d < 10)%N -> is_digit (digit_char d) = true.
Proof. intros H. unfold digit_char. apply N.ltb_lt in H as H'. rewrite H'. unfold is_digit. lia. Qed.
Lemma digits_all radix l : (radix <= 10)%N -> Forall (fun d => d < radix)%N l ->
  Forall (fun c => is_digit c = true) (map digit_char l).
Proof. intros Hr H. apply Forall_map. eapply Forall_impl; [|exact H]. intros d Hd; cbn in Hd. apply digit_char_is; lia. Qed.
Lemma digits_ascii s : Forall (fun c => is_digit c = true) s -> bytes_in s = length s.
Proof. intros H. apply bytes_in_ascii. eapply Forall_impl; [|exact H]. intros c Hc; unfold is_digit in Hc; lia. Qed.

Lemma digit_no_sign c s : is_digit c = true -> split_sign (c :: s) = (false, c :: s).
Proof.
  unfold is_digit. intros H. cbn [split_sign].
  replace (c =? 45)%N with false by lia. replace (c =? 43)%N with false by lia. auto.
Qed.

Definition fits (lo hi z : Z) : option Z := if ((lo <=? z) && (z <=? hi))%Z then Some z else None.
Lemma parse_digits lo hi radix l (neg : bool) : (2 <= radix <= 36)%N -> l <> [] -> Forall (fun d => d < radix)%N l ->
  parse_int lo hi radix ((if neg then [45%N] else []) ++ map digit_char l) =
  fits lo hi (if neg then - Z.of_N (dval radix l) else Z.of_N (dval radix l)).
Proof.
  intros Hr H0 H1. unfold parse_int.
  assert (S : split_sign ((if neg then [45%N] else []) ++ map digit_char l) = (neg, map digit_char l)).
  { destruct neg; [reflexivity|]. destruct l as [|d l]; [congruence|]. cbn [app map split_sign].
    destruct (digit_not_sign d) as [N1 N2].
    apply N.eqb_neq in N1, N2. rewrite N1, N2. reflexivity. }
  rewrite S. destruct l as [|d l]; [congruence|]. cbn [map]. change (digit_char d :: map digit_char l) with (map digit_char (d :: l)).
  rewrite digits_val_digs by (auto; lia). reflexivity.
Qed.

(** ** The INT rule on a decimal numeral. *)
Lemma plit_ne x xs c s n : (x =? c)%N = false -> plit (x :: xs) (n, c :: s) = PFail.
Proof. intros H. cbn [plit]. unfold pbind, pchar, is_c. cbn [snd fst]. rewrite H. auto. Qed.

(** "0b", "0x", "0o" do not start a decimal numeral followed by no letter. *)
Lemma plit0 x c s n : Forall (fun c => is_digit c = true) (c :: s) -> is_digit x = false ->
  plit [48%N; x] (n, c :: s) = PFail.
Proof.
  intros H Hx. destruct (N.eqb_spec 48 c) as [<-|Hc]; [|apply plit_ne, N.eqb_neq; auto].
  destruct s as [|d s]; [reflexivity|]. inversion H as [|? ? _ H2]; subst. inversion H2; subst.
  transitivity (plit [x] (n + 1, d :: s)); [reflexivity|]. apply plit_ne. apply N.eqb_neq. congruence.
Qed.

Lemma int_rule lo hi parse text : 
  (forall radix s, parse radix s = parse_int lo hi radix s) ->
  forall v n, numeral 10 text v ->
  r_int parse (n, text) = PMatch (or0 (fits lo hi v)) (n + length text, []).
Proof.
  intros Hp v n Hn. change 10%Z with (Z.of_N 10) in Hn.
  destruct (numeral_spec 10 text v ltac:(lia) Hn) as (l & H0 & H1 & -> & H2 & H3).
  assert (HD : Forall (fun c => is_digit c = true) (map digit_char l)) by (eapply digits_all; eauto; lia).
  pose proof (digits_ascii _ HD) as HB.
  destruct l as [|d l]; [congruence|]. cbn [map] in HD.
  unfold r_int. change (str "0b") with [48%N; 98%N]. change (str "0x") with [48%N; 120%N].
  change (str "0o") with [48%N; 111%N]. cbn [map].
  rewrite palt_r by (apply pbind_f, plit0; auto).
  rewrite palt_r by (apply pbind_f, plit0; auto).
  rewrite palt_r by (apply pbind_f, plit0; auto).
  rewrite (pbind_m _ _ _ None (n, digit_char d :: map digit_char l)).
  2: { unfold popt. change (str "-") with [45%N]. rewrite plit_ne; auto. inversion HD; subst. unfold is_digit in *. lia. }
  rewrite (pbind_m _ _ _ (digit_char d :: map digit_char l) (n + length (map digit_char (d :: l)), [])).
  2: { rewrite <- HB. apply prun1_all; [discriminate|exact HD]. }
  unfold pret. f_equal. rewrite Hp. f_equal.
  change (digit_char d :: map digit_char l) with ((if false then [45%N] else []) ++ map digit_char (d :: l)).
  rewrite parse_digits by (auto; try lia; discriminate). cbn iota. rewrite H2, Z2N.id by auto. auto.
Qed.

Lemma int_rule_neg lo hi parse text : 
  (forall radix s, parse radix s = parse_int lo hi radix s) ->
  forall v n, numeral 10 text v ->
  r_int parse (n, 45%N :: text) = PMatch (or0 (fits lo hi (- v))) (n + S (length text), []).
Proof.
  intros Hp v n Hn. change 10%Z with (Z.of_N 10) in Hn.
  destruct (numeral_spec 10 text v ltac:(lia) Hn) as (l & H0 & H1 & -> & H2 & H3).
  assert (HD : Forall (fun c => is_digit c = true) (map digit_char l)) by (eapply digits_all; eauto; lia).
  pose proof (digits_ascii _ HD) as HB.
  unfold r_int. do 3 (rewrite palt_r by reflexivity).
  rewrite (pbind_m _ _ _ (Some tt) (n + 1, map digit_char l)) by reflexivity.
  rewrite (pbind_m _ _ _ (map digit_char l) (n + 1 + length (map digit_char l), [])).
  2: { rewrite <- HB. apply prun1_all; auto. destruct l; [congruence|discriminate]. }
  unfold pret. rewrite <- Nat.add_assoc. f_equal. rewrite Hp. f_equal.
  change (45%N :: map digit_char l) with ((if true then [45%N] else []) ++ map digit_char l).
  rewrite parse_digits by (auto; lia). cbn iota. rewrite H2, Z2N.id by auto. auto.
Qed.

(** ** Literals *)
Lemma is_digit_cases c : is_digit c = true ->
  (c = 48 \/ c = 49 \/ c = 50 \/ c = 51 \/ c = 52 \/ c = 53 \/ c = 54 \/ c = 55 \/ c = 56 \/ c = 57)%N.
Proof. unfold is_digit. lia. Qed.

Lemma numeral_digits text v : numeral 10 text v -> text <> [] /\ Forall (fun c => is_digit c = true) text /\ (0 <= v)%Z.
Proof.
  intros H. change 10%Z with (Z.of_N 10) in H.
  destruct (numeral_spec 10 text v ltac:(lia) H) as (l & H0 & H1 & -> & H2 & H3).
  split; [destruct l; [congruence|discriminate]|]. split; auto. eapply digits_all; eauto; lia.
Qed.

Lemma float_rule_fails o text n (neg : bool) : text <> [] -> Forall (fun c => is_digit c = true) text ->
  r_FLOAT o (n, (if neg then [45%N] else []) ++ text) = PFail.
Proof.
  intros H0 H1. unfold r_FLOAT.
  assert (E : forall k, pbind (prun1 is_digit) (fun i => plit (str ".") >>
     pnot (plit (str ".")) >> on fr <- prun is_digit;
     (fun s => pret (match o_f64_parse o (s ++ i ++ [46%N] ++ fr) with Some f => f | None => fzero end)) k) 
     (n + (if neg then 1 else 0), text) = PFail).
  { intros k. rewrite (pbind_m _ _ _ _ _ (prun1_all is_digit text _ H0 H1)). apply pbind_f. reflexivity. }
  destruct neg.
  - rewrite (pbind_m _ _ _ (Some tt) (n + 1, text)) by reflexivity. apply (E [45%N]).
  - cbn [app]. rewrite (pbind_m _ _ _ None (n, text)).
    + rewrite Nat.add_0_r in E. apply (E []).
    + unfold popt. change (str "-") with [45%N]. destruct text as [|c t]; [congruence|]. rewrite plit_ne; auto.
      inversion H1; subst. unfold is_digit in *; lia.
Qed.

Lemma kw_ne x xs c s n : (x =? c)%N = false -> kw (x :: xs) (n, c :: s) = PFail.
Proof. intros H. unfold kw. apply pbind_f, plit_ne; auto. Qed.

Lemma kw_hi w c s n : (57 <? hd 0 w)%N = true -> (c <= 57)%N -> kw w (n, c :: s) = PFail.
Proof. destruct w as [|x xs]; cbn [hd]; intros H1 H2; [discriminate|]. apply kw_ne. lia. Qed.

Lemma literal_int o k text v (neg : bool) n : numeral 10 text v ->
  r_literal o (S k) (n, (if neg then [45%N] else []) ++ text) =
  PMatch (LInt (or0 (fits i64_min i64_max (if neg then - v else v)%Z)))
         (n + length ((if neg then [45%N] else []) ++ text), []).
Proof.
  intros Hn. destruct (numeral_digits _ _ Hn) as (H0 & H1 & H2).
  assert (F : exists c t, (if neg then [45%N] else []) ++ text = c :: t /\ (45 <= c <= 57)%N /\ c <> 46%N).
  { destruct neg; [cbn; eexists _, _; split; [reflexivity|lia]|]. destruct text as [|c t]; [congruence|].
    exists c, t. split; auto. inversion H1; subst. unfold is_digit in *; lia. }
  destruct F as (c & t & E & Hc & Hc').
  cbn [r_literal]. rewrite E.
  rewrite palt_r by (apply pbind_f, kw_hi; [reflexivity|lia]).
  rewrite palt_r by (apply pbind_f, kw_hi; [reflexivity|lia]).
  rewrite palt_r by (apply pbind_f, kw_hi; [reflexivity|lia]).
  rewrite palt_r by (apply pbind_f; unfold r_HEX; apply pbind_f, (plit_ne 35); lia).
  rewrite <- E.
  rewrite palt_r by (apply pbind_f, float_rule_fails; auto).
  assert (I32 : r_INT32 (n, (if neg then [45%N] else []) ++ text) =
    PMatch (or0 (fits (- 2 ^ 31) (2 ^ 31 - 1) (if neg then - v else v)%Z)) (n + length ((if neg then [45%N] else []) ++ text), [])).
  { destruct neg; [apply int_rule_neg|apply int_rule]; auto. }
  assert (I64 : r_INT (n, (if neg then [45%N] else []) ++ text) =
    PMatch (or0 (fits i64_min i64_max (if neg then - v else v)%Z)) (n + length ((if neg then [45%N] else []) ++ text), [])).
  { destruct neg; [apply int_rule_neg|apply int_rule]; auto. }
  rewrite palt_r.
  2: { rewrite (pbind_m _ _ _ _ _ I32). reflexivity. }
  erewrite palt_l; [reflexivity|]. rewrite (pbind_m _ _ _ _ _ I64). reflexivity.
Qed.

Lemma parse_literal_int o k text v (neg : bool) : numeral 10 text v ->
  parse_literal o (S k) ((if neg then [45%N] else []) ++ text) =
  PMatch (LInt (or0 (fits i64_min i64_max (if neg then - v else v)%Z)))
         (length ((if neg then [45%N] else []) ++ text), []).
Proof. intros H. unfold parse_literal, whole. pose proof (literal_int o k text v neg 0 H) as L. unfold rstring in *.
  rewrite L. reflexivity. Qed.

(** ** Programs *)
Lemma ws_none n c s :
  is_simple_ws c = false -> c <> 92%N -> c <> 13%N -> c <> 10%N -> c <> 59%N -> c <> 47%N ->
  ws_ (n, c :: s) = PMatch tt (n, c :: s).
Proof.
  intros H1 H2 H3 H4 H5 H6. apply N.eqb_neq in H2, H3, H4, H5, H6.
  assert (HT : r_TERM (n, c :: s) = PFail).
  { unfold r_TERM. rewrite palt_r.
    - apply plit_ne. rewrite N.eqb_sym; auto.
    - rewrite (pbind_m _ _ _ None (n, c :: s)).
      + apply plit_ne. rewrite N.eqb_sym; auto.
      + unfold popt. rewrite plit_ne; auto. rewrite N.eqb_sym; auto. }
  assert (HC : r_COMMENT (n, c :: s) = PFail).
  { unfold r_COMMENT. apply pbind_f, plit_ne. rewrite N.eqb_sym; auto. }
  unfold ws_. rewrite (pbind_m _ _ _ [] (n, c :: s)); [reflexivity|].
  unfold pstar. cbn [pstar_go].
  rewrite palt_r.
  2: { unfold r_WHITESPACE. rewrite palt_r.
       - apply pbind_f, plit_ne. rewrite N.eqb_sym; auto.
       - apply pbind_f. unfold pchar. cbn [snd]. rewrite H1. auto. }
  rewrite palt_r; [rewrite HC; auto|].
  unfold r_TERMINATOR. rewrite (pbind_m _ _ _ None (n, c :: s)); [exact HT|]. unfold popt. rewrite HC; auto.
Qed.
Lemma ws_nil n : ws_ (n, []) = PMatch tt (n, []).
Proof. reflexivity. Qed.

Lemma pfirst_skip {A} (p : P A) l i : p i = PFail -> pfirst (p :: l) i = pfirst l i.
Proof. intros H. cbn [pfirst fold_right]. rewrite palt_r; auto. Qed.
Lemma pfirst_hit {A} (p : P A) l i a j : p i = PMatch a j -> pfirst (p :: l) i = PMatch a j.
Proof. intros H. cbn [pfirst fold_right]. erewrite palt_l; eauto. Qed.

Lemma climb_nil o id k min n : climb o id (S (S k)) min (n, []) = PFail.
Proof. reflexivity. Qed.
Lemma post_nil o id k fuel min start lhs n :
  post_loop id (climb o id fuel) (S k) min start lhs (n, []) = PMatch lhs (n, []).
Proof.
  cbn [post_loop].
  assert (E : pfirst (posts (climb o id fuel) min lhs) (n, []) = PFail).
  { unfold posts, infixes. cbn [map app].
    repeat (rewrite pfirst_skip; [|destruct (min <=? _); reflexivity]).
    rewrite pfirst_skip by reflexivity. rewrite pfirst_skip by reflexivity. reflexivity. }
  rewrite E. reflexivity.
Qed.

Lemma ident_digit id n c s : is_digit c = true -> ident id (n, c :: s) = PFail.
Proof.
  intros H. unfold ident, sp_of. rewrite (pbind_m _ _ _ n (n, c :: s)) by reflexivity.
  apply pbind_f. unfold r_IDENT. apply pbind_f. unfold pchar. cbn [snd].
  replace (is_start c) with false; auto. unfold is_start, is_lower, is_upper. unfold is_digit in H. lia.
Qed.

(** Everything that is tried before a literal fails on a numeral. *)
Lemma ws_digit n c s : is_digit c = true -> ws_ (n, c :: s) = PMatch tt (n, c :: s).
Proof.
  intros H. unfold is_digit in H. apply ws_none; try lia. unfold is_simple_ws. lia.
Qed.

Lemma atoms_int o id cl k text v n : numeral 10 text v ->
  pfirst (prefix_atoms o id cl (S k)) (n, text) =
  PMatch (NLiteral (LInt (or0 (fits i64_min i64_max v)))) (n + length text, []).
Proof.
  intros Hn. destruct (numeral_digits _ _ Hn) as (H0 & H1 & H2).
  assert (I32 : r_INT32 (n, text) = PMatch (or0 (fits (- 2 ^ 31) (2 ^ 31 - 1) v)) (n + length text, [])).
  { apply int_rule; auto. }
  destruct text as [|c t]; [congruence|]. inversion H1 as [|? ? Hc _]; subst.
  assert (Hc' : (48 <= c <= 57)%N) by (unfold is_digit in Hc; lia).
  unfold prefix_atoms. cbn [app prefixes map fst snd].
  assert (KW : forall w {B} (q : unit -> P B), (57 <? hd 0 w)%N = true -> pbind (kw w) q (n, c :: t) = PFail).
  { intros w B q Hx. apply pbind_f, kw_hi; [auto|lia]. }
  assert (PL : forall w {B} (q : unit -> P B), w <> [] -> is_digit (hd 0%N w) = false -> pbind (plit w) q (n, c :: t) = PFail).
  { intros w B q Hw Hx. destruct w as [|x xs]; [congruence|]. apply pbind_f, plit_ne.
    cbn [hd] in Hx. apply N.eqb_neq. congruence. }
  do 4 (rewrite pfirst_skip; [|apply KW; reflexivity]).
  rewrite pfirst_skip by (apply pbind_f, ident_digit; auto).
  rewrite pfirst_skip; [|apply KW; reflexivity].
  rewrite pfirst_skip.
  2: { cbn [r_if]. rewrite (pbind_m _ _ _ _ _ (ws_digit n c t Hc)). apply KW; reflexivity. }
  rewrite pfirst_skip.
  2: { unfold r_switch. rewrite (pbind_m _ _ _ _ _ (ws_digit n c t Hc)). apply KW; reflexivity. }
  do 5 (rewrite pfirst_skip; [|apply KW; reflexivity]).
  rewrite pfirst_skip.
  2: { rewrite (pbind_m _ _ _ _ _ I32). reflexivity. }
  do 3 (rewrite pfirst_skip; [|apply PL; [discriminate|reflexivity]]).
  erewrite pfirst_hit; [reflexivity|].
  pose proof (literal_int o k (c :: t) v false n Hn) as L. cbn [app] in L.
  rewrite (pbind_m _ _ _ _ _ L). reflexivity.
Qed.

Lemma climb_S o id fuel min i : climb o id (S fuel) min i =
  match pfirst (prefix_atoms o id (climb o id fuel) fuel) i with
  | PMatch x i' =>
      post_loop id (climb o id fuel) (S (length (snd i'))) min (fst i)
                (x, mkSpan (fst i) (fst i') id) i'
  | PFail => PFail
  | PFuel => PFuel
  end.
Proof. reflexivity. Qed.

Lemma climb_int o id k min text v n : numeral 10 text v ->
  climb o id (S (S k)) min (n, text) =
  PMatch (NLiteral (LInt (or0 (fits i64_min i64_max v))), mkSpan n (n + length text) id) (n + length text, []).
Proof.
  intros Hn. rewrite climb_S, (atoms_int o id _ k text v n Hn). cbn [fst snd length].
  apply post_nil.
Qed.

Lemma parse_int_program o id k text v : numeral 10 text v ->
  parse_code o (S (S k)) text id =
  PMatch [(NLiteral (LInt (or0 (fits i64_min i64_max v))), mkSpan 0 (length text) id)] (length text, []).
Proof.
  intros Hn. destruct (numeral_digits _ _ Hn) as (H0 & H1 & H2).
  pose proof (climb_int o id k 0 text v 0 Hn) as HC. cbn [Nat.add] in HC.
  unfold parse_code, whole. unfold r_code.
  assert (W : ws_ (0, text) = PMatch tt (0, text)).
  { destruct text as [|c t]; [congruence|]. inversion H1; subst. apply ws_digit; auto. }
  rewrite (pbind_m _ _ _ _ _ W). rewrite (pbind_m _ _ _ 0 (0, text)) by reflexivity.
  set (x := (NLiteral (LInt (or0 (fits i64_min i64_max v))), mkSpan 0 (length text) id)) in *.
  assert (HS : psep (climb o id (S (S k)) 0) (plit (str ";") <|> ws_) (0, text) = PMatch [x] (length text, [])).
  { unfold psep. rewrite (palt_l _ _ _ [x] (length text, [])); [reflexivity|].
    unfold psep1. rewrite (pbind_m _ _ _ _ _ HC). reflexivity. }
  rewrite (pbind_m _ _ _ (Some [x]) (length text, [])); [reflexivity|].
  unfold popt. rewrite HS. reflexivity.
Qed.
