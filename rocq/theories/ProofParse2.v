(** Colour and integer literals. *)
From Verif Require Import Base Float NumText Value Ast Args Builtins Parse SpecArith ProofArith4 SpecParse.
Ltac Zify.zify_post_hook ::= Z.div_mod_to_equations.

Lemma palt_r {A} (p q : P A) i : p i = PFail -> palt p q i = q i.
Proof. unfold palt; intros ->; auto. Qed.
Lemma palt_l {A} (p q : P A) i a j : p i = PMatch a j -> palt p q i = PMatch a j.
Proof. unfold palt; intros ->; auto. Qed.
Lemma pbind_m {A B} (p : P A) (k : A -> P B) i a j : p i = PMatch a j -> pbind p k i = k a j.
Proof. unfold pbind; intros ->; auto. Qed.
Lemma pbind_f {A B} (p : P A) (k : A -> P B) i : p i = PFail -> pbind p k i = PFail.
Proof. unfold pbind; intros ->; auto. Qed.

Definition bytes_in (s : rstring) : nat := N.to_nat (slen s).
Lemma bytes_in_cons c s : bytes_in (c :: s) = N.to_nat (utf8_len c) + bytes_in s.
Proof. unfold bytes_in, slen; cbn [fold_right]; lia. Qed.
Lemma bytes_in_ascii s : Forall (fun c => (c < 128)%N) s -> bytes_in s = length s.
Proof.
  induction 1 as [|c s Hc _ IH]; [reflexivity|]. rewrite bytes_in_cons, IH.
  unfold utf8_len. apply N.ltb_lt in Hc; rewrite Hc. reflexivity.
Qed.

Definition stops (f : N -> bool) (s : rstring) : Prop :=
  match s with c :: _ => f c = false | [] => True end.
Lemma prun_go_app f l rest : forall n, Forall (fun c => f c = true) l -> stops f rest ->
  prun_go f n (l ++ rest) = (l, (n + bytes_in l, rest)).
Proof.
  induction l as [|c l IH]; intros n Hl Hr.
  - cbn [app]. replace (n + bytes_in []) with n by (unfold bytes_in; cbn; lia).
    destruct rest as [|c r]; cbn; auto. cbn in Hr; rewrite Hr; auto.
  - inversion Hl; subst. cbn [app prun_go]. rewrite H1, IH by auto. rewrite bytes_in_cons.
    f_equal. f_equal. lia.
Qed.
Lemma prun_app f l rest n : Forall (fun c => f c = true) l -> stops f rest ->
  prun f (n, l ++ rest) = PMatch l (n + bytes_in l, rest).
Proof. intros H1 H2. unfold prun. cbn [fst snd]. rewrite prun_go_app by auto. auto. Qed.
Lemma prun1_app f l rest n : l <> [] -> Forall (fun c => f c = true) l -> stops f rest ->
  prun1 f (n, l ++ rest) = PMatch l (n + bytes_in l, rest).
Proof.
  intros H0 H1 H2. unfold prun1. rewrite (pbind_m _ _ _ _ _ (prun_app f l rest n H1 H2)).
  destruct l; [congruence|reflexivity].
Qed.
Lemma prun1_all f l n : l <> [] -> Forall (fun c => f c = true) l ->
  prun1 f (n, l) = PMatch l (n + bytes_in l, []).
Proof. intros H0 H1. rewrite <- (app_nil_r l) at 1. apply prun1_app; cbn; auto. Qed.

(** ** Colours *)
Lemma hex_digit_is c v : hex_digit c v -> is_hex c = true /\ char_digit 16 c = Some v /\ (v < 16)%N /\ (c < 128)%N /\ c <> 35%N /\ c <> 43%N /\ c <> 45%N.
Proof.
  intros (k & Hk & -> & H).
  do 16 (destruct k as [|k]; [destruct H as [-> | ->]; vm_compute; repeat split; congruence|]). lia.
Qed.
Lemma is_hex_digit c : is_hex c = true -> exists v, hex_digit c v.
Proof.
  unfold is_hex, is_digit. intros H.
  assert (C : (48 <= c <= 57 \/ 97 <= c <= 102 \/ 65 <= c <= 70)%N) by lia. clear H.
  assert (G : forall k, k < 16 -> (c = nth k (str "0123456789abcdef") 0%N \/ c = nth k (str "0123456789ABCDEF") 0%N) ->
              exists v, hex_digit c v) by (intros k H1 H2; exists (N.of_nat k), k; auto).
  destruct C as [C|[C|C]].
  - assert (H : (c = 48 \/ c = 49 \/ c = 50 \/ c = 51 \/ c = 52 \/ c = 53 \/ c = 54 \/ c = 55 \/ c = 56 \/ c = 57)%N) by lia.
    destruct H as [->|[->|[->|[->|[->|[->|[->|[->|[->| ->]]]]]]]]];
    [apply (G 0)|apply (G 1)|apply (G 2)|apply (G 3)|apply (G 4)|apply (G 5)|apply (G 6)|apply (G 7)|apply (G 8)|apply (G 9)];
    try lia; left; reflexivity.
  - assert (H : (c = 97 \/ c = 98 \/ c = 99 \/ c = 100 \/ c = 101 \/ c = 102)%N) by lia.
    destruct H as [->|[->|[->|[->|[->| ->]]]]];
    [apply (G 10)|apply (G 11)|apply (G 12)|apply (G 13)|apply (G 14)|apply (G 15)]; try lia; left; reflexivity.
  - assert (H : (c = 65 \/ c = 66 \/ c = 67 \/ c = 68 \/ c = 69 \/ c = 70)%N) by lia.
    destruct H as [->|[->|[->|[->|[->| ->]]]]];
    [apply (G 10)|apply (G 11)|apply (G 12)|apply (G 13)|apply (G 14)|apply (G 15)]; try lia; right; reflexivity.
Qed.

Lemma split_sign_hex c v s : hex_digit c v -> split_sign (c :: s) = (false, c :: s).
Proof.
  intros H; apply hex_digit_is in H as (_ & _ & _ & _ & _ & H1 & H2). cbn [split_sign].
  apply N.eqb_neq in H1, H2. rewrite H1, H2. auto.
Qed.
Lemma u8_or1 d c v : hex_digit c v -> u8_or d [c] = v.
Proof.
  intros H. unfold u8_or, u8_hex, parse_int. rewrite (split_sign_hex c v) by auto.
  pose proof (hex_digit_is c v H) as (_ & H1 & H2 & _). cbn [digits_val]. rewrite H1.
  rewrite N.mul_0_l, N.add_0_l. replace ((0 <=? Z.of_N v) && (Z.of_N v <=? 255))%Z with true by lia.
  apply N2Z.id.
Qed.
Lemma u8_or2 d c v c' v' : hex_digit c v -> hex_digit c' v' -> u8_or d [c; c'] = (16 * v + v')%N.
Proof.
  intros H H'. unfold u8_or, u8_hex, parse_int. rewrite (split_sign_hex c v) by auto.
  pose proof (hex_digit_is c v H) as (_ & H1 & H2 & _).
  pose proof (hex_digit_is c' v' H') as (_ & H1' & H2' & _). cbn [digits_val]. rewrite H1, H1'.
  rewrite N.mul_0_l, N.add_0_l. replace ((0 <=? Z.of_N (v * 16 + v')) && (Z.of_N (v * 16 + v') <=? 255))%Z with true by lia.
  rewrite N2Z.id. lia.
Qed.

Lemma trim_hash_hex ds : Forall (fun c => is_hex c = true) ds -> trim_hash ds = ds.
Proof.
  destruct 1 as [|c ds Hc _]; auto. cbn [trim_hash]. destruct (N.eqb_spec c 35) as [->|]; auto. discriminate.
Qed.

Lemma hash_literal o k ds : ds <> [] -> Forall (fun c => is_hex c = true) ds ->
  parse_literal o (S k) (35%N :: ds) =
  match hex_to_rgba ds with
  | Some (r, g, b, a) => PMatch (LColor r g b a) (S (length ds), [])
  | None => PFail
  end.
Proof.
  intros H0 H1. unfold parse_literal, whole. cbn [r_literal].
  do 3 (rewrite palt_r by reflexivity).
  assert (E : r_HEX (0, 35%N :: ds) =
              match hex_to_rgba ds with Some c => PMatch c (S (length ds), []) | None => PFail end).
  { unfold r_HEX. rewrite (pbind_m _ _ _ tt (1, ds)) by reflexivity.
    rewrite (pbind_m _ _ _ _ _ (prun1_all is_hex ds 1 H0 H1)).
    rewrite bytes_in_ascii.
    - destruct (hex_to_rgba ds); reflexivity.
    - eapply Forall_impl; [|exact H1]. intros c Hc. unfold is_hex, is_digit in Hc; lia. }
  destruct (hex_to_rgba ds) as [[[[r g] b] a]|].
  - rewrite (palt_l _ _ _ (LColor r g b a) (S (length ds), [])); [reflexivity|].
    rewrite (pbind_m _ _ _ _ _ E). reflexivity.
  - rewrite palt_r; [reflexivity|]. apply pbind_f. exact E.
Qed.

Lemma hex3 o k a b c x y z : hex_digit a x -> hex_digit b y -> hex_digit c z ->
  parse_literal o (S k) (35%N :: [a; b; c]) = PMatch (LColor (17 * x) (17 * y) (17 * z) 255) (4, []).
Proof.
  intros A B C. pose proof (hex_digit_is _ _ A) as (Ha & _). pose proof (hex_digit_is _ _ B) as (Hb & _).
  pose proof (hex_digit_is _ _ C) as (Hc & _).
  rewrite hash_literal by (try discriminate; auto).
  unfold hex_to_rgba. rewrite trim_hash_hex by auto. cbn [length Nat.eqb firstn skipn Nat.sub].
  rewrite (u8_or1 _ a x), (u8_or1 _ b y), (u8_or1 _ c z) by auto. reflexivity.
Qed.
Lemma hex6 o k a b c d e f x y z u v w :
  hex_digit a x -> hex_digit b y -> hex_digit c z -> hex_digit d u -> hex_digit e v -> hex_digit f w ->
  parse_literal o (S k) (35%N :: [a; b; c; d; e; f]) =
    PMatch (LColor (16 * x + y) (16 * z + u) (16 * v + w) 255) (7, []).
Proof.
  intros A B C D E F. rewrite hash_literal; [|discriminate|].
  2: { pose proof (hex_digit_is _ _ A) as (Ha & _). pose proof (hex_digit_is _ _ B) as (Hb & _).
       pose proof (hex_digit_is _ _ C) as (Hc & _). pose proof (hex_digit_is _ _ D) as (Hd & _).
       pose proof (hex_digit_is _ _ E) as (He & _). pose proof (hex_digit_is _ _ F) as (Hf & _). auto 10. }
  unfold hex_to_rgba. rewrite trim_hash_hex.
  2: { pose proof (hex_digit_is _ _ A) as (Ha & _). pose proof (hex_digit_is _ _ B) as (Hb & _).
       pose proof (hex_digit_is _ _ C) as (Hc & _). pose proof (hex_digit_is _ _ D) as (Hd & _).
       pose proof (hex_digit_is _ _ E) as (He & _). pose proof (hex_digit_is _ _ F) as (Hf & _). auto 10. }
  cbn [length Nat.eqb Nat.ltb Nat.leb orb firstn skipn Nat.sub].
  rewrite (u8_or2 _ a x b y), (u8_or2 _ c z d u), (u8_or2 _ e v f w) by auto. reflexivity.
Qed.
Lemma hex8 o k a b c d e f g h x y z u v w p q :
  hex_digit a x -> hex_digit b y -> hex_digit c z -> hex_digit d u -> hex_digit e v -> hex_digit f w ->
  hex_digit g p -> hex_digit h q ->
  parse_literal o (S k) (35%N :: [a; b; c; d; e; f; g; h]) =
    PMatch (LColor (16 * x + y) (16 * z + u) (16 * v + w) (16 * p + q)) (9, []).
Proof.
  intros A B C D E F G H.
  assert (AH : Forall (fun c => is_hex c = true) [a; b; c; d; e; f; g; h]).
  { pose proof (hex_digit_is _ _ A) as (Ha & _). pose proof (hex_digit_is _ _ B) as (Hb & _).
    pose proof (hex_digit_is _ _ C) as (Hc & _). pose proof (hex_digit_is _ _ D) as (Hd & _).
    pose proof (hex_digit_is _ _ E) as (He & _). pose proof (hex_digit_is _ _ F) as (Hf & _).
    pose proof (hex_digit_is _ _ G) as (Hg & _). pose proof (hex_digit_is _ _ H) as (Hh & _). auto 10. }
  rewrite hash_literal; [|discriminate|exact AH].
  unfold hex_to_rgba. rewrite trim_hash_hex by exact AH.
  cbn [length Nat.eqb Nat.ltb Nat.leb orb firstn skipn Nat.sub].
  rewrite (u8_or2 _ a x b y), (u8_or2 _ c z d u), (u8_or2 _ e v f w), (u8_or2 _ g p h q) by auto. reflexivity.
Qed.
Lemma hex_other o k ds : Forall (fun c => exists v, hex_digit c v) ds ->
  length ds <> 3 -> ~ (6 <= length ds <= 8) -> parse_literal o (S k) (35%N :: ds) = PFail.
Proof.
  intros H H3 H6. destruct ds as [|c ds]; [reflexivity|].
  assert (AH : Forall (fun c => is_hex c = true) (c :: ds)).
  { eapply Forall_impl; [|exact H]. intros x (v & Hv). apply hex_digit_is in Hv; tauto. }
  rewrite hash_literal; [|discriminate|exact AH]. unfold hex_to_rgba. rewrite trim_hash_hex by exact AH.
  apply Nat.eqb_neq in H3. rewrite H3.
  replace ((length (c :: ds) <? 6) || (8 <? length (c :: ds))) with true by lia. reflexivity.
Qed.

Lemma hex_char n : (n < 16)%N -> hex_digit (digit_char n) n.
Proof.
  intros H. exists (N.to_nat n). split; [lia|]. split; [lia|]. left.
  assert (C : (n = 0 \/ n = 1 \/ n = 2 \/ n = 3 \/ n = 4 \/ n = 5 \/ n = 6 \/ n = 7 \/ n = 8 \/ n = 9 \/
               n = 10 \/ n = 11 \/ n = 12 \/ n = 13 \/ n = 14 \/ n = 15)%N) by lia.
  repeat (destruct C as [->|C]; [reflexivity|]). subst; reflexivity.
Qed.
Lemma color_text_parses {Fn} o' (fi : fn_info Fn) o k r g b a :
  (r < 256)%N -> (g < 256)%N -> (b < 256)%N -> (a < 256)%N ->
  parse_literal o (S k) (display o' fi (VColor r g b a)) = PMatch (LColor r g b a) (9, []).
Proof.
  intros Hr Hg Hb Ha.
  change (display o' fi (VColor r g b a)) with
    (35%N :: [digit_char (r / 16); digit_char (r mod 16); digit_char (g / 16); digit_char (g mod 16);
              digit_char (b / 16); digit_char (b mod 16); digit_char (a / 16); digit_char (a mod 16)]).
  erewrite hex8; [|apply hex_char; lia ..].
  repeat f_equal; lia.
Qed.
