(** Texts of programs: numbers and literals. *)
From Verif Require Import Base Float NumText Ast Parse SpecArith SpecParse SpecExpr SpecProg ProofParse ProofParse2 ProofParse3 ProofParse4 ProofExpr ProofProg.
From Verif Require SpecLib ProofLib3.

Ltac ff := solve [apply ev_3; intros ?; reflexivity].

(** No word and no number goes on there. *)
Definition apart (s : rstring) : Prop := match s with c :: _ => is_word c = false /\ c <> 46%N | [] => True end.
Lemma apart_breaks s : apart s -> breaks s.
Proof. destruct s; [auto|]. intros [H _]. exact H. Qed.
Lemma apart_not c s : is_word c = false -> c <> 46%N -> apart (c :: s).
Proof. intros; split; auto. Qed.
Lemma breaks_digit s : breaks s -> stops is_digit s.
Proof. destruct s as [|c s]; [auto|]. cbn. unfold is_word. intros H. destruct (is_digit c); auto. rewrite orb_true_r in H. discriminate. Qed.
Lemma breaks_hex s : breaks s -> stops is_hex s.
Proof.
  destruct s as [|c s]; [auto|]. cbn. unfold is_word, is_start, is_hex, is_lower, is_upper, is_digit. lia.
Qed.
(** No colon and integer. *)
Definition norange (s : rstring) : Prop := forall n B (q : Z -> P B), (ws_ >> plit (str ":") >> ws_ >> on e <- r_INT32; q e) (n, s) = PFail.

(** ** Integers *)
Lemma signed radix cs ds lo hi : (2 <= radix <= 36)%N -> cs <> [] -> Forall2 (SpecLib.digit_sign (Z.of_N radix)) cs ds ->
  (lo <= digits_value (Z.of_N radix) ds <= hi)%Z -> parse_int lo hi radix cs = Some (digits_value (Z.of_N radix) ds).
Proof.
  intros Hr Hc Hd Hb. apply ProofLib3.parse_int_iff; auto. split; auto. exists [], cs, ds. repeat split; auto.
Qed.
Lemma signed_neg radix cs ds lo hi : (2 <= radix <= 36)%N -> cs <> [] -> Forall2 (SpecLib.digit_sign (Z.of_N radix)) cs ds ->
  (lo <= - digits_value (Z.of_N radix) ds <= hi)%Z -> parse_int lo hi radix (45%N :: cs) = Some (- digits_value (Z.of_N radix) ds)%Z.
Proof.
  intros Hr Hc Hd Hb. apply ProofLib3.parse_int_iff; auto. split; auto. exists (str "-"), cs, ds. repeat split; auto.
Qed.
Lemma numeral_signs radix t z : (radix <= 36)%N -> numeral (Z.of_N radix) t z -> t <> [] /\ exists ds, Forall2 (SpecLib.digit_sign (Z.of_N radix)) t ds /\
  digits_value (Z.of_N radix) ds = z.
Proof.
  intros Hr (ds & Hn & Hd & -> & <-). split; [destruct ds; [congruence|discriminate]|]. exists ds. split; auto.
  clear Hn. induction Hd; cbn [map]; constructor; auto. split; [lia|]. left. reflexivity.
Qed.
Lemma hex_signs t vs : Forall2 hex_digit t vs -> Forall2 (SpecLib.digit_sign 16) t (map Z.of_N vs) /\ Forall (fun c => is_hex c = true) t.
Proof.
  induction 1 as [|c v t vs H _ IH]; [split; constructor|]. destruct IH. cbn [map]. split; constructor; auto.
  2: { apply (hex_digit_is c v H). }
  destruct H as (k & Hk & -> & Hc). split; [lia|]. replace (Z.to_nat (Z.of_N (N.of_nat k))) with k by lia.
  do 16 (destruct k as [|k]; [cbn in *; tauto|]). lia.
Qed.
Lemma numeral_run radix (f : N -> bool) t z : (radix <= 10)%N -> (forall d, (d < radix)%N -> f (48 + d)%N = true) ->
  numeral (Z.of_N radix) t z -> Forall (fun c => f c = true) t /\ Forall (fun c => is_digit c = true) t.
Proof.
  intros Hr Hf (ds & _ & Hd & -> & _).
  assert (H : forall d, (0 <= d < Z.of_N radix)%Z -> digit_text d = (48 + Z.to_N d)%N).
  { intros d Hd'. assert (d < 10)%Z by lia. unfold digit_text.
    replace (Z.to_nat d) with (N.to_nat (Z.to_N d)) by lia. destruct (ProofLib3.lower_is (Z.to_N d) ltac:(lia)) as [E _]. rewrite E.
    destruct (N.ltb_spec (Z.to_N d) 10); lia. }
  split; apply Forall_forall; intros c Hc; apply in_map_iff in Hc as (d & <- & Hi); rewrite Forall_forall in Hd; pose proof (Hd d Hi); rewrite H by auto.
  - apply Hf. lia.
  - unfold is_digit. lia.
Qed.
Lemma digits_10 t z : numeral 10 t z -> Forall (fun c => is_digit c = true) t.
Proof. intros H. apply (numeral_digits t z H). Qed.

Lemma zero_x x c s r n : Forall (fun c => is_digit c = true) (c :: s) -> is_start x = true -> breaks r ->
  plit [48%N; x] (n, (c :: s) ++ r) = PFail.
Proof.
  intros H Hx Hr. cbn [app]. destruct (N.eqb_spec 48 c) as [<-|Hc]; [|apply plit_ne, N.eqb_neq; auto].
  transitivity (plit [x] (n + 1, s ++ r)); [reflexivity|].
  destruct s as [|d s].
  - cbn [app]. destruct r as [|d r]; [reflexivity|]. apply plit_ne. apply N.eqb_neq. intros <-.
    cbn in Hr. unfold is_word in Hr. rewrite Hx in Hr. discriminate.
  - cbn [app]. apply plit_ne. apply N.eqb_neq. intros <-. inversion H as [|? ? _ H2]; subst. inversion H2; subst.
    unfold is_start, is_lower, is_upper in Hx. unfold is_digit in *. lia.
Qed.
Lemma int_reads lo hi parse z t n rest :
  (forall radix s, parse radix s = parse_int lo hi radix s) -> integer_text z t -> (lo <= z <= hi)%Z -> breaks rest ->
  r_int parse (n, t ++ rest) = PMatch z (n + length t, rest).
Proof.
  intros Hp Ht Hz Hr.
  assert (R : forall (f : N -> bool) cs j, cs <> [] -> Forall (fun c => f c = true) cs -> Forall (fun c => (c < 128)%N) cs -> stops f rest -> 
     prun1 f (j, cs ++ rest) = PMatch cs (j + length cs, rest)).
  { intros f cs j H0 H1 H2 H3. rewrite <- (bytes_in_ascii cs) by auto. apply prun1_app; auto. }
  assert (DA : forall cs, Forall (fun c => is_digit c = true) cs -> Forall (fun c => (c < 128)%N) cs).
  { intros cs. apply Forall_impl. intros c. unfold is_digit. lia. }
  destruct Ht as [z t Ht|z t Ht|t vs Hn Ht|z t Ht|z t Ht]; unfold r_int.
  - destruct (numeral_signs 10 t z ltac:(lia) Ht) as (Hn & ds & Hd & <-). pose proof (digits_10 _ _ Ht) as HD.
    destruct t as [|c t]; [congruence|].
    change (str "0b") with [48%N; 98%N]. change (str "0x") with [48%N; 120%N]. change (str "0o") with [48%N; 111%N].
    do 3 (rewrite palt_r by (apply pbind_f, zero_x; auto)).
    rewrite (pbind_m _ _ _ None (n, (c :: t) ++ rest)).
    2: { unfold popt. change (str "-") with [45%N]. cbn [app]. rewrite plit_ne; auto. inversion HD; subst. unfold is_digit in *. lia. }
    rewrite (pbind_m _ _ _ _ _ (R is_digit (c :: t) n Hn HD (DA _ HD) (breaks_digit _ Hr))). rewrite Hp.
    unfold pret. rewrite (signed 10 (c :: t) ds lo hi); auto; lia.
  - destruct (numeral_signs 10 t z ltac:(lia) Ht) as (Hn & ds & Hd & <-). pose proof (digits_10 _ _ Ht) as HD.
    do 3 (rewrite palt_r by reflexivity).
    rewrite (pbind_m _ _ _ (Some tt) (n + 1, t ++ rest)) by reflexivity.
    rewrite (pbind_m _ _ _ _ _ (R is_digit t (n + 1) Hn HD (DA _ HD) (breaks_digit _ Hr))). rewrite Hp.
    unfold pret. rewrite (signed_neg 10 t ds lo hi); auto; try lia. rewrite <- Nat.add_assoc. reflexivity.
  - destruct (hex_signs _ _ Ht) as [Hd HD].
    rewrite palt_r by reflexivity. erewrite palt_l; [reflexivity|].
    rewrite (pbind_m _ _ _ tt (n + 2, t ++ rest)) by (cbn; unfold pret; f_equal; f_equal; lia).
    rewrite (pbind_m _ _ _ _ _ (R is_hex t (n + 2) Hn HD ltac:(eapply Forall_impl; [|exact HD]; intros c; unfold is_hex, is_digit; lia) (breaks_hex _ Hr))).
    rewrite Hp. unfold pret. rewrite (signed 16 t (map Z.of_N vs) lo hi); auto; try lia. rewrite <- Nat.add_assoc. reflexivity.
  - destruct (numeral_signs 8 t z ltac:(lia) Ht) as (Hn & ds & Hd & <-).
    destruct (numeral_run 8 is_oct t (digits_value 8 ds) ltac:(lia)) as [HO HD]; [intros d Hd'; unfold is_oct; lia|exact Ht|].
    do 2 rewrite palt_r by reflexivity. erewrite palt_l; [reflexivity|].
    rewrite (pbind_m _ _ _ tt (n + 2, t ++ rest)) by (cbn; unfold pret; f_equal; f_equal; lia).
    rewrite (pbind_m _ _ _ _ _ (R is_oct t (n + 2) Hn HO (DA _ HD) ltac:(destruct rest as [|e rest]; [exact Logic.I|apply breaks_digit in Hr; cbn in *; unfold is_oct, is_digit in *; lia]))).
    rewrite Hp. unfold pret. rewrite (signed 8 t ds lo hi); auto; try lia. rewrite <- Nat.add_assoc. reflexivity.
  - destruct (numeral_signs 2 t z ltac:(lia) Ht) as (Hn & ds & Hd & <-).
    destruct (numeral_run 2 is_bin t (digits_value 2 ds) ltac:(lia)) as [HO HD]; [intros d Hd'; unfold is_bin; lia|exact Ht|].
    erewrite palt_l; [reflexivity|].
    rewrite (pbind_m _ _ _ tt (n + 2, t ++ rest)) by (cbn; unfold pret; f_equal; f_equal; lia).
    rewrite (pbind_m _ _ _ _ _ (R is_bin t (n + 2) Hn HO (DA _ HD) ltac:(destruct rest as [|e rest]; [exact Logic.I|apply breaks_digit in Hr; cbn in *; unfold is_bin, is_digit in *; lia]))).
    rewrite Hp. unfold pret. rewrite (signed 2 t ds lo hi); auto; try lia. rewrite <- Nat.add_assoc. reflexivity.
Qed.
Lemma int64_reads z t n rest : integer_text z t -> i64_range z -> breaks rest -> r_INT (n, t ++ rest) = PMatch z (n + length t, rest).
Proof. intros Ht Hz Hr. apply (int_reads i64_min i64_max); auto. unfold i64_range in Hz. unfold i64_min, i64_max. lia. Qed.
Lemma int32_reads z t n rest : integer_text z t -> i32_range z -> breaks rest -> r_INT32 (n, t ++ rest) = PMatch z (n + length t, rest).
Proof. intros Ht Hz Hr. apply (int_reads (- 2 ^ 31) (2 ^ 31 - 1)); auto. unfold i32_range in Hz. lia. Qed.
(** Two outcomes that differ in the value only. *)
Definition like {A B} (r : pres A) (s : pres B) : Prop :=
  match r, s with PMatch _ i, PMatch _ j => i = j | PFail, PFail | PFuel, PFuel => True | _, _ => False end.
Lemma like_alt {A B} (p q : P A) (p' q' : P B) i : like (p i) (p' i) -> like (q i) (q' i) -> like (palt p q i) (palt p' q' i).
Proof. unfold palt. destruct (p i), (p' i); cbn; tauto. Qed.
Lemma like_bind {A B C} (p : P A) (k : A -> P B) (k' : A -> P C) i : (forall a j, like (k a j) (k' a j)) -> like (pbind p k i) (pbind p k' i).
Proof. unfold pbind. intros H. destruct (p i); cbn; auto. Qed.
(** Whatever fits: an integer is read. *)
Lemma int32_some z t n rest : integer_text z t -> breaks rest -> exists v, r_INT32 (n, t ++ rest) = PMatch v (n + length t, rest).
Proof.
  intros Ht Hr.
  (* the same rule with wide bounds reads the same characters *)
  assert (E : forall (p q : N -> rstring -> option Z) i v j, r_int p i = PMatch v j -> exists u, r_int q i = PMatch u j).
  { clear. intros p q i v j H.
    assert (L : like (r_int p i) (r_int q i)); [|rewrite H in L; destruct (r_int q i); cbn in L; try contradiction; subst; eauto].
    unfold r_int. repeat apply like_alt; repeat (apply like_bind; intros ? ?); reflexivity. }
  eapply E. apply (int_reads z z (parse_int z z)); eauto. lia.
Qed.

(** ** Floats *)
Lemma digits_is t : digits t -> Forall (fun c => is_digit c = true) t.
Proof. apply Forall_impl. intros c. unfold digit_c, is_digit. lia. Qed.
Lemma float_reads o t n rest f : float_text t -> apart rest -> 
  (o_f64_parse o t = Some f -> r_FLOAT o (n, t ++ rest) = PMatch f (n + length t, rest)) /\
  (o_f64_parse o (str "-" ++ t) = Some f -> r_FLOAT o (n, str "-" ++ t ++ rest) = PMatch f (n + S (length t), rest)).
Proof.
  intros (i & fr & -> & Hn & Hi & Hf) Hr. apply digits_is in Hi, Hf.
  assert (K : forall s j, (on i <- prun1 is_digit; plit (str ".") >> pnot (plit (str ".")) >> on fr <- prun is_digit;
      let t := (match s : option unit with Some _ => [45%N] | None => [] end) ++ i ++ [46%N] ++ fr in
      pret (match o_f64_parse o t with Some f => f | None => fzero end)) (j, (i ++ str "." ++ fr) ++ rest) =
    PMatch (match o_f64_parse o ((match s with Some _ => [45%N] | None => [] end) ++ i ++ [46%N] ++ fr) with Some f => f | None => fzero end)
      (j + length (i ++ str "." ++ fr), rest)).
  { intros s j. rewrite <- !app_assoc.
    rewrite (pbind_m _ _ _ i (j + length i, str "." ++ fr ++ rest)).
    2: { rewrite <- (digits_ascii i) by auto. apply prun1_app; auto. reflexivity. }
    rewrite (pbind_m _ _ _ tt (j + length i + 1, fr ++ rest)) by reflexivity.
    rewrite (pbind_m _ _ _ tt (j + length i + 1, fr ++ rest)).
    2: { unfold pnot. replace (plit (str ".") (j + length i + 1, fr ++ rest)) with (@PFail unit); [reflexivity|].
         symmetry. destruct Hf as [|c fr Hc Hf]; cbn [app].
         - destruct rest as [|c rest]; [reflexivity|]. apply (plit_ne 46). apply N.eqb_neq. destruct Hr. congruence.
         - apply (plit_ne 46). apply N.eqb_neq. intros <-. discriminate. }
    rewrite (pbind_m _ _ _ fr (j + length i + 1 + length fr, rest)).
    2: { rewrite <- (digits_ascii fr) by auto. apply prun_app; auto. apply breaks_digit, apart_breaks; auto. }
    unfold pret. rewrite !app_length. change (length (str ".")) with 1. do 2 f_equal. lia. }
  unfold r_FLOAT. split; intros Ho.
  - rewrite (pbind_m _ _ _ None (n, (i ++ str "." ++ fr) ++ rest)).
    2: { unfold popt. destruct i as [|c i]; [congruence|]. cbn [app]. change (str "-") with [45%N]; rewrite (plit_ne 45); auto. inversion Hi; subst. unfold is_digit in *. lia. }
    rw (K None n). cbn [app]. unfold rstring in Ho. change (i ++ str "." ++ fr) with (i ++ 46%N :: fr) in *. rewrite Ho. reflexivity.
  - rewrite (pbind_m _ _ _ (Some tt) (n + 1, (i ++ str "." ++ fr) ++ rest)) by reflexivity.
    rw (K (Some tt) (n + 1)). cbn [app]. change (str "-" ++ i ++ str "." ++ fr) with (45%N :: i ++ 46%N :: fr) in Ho. rewrite Ho.
    change (i ++ str "." ++ fr) with (i ++ 46%N :: fr). do 2 f_equal. lia.
Qed.
(** No integer is a float. *)
Lemma not_dot rest n {B} (q : unit -> P B) : match rest with c :: _ => c <> 46%N | [] => True end -> pbind (plit (str ".")) q (n, rest) = PFail.
Proof. intros H. apply pbind_f. destruct rest as [|c r]; [reflexivity|]. apply (plit_ne 46), N.eqb_neq. congruence. Qed.
Lemma float_fails o z t n rest : integer_text z t -> breaks rest -> match rest with c :: _ => c <> 46%N | [] => True end ->
  r_FLOAT o (n, t ++ rest) = PFail.
Proof.
  intros Ht Hr Hd.
  assert (L : forall t z j, numeral 10 t z -> prun1 is_digit (j, t ++ rest) = PMatch t (j + length t, rest)).
  { intros u v j Hu. pose proof (digits_10 _ _ Hu) as HD. rewrite <- (digits_ascii u) by auto. apply prun1_app; auto.
    - apply (numeral_digits u v Hu).
    - apply breaks_digit; auto. }
  destruct Ht as [z t Ht|z t Ht|t vs Hn Ht|z t Ht|z t Ht]; try reflexivity; unfold r_FLOAT.
  - rewrite (pbind_m _ _ _ None (n, t ++ rest)).
    + rewrite (pbind_m _ _ _ _ _ (L t z n Ht)). apply not_dot; auto.
    + unfold popt. destruct (numeral_digits t z Ht) as (H1 & H2 & _). destruct t as [|c t]; [congruence|]. cbn [app].
      change (str "-") with [45%N]; rewrite (plit_ne 45); auto. inversion H2; subst. unfold is_digit in *. lia.
  - rewrite (pbind_m _ _ _ (Some tt) (n + 1, t ++ rest)) by reflexivity.
    rewrite (pbind_m _ _ _ _ _ (L t z (n + 1) Ht)). apply not_dot; auto.
Qed.

(** ** First characters *)
Definition number_char (c : N) : Prop := digit_c c \/ c = 45%N.
Lemma integer_first z t : integer_text z t -> exists c t', t = c :: t' /\ number_char c.
Proof.
  intros [z' t' Ht|z' t' Ht|t' vs Hn Ht|z' t' Ht|z' t' Ht].
  - destruct (numeral_digits t' z' Ht) as (H1 & H2 & _). destruct t' as [|c r]; [congruence|]. exists c, r. split; auto.
    left. inversion H2; subst. unfold is_digit, digit_c in *. lia.
  - exists 45%N, t'. split; auto. right; auto.
  - exists 48%N, (120%N :: t'). split; auto. left. unfold digit_c; lia.
  - exists 48%N, (111%N :: t'). split; auto. left. unfold digit_c; lia.
  - exists 48%N, (98%N :: t'). split; auto. left. unfold digit_c; lia.
Qed.
Lemma float_first t : float_text t -> exists c t', t = c :: t' /\ digit_c c.
Proof.
  intros (i & f & -> & Hn & Hi & _). destruct i as [|c i]; [congruence|]. exists c, (i ++ str "." ++ f). split; auto. inversion Hi; auto.
Qed.
Lemma number_solid c : number_char c -> solid c.
Proof. unfold number_char, digit_c, solid, is_simple_ws. intros H. repeat split; lia. Qed.
Definition literal_char (c : N) : Prop := number_char c \/ In c (str "tfn#([" ++ [34%N]).
Lemma literal_first pf l t : literal_text pf l t -> exists c t', t = c :: t' /\ literal_char c.
Proof.
  intros H. destruct H as [| | |z t Hz|f t Hf _|f t Hf _|a b ta tb g g' Ha|l t Hc|s|a b ta tb|l t]; cbn [app str].
  1-3: eexists _, _; split; [reflexivity|right; cbn; tauto].
  - destruct (integer_first _ _ Hz) as (c & t' & -> & Hc). eexists _, _; split; [reflexivity|left; auto].
  - destruct (float_first _ Hf) as (c & t' & -> & Hc). eexists _, _; split; [reflexivity|left; left; auto].
  - eexists _, _; split; [reflexivity|left; right; auto].
  - destruct (integer_first _ _ Ha) as (c & t' & -> & Hc). eexists _, _; split; [reflexivity|left; auto].
  - destruct Hc; eexists _, _; (split; [reflexivity|right; cbn; tauto]).
  - eexists _, _; split; [reflexivity|right; cbn; tauto].
  - eexists _, _; split; [reflexivity|right; cbn; tauto].
  - eexists _, _; split; [reflexivity|right; cbn; tauto].
Qed.
Lemma literal_solid c : literal_char c -> solid c.
Proof.
  intros [H|H]; [apply number_solid; auto|]. cbn in H. decompose [or] H; subst; try contradiction; repeat split; discriminate || reflexivity.
Qed.
Lemma literal_clear pf l t s : literal_text pf l t -> clear (t ++ s).
Proof. intros H. destruct (literal_first pf l t H) as (c & t' & -> & Hc). apply clear_solid, literal_solid; auto. Qed.
Lemma integer_clear z t s : integer_text z t -> clear (t ++ s).
Proof. intros H. destruct (integer_first z t H) as (c & t' & -> & Hc). apply clear_solid, number_solid; auto. Qed.
Lemma lits_clear pf ls t s : literals_text pf ls t -> ls <> [] -> exists g t', t = g ++ t' /\ gap g /\ clear (t' ++ s) /\ literals_text pf ls t'.
Proof.
  intros H Hn. destruct H as [g Hg|l t g g' Hl Hg Hg'|l l' r t t' g g' Hl Hr Hg Hg']; [congruence| |].
  - exists g, (t ++ g'). split; auto. split; auto. split.
    + rewrite <- app_assoc. eapply literal_clear; eauto.
    + apply (ls_last pf l t [] g'); auto. constructor.
  - exists g, (t ++ g' ++ str "," ++ t'). split; auto. split; auto. split.
    + rewrite <- app_assoc. eapply literal_clear; eauto.
    + apply (ls_more pf l l' r t t' [] g'); auto. constructor.
Qed.

(** ** Repetition *)
Inductive runs {A} (p : nat -> P A) : inp -> list A -> inp -> Prop :=
| ru_nil i : F p i -> runs p i [] i
| ru_cons i a i' l j : M p i a i' -> length (snd i') < length (snd i) -> runs p i' l j -> runs p i (a :: l) j.
Lemma M_star {A} (p : nat -> P A) i l j : runs p i l j -> M (fun k => pstar (p k)) i l j.
Proof.
  intros H. assert (G : forall n, length (snd i) < n -> M (fun k => pstar_go n (p k)) i l j).
  { induction H as [i H|i a i' l j H HL _ IH]; intros n Hn; (destruct n as [|n]; [lia|]); cbn [pstar_go].
    - eapply ev_imp; [apply H|]. cbn. intros k E. rewrite E. reflexivity.
    - eapply ev_imp; [apply (ev_and _ _ H (IH n ltac:(lia)))|]. cbn. intros k [E E']. rewrite E, E'. reflexivity. }
  apply (G (S (length (snd i)))). lia.
Qed.
Lemma runs_end {A} (p : nat -> P A) i l j : runs p i l j -> length (snd j) <= length (snd i).
Proof. induction 1; lia. Qed.

(** ** Lists with commas *)
(** [Q] is asked of the white space behind the last item. *)
Inductive list_text {A} (Q : rstring -> Prop) (I : A -> rstring -> Prop) : list A -> rstring -> Prop :=
| li_none g : gap g -> list_text Q I [] g
| li_last a t g g' : I a t -> gap g -> gap g' -> Q g' -> list_text Q I [a] (g ++ t ++ g')
| li_more a a' l t t' g g' : I a t -> list_text Q I (a' :: l) t' -> gap g -> gap g' ->
    list_text Q I (a :: a' :: l) (g ++ t ++ g' ++ str "," ++ t').

Section Items.
Context {A B : Type} (T : A -> B -> Prop) (X : nat -> P B) (Q : rstring -> Prop).
(** An item that is read before white space and a comma or the end of the list. *)
Definition item (tl : rstring) (a : A) (t : rstring) : Prop := 
  (forall s, clear (t ++ s)) /\ t <> [] /\
  forall g s n, gap g -> (starts (fun c => c = 44%N) s \/ (s = tl /\ Q g)) -> exists b n' g', T a b /\ gap g' /\ length g' <= length g /\
    M X (n, t ++ g ++ s) b (n', g' ++ s).
Definition piece (k : nat) : P B := ws_ >> on y <- X k; ws_ >> pret y.

Lemma comma_clear s : clear (str "," ++ s).
Proof. apply clear_solid. repeat split; discriminate || reflexivity. Qed.
Lemma piece_reads tl a t g g' s n : item tl a t -> gap g -> gap g' -> clear s -> (starts (fun c => c = 44%N) s \/ (s = tl /\ Q g')) ->
  exists b n', T a b /\ M piece (n, g ++ t ++ g' ++ s) b (n', s).
Proof.
  intros (Hc & Hn & Ht) Hg Hg' Hs Hs'. destruct (Ht g' s (n + bytes_in g) Hg' Hs') as (b & n' & g2 & Hb & Hg2 & _ & HM).
  exists b, (n' + bytes_in g2). split; auto. unfold piece.
  eapply (M_bind (fun _ => ws_)); [apply M_ws; auto|].
  eapply (M_bind X); [apply HM|]. eapply (M_bind (fun _ => ws_)); [apply M_ws; auto|]. apply M_ret.
Qed.
Lemma items_read tl l t : clear tl -> ~ starts (fun c => c = 44%N) tl -> list_text Q (item tl) l t -> l <> [] -> forall n,
  exists b r n', Forall2 T l (b :: r) /\ 
    (exists i, M piece (n, t ++ tl) b i /\ length (snd i) < length t + length tl /\ runs (fun k => plit (str ",") >> piece k) i r (n', tl)).
Proof.
  intros Hc Hn HL. induction HL as [g Hg|a t g g' Ha Hg Hg' Hq|a a' l t t' g g' Ha HL IH Hg Hg']; intros Hl n; [congruence| |].
  - destruct (piece_reads tl a t g g' tl n Ha Hg Hg' Hc (or_intror (conj eq_refl Hq))) as (b & n' & Hb & HM).
    exists b, [], n'. split; [constructor; auto|]. exists (n', tl). rewrite <- !app_assoc. split; auto. split.
    + cbn [snd]. destruct Ha as (_ & Hne & _). destruct t; [congruence|]. rewrite !app_length. cbn [length]. lia.
    + apply ru_nil. apply (F_bind (fun _ => plit (str ","))). apply F_k. destruct tl as [|c tl]; [reflexivity|].
      apply (plit_ne 44). apply N.eqb_neq. intros <-. apply Hn. reflexivity.
  - destruct (piece_reads tl a t g g' (str "," ++ t' ++ tl) n Ha Hg Hg' (comma_clear _) (or_introl eq_refl)) as (b & n' & Hb & HM).
    destruct (IH ltac:(discriminate) (n' + bytes_in (str ","))) as (b' & r & n2 & Hr & i & Hi & HLi & Hruns).
    exists b, (b' :: r), n2. split; [constructor; auto|]. exists (n', str "," ++ t' ++ tl).
    replace ((g ++ t ++ g' ++ str "," ++ t') ++ tl) with (g ++ t ++ g' ++ str "," ++ t' ++ tl) by (rewrite <- !app_assoc; reflexivity).
    split; auto. split.
    + cbn [snd]. destruct Ha as (_ & Hne & _). destruct t; [congruence|]. rewrite !app_length. cbn [length app]. rewrite ?app_length. lia.
    + eapply ru_cons with (i' := i).
      * eapply (M_bind (fun _ => plit (str ","))); [apply M_lit|]. exact Hi.
      * cbn [snd]. rewrite !app_length. change (length (str ",")) with 1. unfold rstring in *. lia.
      * exact Hruns.
Qed.
Lemma first_gap l t tl : list_text Q (item tl) l t -> exists g t', t = g ++ t' /\ gap g /\ clear (t' ++ tl) /\ list_text Q (item tl) l t' \/ l = [] /\ gap t.
Proof.
  intros [g Hg|a t' g g' Ha Hg Hg' Hq|a a' r t' t'' g g' Ha HL Hg Hg'].
  - exists [], []. right; auto.
  - exists g, (t' ++ g'). left. split; auto. split; auto. split; [rewrite <- app_assoc; apply Ha|]. apply (li_last _ _ a t' [] g'); auto. constructor.
  - exists g, (t' ++ g' ++ str "," ++ t''). left. split; auto. split; auto. split; [rewrite <- app_assoc; apply Ha|].
    apply (li_more _ _ a a' r t' t'' [] g'); auto. constructor.
Qed.
Lemma sep1_reads tl l t n : clear tl -> ~ starts (fun c => c = 44%N) tl -> list_text Q (item tl) l t -> l <> [] ->
  exists bs n', Forall2 T l bs /\ M (fun k => psep1 (piece k) (plit (str ","))) (n, t ++ tl) bs (n', tl).
Proof.
  intros Hc Hn HL Hl. destruct (items_read tl l t Hc Hn HL Hl n) as (b & r & n' & HT & i & Hi & _ & Hr).
  exists (b :: r), n'. split; auto. unfold psep1. eapply (M_bind piece); [exact Hi|]. eapply M_bind; [apply M_star, Hr|]. apply M_ret.
Qed.
Lemma tail_reads tl n bs : clear tl -> ~ starts (fun c => c = 44%N) tl -> 
  M (fun _ => popt (plit (str ",")) >> ws_ >> pret (A := list B) bs) (n, tl) bs (n, tl).
Proof.
  intros Hc Hn. eapply (M_bind (fun _ => popt (plit (str ",")))).
  - apply (M_none (fun _ => plit (str ","))). apply F_k. destruct tl as [|c tl]; [reflexivity|].
    apply (plit_ne 44). apply N.eqb_neq. intros <-. apply Hn. reflexivity.
  - eapply (M_bind (fun _ => ws_)); [apply M_ws0; auto|]. apply M_ret.
Qed.
Lemma M_commasepp tl l t n : clear tl -> ~ starts (fun c => c = 44%N) tl -> list_text Q (item tl) l t -> l <> [] ->
  exists bs n', Forall2 T l bs /\ M (fun k => commasepp (X k)) (n, t ++ tl) bs (n', tl).
Proof.
  intros Hc Hn HL Hl. destruct (first_gap l t tl HL) as (g & t' & [(-> & Hg & Ht' & HL')|(-> & _)]); [|congruence].
  destruct (sep1_reads tl l t' (n + bytes_in g) Hc Hn HL' Hl) as (bs & n' & HT & HM). exists bs, n'. split; auto.
  unfold commasepp. rewrite <- app_assoc. eapply (M_bind (fun _ => ws_)); [apply M_ws; auto|].
  eapply M_bind; [apply HM|]. apply tail_reads; auto.
Qed.
Lemma M_commasep tl l t n : clear tl -> ~ starts (fun c => c = 44%N) tl -> list_text Q (item tl) l t -> (forall n, F X (n, tl)) ->
  exists bs n', Forall2 T l bs /\ M (fun k => commasep (X k)) (n, t ++ tl) bs (n', tl).
Proof.
  intros Hc Hn HL HF. destruct (first_gap l t tl HL) as (g & t' & [(-> & Hg & Ht' & HL')|(-> & Hg)]).
  - destruct l as [|a l].
    { inversion HL'; subst. exists [], (n + bytes_in g + bytes_in t'). split; auto. unfold commasep. rewrite <- app_assoc.
      replace (n + bytes_in g + bytes_in t') with (n + bytes_in (g ++ t')) by (rewrite bytes_app; lia). rewrite app_assoc.
      eapply (M_bind (fun _ => ws_)); [apply M_ws; auto; apply gap_app; auto|].
      eapply M_bind with (a := []); [|apply tail_reads; auto]. unfold psep.
      apply (M_right (fun k => psep1 (piece k) (plit (str ",")))); [|apply M_ret].
      unfold psep1. apply (F_bind piece). eapply (F_bind2 (fun _ => ws_)); [apply M_ws0; auto|]. apply (F_bind X). apply HF. }
    destruct (sep1_reads tl (a :: l) t' (n + bytes_in g) Hc Hn HL' ltac:(discriminate)) as (bs & n' & HT & HM). exists bs, n'. split; auto.
    unfold commasep. rewrite <- app_assoc. eapply (M_bind (fun _ => ws_)); [apply M_ws; auto|].
    eapply M_bind; [unfold psep; apply (M_left (fun k => psep1 (piece k) (plit (str ",")))); apply HM|]. apply tail_reads; auto.
  - exists [], (n + bytes_in t). split; auto. unfold commasep.
    eapply (M_bind (fun _ => ws_)); [apply M_ws; auto|].
    eapply M_bind with (a := []); [|apply tail_reads; auto]. unfold psep.
    apply (M_right (fun k => psep1 (piece k) (plit (str ",")))); [|apply M_ret].
    unfold psep1. apply (F_bind piece). eapply (F_bind2 (fun _ => ws_)); [apply M_ws0; auto|]. apply (F_bind X). apply HF.
Qed.
End Items.
Lemma list_text_imp {A} Q (I J : A -> rstring -> Prop) l t : (forall a t, I a t -> J a t) -> list_text Q I l t -> list_text Q J l t.
Proof. intros H. induction 1; constructor; auto. Qed.
