(** Conversions (C80), assertions (C81), types (C82) and mathematical functions (C83). *)
From Verif Require Import Base RleVec Pool Float NumText Chunk Value Ast Arith VmOps Args Builtins SpecArith SpecBuiltins SpecText SpecLib
  ProofArith4 ProofBuiltins ProofBuiltins3 ProofConsole5 ProofText ProofLib.
Local Open Scope Z_scope.

(** ** Numerals *)
Lemma f2_len {A B} (P : A -> B -> Prop) l l' : Forall2 P l l' -> length l = length l'.
Proof. induction 1; cbn; congruence. Qed.
Lemma nat_z z : 0 <= z -> exists n, z = Z.of_N n.
Proof. intros H. exists (Z.to_N z). lia. Qed.
Lemma lower_is d : (d < 36)%N ->
  nth (N.to_nat d) (str "0123456789abcdefghijklmnopqrstuvwxyz") 0%N = (if d <? 10 then 48 + d else 87 + d)%N /\
  nth (N.to_nat d) (str "0123456789ABCDEFGHIJKLMNOPQRSTUVWXYZ") 0%N = (if d <? 10 then 48 + d else 55 + d)%N.
Proof.
  intros H. assert (K : all_below 36 (fun d =>
    (nth (N.to_nat d) (str "0123456789abcdefghijklmnopqrstuvwxyz") 0 =? (if d <? 10 then 48 + d else 87 + d)) &&
    (nth (N.to_nat d) (str "0123456789ABCDEFGHIJKLMNOPQRSTUVWXYZ") 0 =? (if d <? 10 then 48 + d else 55 + d)))%N = true)
    by (vm_compute; reflexivity).
  pose proof (all_below_ok _ _ K d H) as E. cbv beta in E. apply andb_true_iff in E as [E1 E2].
  apply N.eqb_eq in E1, E2. split; assumption.
Qed.
Lemma char_digit_iff radix c d : (2 <= radix <= 36)%N ->
  (char_digit radix c = Some d <-> digit_sign (Z.of_N radix) c (Z.of_N d)).
Proof.
  intros Hr. unfold char_digit, digit_sign. rewrite Z_N_nat, N2Z.id || rewrite <- (N2Z.id d) at 2.
  assert (T : Z.to_nat (Z.of_N d) = N.to_nat d) by lia. rewrite ?T.
  split.
  - match goal with |- context[(?x <? radix)%N] => set (e := x) end. destruct (N.ltb_spec e radix) as [He|]; [|discriminate].
    intros [= <-]. destruct (lower_is e ltac:(lia)) as [-> ->]. split; [lia|]. subst e.
    repeat match goal with |- context[if ?b then _ else _] => destruct b eqn:? end; lia.
  - intros [Hd HH]. assert (Hd' : (d < radix)%N) by lia. destruct (lower_is d ltac:(lia)) as [E1 E2]. rewrite E1, E2 in HH.
    match goal with |- context[(?x <? radix)%N] => assert (K : x = d) end.
    { destruct (N.ltb_spec d 10); destruct HH as [->| ->];
      repeat match goal with |- context[if ?b then _ else _] => destruct b eqn:? end; lia. }
    rewrite K. destruct (N.ltb_spec d radix); [reflexivity|lia].
Qed.
Lemma digits_val_iff radix : (2 <= radix <= 36)%N -> forall s a n,
  digits_val radix a s = Some n <->
  exists ds, Forall2 (digit_sign (Z.of_N radix)) s ds /\
    Z.of_N n = Z.of_N a * Z.of_N radix ^ Z.of_nat (length s) + digits_value (Z.of_N radix) ds.
Proof.
  intros Hr. induction s as [|c s IH]; intros a n; cbn [digits_val].
  - split.
    + intros [= ->]. exists []. split; [constructor|]. cbn. lia.
    + intros (ds & H & E). inversion H; subst. cbn in E. f_equal. lia.
  - assert (P : Z.of_N radix ^ Z.of_nat (length (c :: s)) = Z.of_N radix * Z.of_N radix ^ Z.of_nat (length s)).
    { cbn [length]. rewrite Nat2Z.inj_succ, Z.pow_succ_r by lia. reflexivity. }
    rewrite P. split.
    + destruct (char_digit radix c) as [d|] eqn:E; [|discriminate]. intros H. apply IH in H as (ds & H1 & H2).
      exists (Z.of_N d :: ds). split; [constructor; [now apply char_digit_iff|exact H1]|]. cbn [digits_value].
      rewrite <- (f2_len _ _ _ H1). rewrite H2. rewrite N2Z.inj_add, N2Z.inj_mul. ring.
    + intros (ds & H & E). inversion H as [|? d ? ds' Hd Hs]; subst. destruct (nat_z d) as [d' ->].
      { destruct Hd as [? _]. lia. }
      apply (char_digit_iff _ _ _ Hr) in Hd. rewrite Hd. apply IH. exists ds'. split; [exact Hs|]. rewrite E. cbn [digits_value].
      rewrite <- (f2_len _ _ _ Hs), N2Z.inj_add, N2Z.inj_mul. ring.
Qed.
Lemma not_digit radix c d : (2 <= radix <= 36)%N -> digit_sign (Z.of_N radix) c d -> c <> 45%N /\ c <> 43%N.
Proof.
  intros Hr H. destruct (nat_z d) as [d' ->]; [destruct H; lia|]. apply char_digit_iff in H; [|assumption].
  split; intros ->; cbv [char_digit] in H; cbn in H.
  - destruct (N.ltb_spec 99 radix); [lia|discriminate].
  - destruct (N.ltb_spec 99 radix); [lia|discriminate].
Qed.
Theorem parse_int_iff lo hi radix s z : (2 <= radix <= 36)%N ->
  (parse_int lo hi radix s = Some z <-> signed_numeral (Z.of_N radix) s z /\ lo <= z <= hi).
Proof.
  intros Hr. unfold parse_int. split.
  - assert (K : forall neg ds, match ds with [] => None | _ :: _ =>
        match digits_val radix 0 ds with Some n => let z := (if (neg : bool) then - Z.of_N n else Z.of_N n)%Z in
          if ((lo <=? z) && (z <=? hi))%Z then Some z else None | None => None end end = Some z ->
        ds <> [] /\ lo <= z <= hi /\ exists vs, Forall2 (digit_sign (Z.of_N radix)) ds vs /\
          z = if neg then - digits_value (Z.of_N radix) vs else digits_value (Z.of_N radix) vs).
    { intros neg [|c t]; [discriminate|]. destruct (digits_val radix 0 (c :: t)) as [n|] eqn:E; [|discriminate].
      cbv zeta. apply digits_val_iff in E as (vs & H1 & H2); [|assumption]. rewrite Z.mul_0_l, Z.add_0_l in H2. rewrite H2.
      match goal with |- context[if ?b then Some _ else _] => destruct b eqn:B end; [|discriminate].
      intros [= <-]. split; [discriminate|]. split; [lia|]. exists vs. split; [exact H1|reflexivity]. }
    destruct (split_sign s) as [neg ds] eqn:Es. intros H. apply K in H as (H0 & H1 & vs & H2 & H3). split; [|exact H1].
    destruct s as [|c t]; cbn [split_sign] in Es; [injection Es as <- <-; contradiction|].
    destruct (N.eqb_spec c 45) as [->|]; [|destruct (N.eqb_spec c 43) as [->|]]; injection Es as <- <-.
    + exists [45%N], t, vs. repeat split; auto.
    + exists [43%N], t, vs. repeat split; auto.
    + exists [], (c :: t), vs. repeat split; auto.
  - intros [(sgn & cs & ds & -> & Hne & H & Hz) Hb].
    assert (K : exists neg, split_sign (sgn ++ cs) = (neg, cs) /\ z = if (neg : bool) then - digits_value (Z.of_N radix) ds else digits_value (Z.of_N radix) ds).
    { destruct Hz as [[[->| ->] ->]|[-> ->]].
      - exists false. split; [|reflexivity]. destruct H as [|c d cs ds Hc Hcs]; [contradiction|]. cbn [split_sign app].
        destruct (not_digit _ _ _ Hr Hc) as [N1 N2]. apply N.eqb_neq in N1, N2. now rewrite N1, N2.
      - exists false. split; reflexivity.
      - exists true. split; reflexivity. }
    destruct K as (neg & -> & E). destruct cs as [|c t]; [contradiction|].
    assert (D : digits_val radix 0 (c :: t) = Some (Z.to_N (digits_value (Z.of_N radix) ds))).
    { assert (P : forall l vs, Forall2 (digit_sign (Z.of_N radix)) l vs -> 0 <= digits_value (Z.of_N radix) vs).
      { induction 1 as [|x v l vs [Hv _] _ IH]; cbn [digits_value]; [lia|].
        assert (0 <= Z.of_N radix ^ Z.of_nat (length vs)) by (apply Z.pow_nonneg; lia). nia. }
      apply digits_val_iff; [assumption|]. exists ds. split; [exact H|]. rewrite Z2N.id by (eapply P; eauto). lia. }
    rewrite D. cbv zeta.
    assert (P : 0 <= digits_value (Z.of_N radix) ds).
    { apply digits_val_iff in D as (ds' & _ & D); [|assumption]. clear - H Hr. revert H. generalize (c :: t). intros l H.
      induction H as [|x v l vs [Hv _] _ IH]; cbn [digits_value]; [lia|].
      assert (0 <= Z.of_N radix ^ Z.of_nat (length vs)) by (apply Z.pow_nonneg; lia). nia. }
    rewrite Z2N.id by exact P. rewrite <- E. destruct (Z.leb_spec lo z), (Z.leb_spec z hi); try lia. reflexivity.
Qed.

Section Calls.
Context (mo : mode) (o : oracle) {Fn : Type} (fi : fn_info Fn) (feq : Fn -> Fn -> res bool) (amax : N).
Notation call := (std_call mo o fi feq amax).
Notation val := (gvalue Fn).

Lemma i64_bounds z : i64_min <= z <= i64_max <-> fits64 z.
Proof. unfold i64_min, i64_max, fits64. lia. Qed.
Theorem int_of_text s :
  (forall z, call (str "int") [VString s] = Ok (VInt z) <-> signed_numeral 10 s z /\ fits64 z) /\
  ((exists z, call (str "int") [VString s] = Ok (VInt z)) \/
   call (str "int") [VString s] = Err (EParseError s (str "int"))).
Proof.
  change (call (str "int") [VString s]) with
    (match parse_i64 10 s with Some i => Ok (VInt (Fn := Fn) i) | None => Err (EParseError s (str "int")) end).
  split.
  - intros z. rewrite <- i64_bounds. rewrite <- (parse_int_iff _ _ 10 s z ltac:(lia)). fold (parse_i64 10 s).
    destruct (parse_i64 10 s); split; congruence.
  - destruct (parse_i64 10 s); eauto.
Qed.
Theorem int_of_radix s radix : - 2 ^ 31 <= radix < 2 ^ 31 ->
  (2 <= radix <= 36 ->
    (forall z, call (str "int_from_radix") [VString s; VInt radix] = Ok (VInt z) <-> signed_numeral radix s z /\ fits64 z) /\
    ((exists z, call (str "int_from_radix") [VString s; VInt radix] = Ok (VInt z)) \/
     call (str "int_from_radix") [VString s; VInt radix] = Err (EParseError s (str "int")))) /\
  (~ 2 <= radix <= 36 -> exists t, integer_text radix t /\
    call (str "int_from_radix") [VString s; VInt radix] =
      Err (EBuiltin (str "radix must be between 2 and 36, got `" ++ t ++ str "`"))).
Proof.
  intros Hb. assert (E : call (str "int_from_radix") [VString s; VInt radix] = b_int_from_radix s radix).
  { assert (M : matches [Req PStr; Req PInt32] (b_int_from_radix (Fn := Fn)) [VString s; VInt radix] (b_int_from_radix s radix)).
    { exists s, [VInt radix]. split; [exists (VString s); split; reflexivity|]. exists radix, []. split.
      - exists (VInt radix). split; [reflexivity|]. cbn. split; [assumption|]. exists 0. lia.
      - now split. }
    apply (call_matches fi) in M. exact M. }
  rewrite E. unfold b_int_from_radix. split.
  - intros Hr. replace ((radix <? 2) || (36 <? radix))%Z with false by lia.
    assert (T : to_u32 radix = Z.to_N radix).
    { unfold to_u32. rewrite Z.mod_small by lia. reflexivity. }
    rewrite T. assert (R : Z.of_N (Z.to_N radix) = radix) by lia. split.
    + intros z. rewrite <- i64_bounds. rewrite <- R at 2. rewrite <- (parse_int_iff _ _ (Z.to_N radix) s z ltac:(lia)). fold (parse_i64 (Z.to_N radix) s).
      destruct (parse_i64 (Z.to_N radix) s); split; congruence.
    + destruct (parse_i64 (Z.to_N radix) s); eauto.
  - intros Hr. replace ((radix <? 2) || (36 <? radix))%Z with true by lia. exists (int_text radix).
    split; [apply integer_shown|reflexivity].
Qed.
Theorem int_of_number (v : val) :
  match v with
  | VInt i => call (str "int") [v] = Ok (VInt i)
  | VFloat f => exists z, call (str "int") [v] = Ok (VInt z) /\ float_to_int (- 2 ^ 63) (2 ^ 63 - 1) f z
  | VString _ => True
  | _ => call (str "int") [v] = Err (ECannotConvert (ntype fi v) (str "int"))
  end.
Proof.
  destruct v; try reflexivity. eexists. split; [reflexivity|]. destruct f as [s|s| |s m e]; cbn [float_to_int]; try reflexivity.
  - exists 0. split; reflexivity.
  - eexists. split; [apply trunc_whole|reflexivity].
Qed.
Theorem float_of (v : val) :
  match v with
  | VInt i => call (str "float") [v] = Ok (VFloat (f_of_Z i))
  | VFloat f => call (str "float") [v] = Ok (VFloat f)
  | VString s => call (str "float") [v] =
      match o_f64_parse o s with Some f => Ok (VFloat f) | None => Err (EParseError s (str "float")) end
  | _ => exists t, call (str "float") [v] = Err (ECannotConvert (ntype fi v) t)
  end.
Proof. destruct v; try reflexivity; eexists; reflexivity. Qed.
Theorem bool_of (v : val) :
  match v with
  | VString s => call (str "bool") [v] = Ok (VBool true) /\ s = str "true" \/
                 call (str "bool") [v] = Ok (VBool false) /\ s = str "false" \/
                 call (str "bool") [v] = Err (EParseError s (str "bool")) /\ s <> str "true" /\ s <> str "false"
  | VBool _ | VInt _ | VFloat _ => exists b, call (str "bool") [v] = Ok (VBool b) /\
                                     match truth v with Some P => b = true <-> P | None => False end
  | _ => call (str "bool") [v] = Err (ECannotConvert (ntype fi v) (str "bool"))
  end.
Proof.
  destruct v; try reflexivity.
  - eexists. split; [reflexivity|]. cbn [truth]. tauto.
  - eexists. split; [reflexivity|]. cbn [truth]. destruct (Z.eqb_spec z 0); cbn; split; intros; try discriminate; congruence || reflexivity.
  - eexists. split; [reflexivity|]. cbn [truth]. pose proof (feqb_zero f) as Z0.
    destruct (feqb f fzero); cbn; split; try discriminate; intros H; try reflexivity.
    + destruct (proj1 Z0 eq_refl); tauto.
    + split; intros E; [assert (false = true) by (apply Z0; auto)|assert (false = true) by (apply Z0; auto)]; discriminate.
  - change (call (str "bool") [VString s]) with (if seqb s (str "true") then Ok (VBool (Fn := Fn) true)
      else if seqb s (str "false") then Ok (VBool false) else Err (EParseError s (str "bool"))).
    destruct (seqb s (str "true")) eqn:E1; [left; split; [reflexivity|]; now apply seqb_eq|].
    destruct (seqb s (str "false")) eqn:E2; [right; left; split; [reflexivity|]; now apply seqb_eq|].
    right; right. split; [reflexivity|]. split; intros ->; vm_compute in E1, E2; discriminate.
Qed.
Theorem char_of v : fits64 v ->
  let c := v mod 2 ^ 32 in
  (0 <= c < 55296 \/ 57344 <= c < 1114112 -> call (str "char") [VInt v] = Ok (VString [Z.to_N c])) /\
  (~ (0 <= c < 55296 \/ 57344 <= c < 1114112) -> exists t, integer_text v t /\
     call (str "char") [VInt v] = Err (EBuiltin (str "invalid character code `" ++ t ++ str "`"))).
Proof.
  intros Hv c. assert (Hc : 0 <= c < 2 ^ 32) by (apply Z.mod_pos_bound; lia).
  change (call (str "char") [VInt v]) with (if is_scalar (to_u32 v) then Ok (VString (Fn := Fn) [to_u32 v])
    else Err (EBuiltin (str "invalid character code `" ++ int_text v ++ str "`"))).
  change (to_u32 v) with (Z.to_N c). clearbody c. unfold is_scalar. split; intros H.
  - match goal with |- (if ?b then _ else _) = _ => replace b with true by lia end. reflexivity.
  - match goal with |- context[if ?b then _ else _] => replace b with false by lia end.
    exists (int_text v). split; [apply integer_shown|reflexivity].
Qed.
Theorem color_of_int i : exists r g b a,
  call (str "color") [VInt i] = Ok (VColor r g b a) /\
  (r < 256 /\ g < 256 /\ b < 256 /\ a < 256)%N /\ bytes32 r g b a = i mod 2 ^ 32.
Proof.
  exists (byte_of (Z.shiftr i 24)), (byte_of (Z.shiftr i 16)), (byte_of (Z.shiftr i 8)), (byte_of i).
  split; [reflexivity|]. unfold byte_of, bytes32. rewrite !Z.shiftr_div_pow2 by lia.
  change (2 ^ 24) with 16777216. change (2 ^ 16) with 65536. change (2 ^ 8) with 256. change (2 ^ 32) with 4294967296.
  split; [repeat split; apply N2Z.inj_lt; rewrite Z2N.id; try apply Z.mod_pos_bound; try apply Z.mod_pos_bound; lia|].
  rewrite !Z2N.id by (apply Z.mod_pos_bound; lia).
  Ltac Zify.zify_post_hook ::= Z.div_mod_to_equations.
  replace (i / 16777216) with (i / 256 / 256 / 256) by (rewrite !Z.div_div by lia; f_equal).
  replace (i / 65536) with (i / 256 / 256) by (rewrite !Z.div_div by lia; f_equal).
  set (x := i / 256). set (y := x / 256). set (z := y / 256).
  replace (i mod 4294967296) with (i mod 256 + 256 * (x mod 256 + 256 * (y mod 256 + 256 * (z mod 256)))).
  - ring.
  - subst x y z. rewrite <- (Z.rem_mul_r (i / 256 / 256)) by lia. rewrite <- Z.rem_mul_r by lia. rewrite <- Z.rem_mul_r by lia. reflexivity.
Qed.
Lemma hex_pair c d n : hex_byte c d n -> hex_or 0 [c; d] = n.
Proof.
  intros (x & y & Hx & Hy & E). unfold hex_or, parse_u8_hex.
  assert (P : parse_int 0 255 16 [c; d] = Some (16 * x + y)).
  { apply parse_int_iff; [lia|]. destruct (Hx) as [B1 _], (Hy) as [B2 _]. split; [|lia].
    exists [], [c; d], [x; y]. split; [reflexivity|]. split; [discriminate|]. split; [constructor; [assumption|constructor; [assumption|constructor]]|].
    left. split; [auto|]. cbn [digits_value length]. change (Z.of_N 16) with 16. change (16 ^ Z.of_nat 1) with 16. change (16 ^ Z.of_nat 0) with 1. lia. }
  rewrite P. lia.
Qed.
Lemma hex_not_hash c x : digit_sign 16 c x -> (35 =? c)%N = false.
Proof.
  intros H. destruct (nat_z x) as [d ->]; [destruct H; lia|]. apply (char_digit_iff 16) in H; [|lia].
  destruct (N.eqb_spec 35 c); [|reflexivity]. subst c. discriminate.
Qed.
Lemma trim_hash pre post s : Forall (eq 35%N) pre -> Forall (eq 35%N) post ->
  (forall c t, s = c :: t -> (35 =? c)%N = false) -> (forall c t, s = t ++ [c] -> (35 =? c)%N = false) -> s <> [] ->
  trim_both (N.eqb 35) (pre ++ s ++ post) = s.
Proof.
  intros Hpre Hpost H1 H2 Hne. unfold trim_both, trim_start, trim_end.
  assert (D : forall p q, Forall (eq 35%N) p -> (forall c t, q = c :: t -> (35 =? c)%N = false) -> q <> [] ->
     drop_while (N.eqb 35) (p ++ q) = q).
  { intros p q Hp Hq Hn. induction Hp as [|x p <- Hp IH]; cbn [app drop_while]; [|exact IH].
    destruct q as [|c t]; [contradiction|]. cbn [drop_while]. now rewrite (Hq c t eq_refl). }
  rewrite D; auto.
  - rewrite rev_app_distr, D; [apply rev_involutive|now apply Forall_rev| |].
    + intros c t E. apply (H2 c (rev t)). apply (f_equal (@rev N)) in E. rewrite rev_involutive in E. exact E.
    + intros E. apply (f_equal (@rev N)) in E. rewrite rev_involutive in E. contradiction.
  - intros c t E. destruct s as [|c' s]; [contradiction|]. injection E as <- _. eapply H1; reflexivity.
  - destruct s; [contradiction|discriminate].
Qed.
Ltac ends := intros; match goal with H : _ = _ |- _ =>
  first [injection H as <- _ | apply (f_equal (@rev N)) in H; rewrite rev_app_distr in H; cbn in H; injection H as <- _] end;
  eapply hex_not_hash; eassumption.
Theorem color_of_text pre post : Forall (eq 35%N) pre -> Forall (eq 35%N) post ->
  (forall c1 c2 c3 c4 c5 c6 c7 c8 r g b a,
     hex_byte c1 c2 r -> hex_byte c3 c4 g -> hex_byte c5 c6 b -> hex_byte c7 c8 a ->
     call (str "color") [VString (pre ++ [c1; c2; c3; c4; c5; c6; c7; c8] ++ post)] = Ok (VColor r g b a)) /\
  (forall c1 c2 c3 c4 c5 c6 r g b, hex_byte c1 c2 r -> hex_byte c3 c4 g -> hex_byte c5 c6 b ->
     call (str "color") [VString (pre ++ [c1; c2; c3; c4; c5; c6] ++ post)] = Ok (VColor r g b 255)) /\
  (forall c1 c2 c3 r g b, hex_byte c1 c1 r -> hex_byte c2 c2 g -> hex_byte c3 c3 b ->
     call (str "color") [VString (pre ++ [c1; c2; c3] ++ post)] = Ok (VColor r g b 255)).
Proof.
  intros Hpre Hpost.
  assert (C : forall s, call (str "color") [VString s] = b_color fi (VString s)) by reflexivity.
  split; [|split]; intros;
    repeat match goal with H : hex_byte _ _ _ |- _ => pose proof (hex_pair _ _ _ H); destruct H as (? & ? & ? & ? & ?) end;
    rewrite C; unfold b_color; rewrite (trim_hash pre post) by (assumption || discriminate || ends);
    cbn [firstn]; congruence.
Qed.
Theorem color_length s t : trim_both (N.eqb 35) s = t -> ~ In (length t) [3; 6]%nat -> (length t < 8)%nat ->
  call (str "color") [VString s] = Err (EBuiltin (str "invalid color `" ++ s ++ str "`")).
Proof.
  intros <- H1 H2. change (call (str "color") [VString s]) with (b_color fi (VString s)). unfold b_color.
  rewrite firstn_all2 by lia. set (t := trim_both (N.eqb 35) s) in *. clearbody t.
  destruct t as [|? [|? [|? [|? [|? [|? [|? [|? t]]]]]]]]; try reflexivity; cbn in H1, H2; try tauto; lia.
Qed.

(** ** Assertions *)
Theorem assert_is b : call (str "assert") [VBool b] = if b then Ok VNone else Err (EBuiltin (str "assertion failed")).
Proof. destruct b; reflexivity. Qed.
Theorem assert_eq_is (x y : val) ta tb e :
  call (str "str") [x] = Ok (VString ta) -> call (str "str") [y] = Ok (VString tb) ->
  v_equal feq x y = Ok (VBool e) ->
  let msg sign := str "assertion failed: `(left " ++ sign ++ str " right)`" ++ [10%N] ++ str "  left: `" ++ ta ++ str "`" ++ [10%N]
                  ++ str " right: `" ++ tb ++ str "`" in
  call (str "assert_eq") [x; y] = (if e then Ok VNone else Err (EBuiltin (msg (str "==")))) /\
  call (str "assert_ne") [x; y] = (if e then Err (EBuiltin (msg (str "!="))) else Ok VNone).
Proof.
  intros Ha Hb He. change (call (str "str") [x]) with (Ok (A := val) (VString (display o fi x))) in Ha. change (call (str "str") [y]) with (Ok (A := val) (VString (display o fi y))) in Hb.
  injection Ha as <-. injection Hb as <-. unfold v_equal in He. destruct (geqb feq x y) as [e'|?|] eqn:E; try discriminate He.
  injection He as ->. cbv zeta.
  change (call (str "assert_eq") [x; y]) with (b_assert_eq o fi feq x y). change (call (str "assert_ne") [x; y]) with (b_assert_ne o fi feq x y).
  unfold b_assert_eq, b_assert_ne. rewrite E. cbn [rbind]. destruct e; split; reflexivity.
Qed.
Theorem failures s :
  call (str "panic") [VString s] = Err (EBuiltin s) /\
  call (str "todo") [] = Err (EBuiltin (str "not yet implemented")) /\
  call (str "unreachable") [] = Err (EBuiltin (str "unreachable code reached")).
Proof. repeat split. Qed.

(** ** Mathematical functions *)
Theorem math1 name (v : val) x : num_of v x ->
  In name [str "sin"; str "cos"; str "tan"; str "asin"; str "acos"; str "atan"; str "log2"; str "log10"] ->
  call name [v] = Ok (VFloat (o_math o name [x])).
Proof.
  intros [->|(i & -> & ->)] H; cbn [In] in H; repeat (destruct H as [<-|H]; [reflexivity|]); destruct H.
Qed.
Theorem math_log (v : val) x : num_of v x -> call (str "log") [v] = call (str "log10") [v].
Proof. intros _. reflexivity. Qed.
Theorem math_sqrt (v : val) x : num_of v x -> call (str "sqrt") [v] = Ok (VFloat (fsqrt x)).
Proof. intros [->|(i & -> & ->)]; reflexivity. Qed.
Theorem math_atan2 (v : val) x (w : val) y : num_of v x -> num_of w y -> call (str "atan2") [v; w] = Ok (VFloat (o_math o (str "atan2") [x; y])).
Proof. intros [->|(i & -> & ->)] [->|(j & -> & ->)]; reflexivity. Qed.
Theorem math_interp (v : val) x (w : val) y (u : val) t : num_of v x -> num_of w y -> num_of u t ->
  call (str "interp") [v; w; u] = Ok (VFloat (fadd x (fmul (fsub y x) t))).
Proof. intros [->|(i & -> & ->)] [->|(j & -> & ->)] [->|(k & -> & ->)]; reflexivity. Qed.
Theorem fix_places (v : val) x d : num_of v x -> - 2 ^ 31 <= d < 2 ^ 31 ->
  let p := o_math o (str "powi") [f_of_Z 10; f_of_Z d] in
  (d <> 0 -> call (str "fix") [v; VInt d] = Ok (VFloat (fdiv (f_round (fmul x p)) p))) /\
  call (str "fix") [v; VInt 0] = call (str "int") [v].
Proof.
  intros Hv Hd p. assert (W : wrap32 d = d). { unfold wrap32. lia. }
  split.
  - intros H. destruct Hv as [->|(i & -> & ->)].
    + change (call (str "fix") [VFloat x; VInt d]) with (if d =? 0 then Ok (VInt (f_to_i64 x)) else
        Ok (VFloat (Fn := Fn) (fdiv (f_round (fmul x (powi10 o d))) (powi10 o d)))). unfold powi10. rewrite W.
      destruct (Z.eqb_spec d 0); [contradiction|reflexivity].
    + change (call (str "fix") [VInt i; VInt d]) with (if d =? 0 then Ok (VInt i) else
        Ok (VFloat (Fn := Fn) (fdiv (f_round (fmul (f_of_Z i) (powi10 o d))) (powi10 o d)))). unfold powi10. rewrite W.
      destruct (Z.eqb_spec d 0); [contradiction|reflexivity].
  - destruct Hv as [->|(i & -> & ->)]; reflexivity.
Qed.
End Calls.
Theorem gettype_is mo o feq amax (v : value) : std_call mo o mfi feq amax (str "gettype") [v] = Ok (VString (type_name v)).
Proof. destruct v as [| | | | | | | | | | |[f|f ups]]; reflexivity. Qed.
