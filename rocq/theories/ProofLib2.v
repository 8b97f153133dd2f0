(** Rounding (C79): whole numbers below 2^53 are floats, so rounding is exact. *)
From Coq Require Import QArith Qround.
From Verif Require Import Base Float NumText Value Ast Arith Args Builtins SpecArith SpecLib.
Local Open Scope Z_scope.

Lemma digits_size p : digits2_pos p = Pos.size p.
Proof. induction p; cbn; congruence. Qed.
Lemma digits_shift k p : Z.pos (digits2_pos (shift_pos k p)) = Z.pos (digits2_pos p) + Z.pos k.
Proof.
  unfold shift_pos. revert p. induction k as [|k IH] using Pos.peano_ind; intros p.
  - cbn. lia.
  - rewrite Pos.iter_succ. cbn [digits2_pos]. specialize (IH p). lia.
Qed.
Lemma shift_value k p : Z.pos (shift_pos k p) = Z.pos p * 2 ^ Z.pos k.
Proof.
  unfold shift_pos. revert p. induction k as [|k IH] using Pos.peano_ind; intros p.
  - cbn. lia.
  - rewrite Pos.iter_succ. change (Z.pos (Pos.iter xO p k)~0) with (2 * Z.pos (Pos.iter xO p k)).
    rewrite IH. rewrite Pos2Z.inj_succ, Z.pow_succ_r by lia. lia.
Qed.
Lemma size_bound p n : Z.pos p < 2 ^ n -> 0 <= n -> Z.pos (digits2_pos p) <= n.
Proof.
  intros H Hn. rewrite digits_size. pose proof (Pos.size_le p) as K.
  assert (2 ^ Z.pos (Pos.size p) <= 2 * Z.pos p).
  { change (2 * Z.pos p) with (Z.pos (p~0)). rewrite <- Pos2Z.inj_pow. exact K. }
  assert (2 ^ Z.pos (Pos.size p) < 2 ^ (n + 1)) by (rewrite Z.pow_add_r by lia; lia).
  apply Z.pow_lt_mono_r_iff in H1; lia.
Qed.
Lemma bound_size p n : Z.pos (digits2_pos p) <= n -> Z.pos p < 2 ^ n.
Proof.
  rewrite digits_size. intros H. pose proof (Pos.size_gt p) as K.
  assert (Z.pos p < 2 ^ Z.pos (Pos.size p)) by (rewrite <- Pos2Z.inj_pow; exact K).
  eapply Z.lt_le_trans; [eassumption|]. apply Z.pow_le_mono_r; lia.
Qed.
Lemma fexp_small d : - 1021 <= d -> fexp fprec femax d = d - 53.
Proof. intros H. unfold fexp, emin, fprec, femax. lia. Qed.
Lemma aux_exact s m e : Z.pos (digits2_pos m) = 53 -> - 52 <= e <= 0 ->
  binary_round_aux fprec femax s (Z.pos m) e loc_Exact = S754_finite s m e.
Proof.
  intros Hd He. unfold binary_round_aux, shr_fexp. cbn [Zdigits2].
  rewrite fexp_small by lia. replace (Z.pos (digits2_pos m) + e - 53 - e) with 0 by lia.
  cbn [shr shr_record_of_loc loc_of_shr_record shr_m round_nearest_even Zdigits2].
  rewrite fexp_small by lia. replace (Z.pos (digits2_pos m) + e - 53 - e) with 0 by lia.
  cbn [shr shr_m]. destruct (Z.leb_spec e (femax - fprec)); [reflexivity|unfold femax, fprec in *; lia].
Qed.
Lemma round_exact s p : Z.pos p < 2 ^ 53 -> exists m e, binary_round fprec femax s p 0 = S754_finite s m e /\
  (if 0 <=? e then Z.pos m * 2 ^ e else Z.pos m / 2 ^ (- e)) = Z.pos p.
Proof.
  intros H. pose proof (size_bound p 53 H ltac:(lia)) as Hd.
  unfold binary_round. rewrite fexp_small by lia. rewrite Z.add_0_r.
  unfold shl_align. rewrite Z.sub_0_r. destruct (Z.pos (digits2_pos p) - 53) as [|q|q] eqn:E.
  - exists p, 0. rewrite aux_exact by lia. split; [reflexivity|cbn; lia].
  - lia.
  - exists (shift_pos q p), (Z.neg q). rewrite aux_exact by (rewrite ?digits_shift; lia). split; [reflexivity|].
    destruct (Z.leb_spec 0 (Z.neg q)); [lia|]. rewrite shift_value. change (- Z.neg q) with (Z.pos q).
    apply Z.div_mul. lia.
Qed.
Lemma normalize_exact q s : q <> 0 -> Z.abs q < 2 ^ 53 ->
  exists t m e, binary_normalize fprec femax q 0 s = S754_finite t m e /\ f_trunc_Z (S754_finite t m e) = q.
Proof.
  intros H0 H. destruct q as [|p|p]; [contradiction| |]; cbn [binary_normalize].
  - destruct (round_exact false p H) as (m & e & E & K). exists false, m, e. split; [exact E|]. exact K.
  - destruct (round_exact true p H) as (m & e & E & K). exists true, m, e. split; [exact E|]. cbn [f_trunc_Z].
    cbv zeta. rewrite K. reflexivity.
Qed.

Lemma valid_mantissa s m e : binary64 (S754_finite s m e) -> Z.pos m < 2 ^ 53.
Proof.
  unfold binary64. cbn [valid_binary bounded]. intros H. apply andb_true_iff in H as [H _].
  apply bound_size. unfold canonical_mantissa in H. apply Zeq_bool_eq in H. unfold fexp, emin, fprec, femax in H. lia.
Qed.

(** One rounding function for all: [up n d] is near [n / d]. *)
Lemma integral_exact up s m e : binary64 (S754_finite s m e) -> e < 0 ->
  (forall n d, 2 <= d -> 2 * Z.abs (up n d * d - n) <= 2 * d) ->
  f_to_i64 (f_integral up (S754_finite s m e)) = limited (up (if s then Z.neg m else Z.pos m) (2 ^ (- e))).
Proof.
  intros Hv He Hup. pose proof (valid_mantissa _ _ _ Hv) as Hm. unfold f_integral.
  destruct (Z.leb_spec 0 e); [lia|]. cbv zeta.
  replace (if s then - Z.pos m else Z.pos m) with (if s then Z.neg m else Z.pos m) by (destruct s; reflexivity).
  set (n := if s then Z.neg m else Z.pos m) in *. assert (Hd : 2 <= 2 ^ (- e)).
  { change 2 with (2 ^ 1) at 1. apply Z.pow_le_mono_r; lia. }
  specialize (Hup n (2 ^ (- e)) Hd). set (q := up n (2 ^ (- e))) in *. set (d := 2 ^ (- e)) in *.
  assert (Hn : Z.abs n < 2 ^ 53) by (subst n; destruct s; cbn [Z.abs]; exact Hm).
  destruct (Z.eqb_spec q 0) as [->|Hq].
  - reflexivity.
  - assert (Hb : Z.abs q < 2 ^ 53).
    { change (2 ^ 53) with 9007199254740992 in *. nia. }
    destruct (normalize_exact q s Hq Hb) as (t & m' & e' & -> & K). unfold f_to_i64, f_to_int. now rewrite K.
Qed.
Lemma floor_near n d : 2 <= d -> 2 * Z.abs (n / d * d - n) <= 2 * d.
Proof. intros H. pose proof (Z.div_mod n d ltac:(lia)). pose proof (Z.mod_pos_bound n d ltac:(lia)). nia. Qed.
Lemma ceil_near n d : 2 <= d -> 2 * Z.abs (- (- n / d) * d - n) <= 2 * d.
Proof. intros H. pose proof (Z.div_mod (- n) d ltac:(lia)). pose proof (Z.mod_pos_bound (- n) d ltac:(lia)). nia. Qed.
Lemma half_near n d : 2 <= d -> 2 * Z.abs ((if n <? 0 then - ((2 * - n + d) / (2 * d)) else (2 * n + d) / (2 * d)) * d - n) <= 2 * d.
Proof.
  intros H. destruct (n <? 0).
  - pose proof (Z.div_mod (2 * - n + d) (2 * d) ltac:(lia)). pose proof (Z.mod_pos_bound (2 * - n + d) (2 * d) ltac:(lia)). nia.
  - pose proof (Z.div_mod (2 * n + d) (2 * d) ltac:(lia)). pose proof (Z.mod_pos_bound (2 * n + d) (2 * d) ltac:(lia)). nia.
Qed.

Lemma whole_exact up s m e : 0 <= e ->
  f_to_i64 (f_integral up (S754_finite s m e)) = limited ((if s then Z.neg m else Z.pos m) * 2 ^ e).
Proof.
  intros He. unfold f_integral. destruct (Z.leb_spec 0 e); [|lia]. unfold f_to_i64, f_to_int, f_trunc_Z.
  destruct (Z.leb_spec 0 e); [|lia]. cbv zeta. destruct s; unfold limited.
  - change (Z.neg m) with (- Z.pos m). rewrite Z.mul_opp_l. reflexivity.
  - reflexivity.
Qed.

Section Calls.
Context (mo : mode) (o : oracle) {Fn : Type} (fi : fn_info Fn) (feq : Fn -> Fn -> res bool) (amax : N).
Notation call := (std_call mo o fi feq amax).
Lemma pow_pos_of e : e < 0 -> Z.pos (Z.to_pos (2 ^ (- e))) = 2 ^ (- e).
Proof. intros H. apply Z2Pos.id. apply Z.pow_pos_nonneg; lia. Qed.
Theorem floor_is f q : binary64 f -> rational f = Some q ->
  call (str "floor") [VFloat f] = Ok (VInt (limited (Qfloor q))).
Proof.
  intros Hv Hq. change (call (str "floor") [VFloat f]) with (Ok (A := gvalue Fn) (VInt (f_to_i64 (f_floor f)))).
  do 2 f_equal. destruct f as [s|s| |s m e]; try discriminate; cbn [rational] in Hq.
  - injection Hq as <-. reflexivity.
  - injection Hq as <-. unfold f_floor. destruct (Z.leb_spec 0 e).
    + rewrite whole_exact by assumption. now rewrite Qfloor_Z.
    + rewrite integral_exact by (assumption || exact floor_near). unfold Qfloor. now rewrite pow_pos_of.
Qed.
Theorem ceil_is f q : binary64 f -> rational f = Some q ->
  call (str "ceil") [VFloat f] = Ok (VInt (limited (Qceiling q))).
Proof.
  intros Hv Hq. change (call (str "ceil") [VFloat f]) with (Ok (A := gvalue Fn) (VInt (f_to_i64 (f_ceil f)))).
  do 2 f_equal. destruct f as [s|s| |s m e]; try discriminate; cbn [rational] in Hq.
  - injection Hq as <-. reflexivity.
  - injection Hq as <-. unfold f_ceil. destruct (Z.leb_spec 0 e).
    + rewrite whole_exact by assumption. now rewrite Qceiling_Z.
    + rewrite integral_exact by (assumption || exact ceil_near). unfold Qceiling, Qfloor, Qopp. cbn [Qnum Qden].
      now rewrite pow_pos_of.
Qed.
Lemma half_floor n d : Qfloor ((n # d) + (1 # 2)) = (2 * n + Z.pos d) / (2 * Z.pos d).
Proof. unfold Qplus, Qfloor. cbn [Qnum Qden]. rewrite Pos2Z.inj_mul. f_equal; lia. Qed.
Theorem round_is f q : binary64 f -> rational f = Some q ->
  exists n, call (str "round") [VFloat f] = Ok (VInt (limited n)) /\ nearest q n.
Proof.
  intros Hv Hq. change (call (str "round") [VFloat f]) with (Ok (A := gvalue Fn) (VInt (f_to_i64 (f_round f)))).
  destruct f as [s|s| |s m e]; try discriminate; cbn [rational] in Hq; injection Hq as <-.
  - exists 0. split; reflexivity.
  - unfold f_round. destruct (Z.leb_spec 0 e).
    + rewrite whole_exact by assumption. eexists. split; [reflexivity|]. unfold nearest.
      set (z := (if s then Z.neg m else Z.pos m) * 2 ^ e).
      destruct (Qlt_le_dec (inject_Z z) 0); unfold inject_Z, Qopp; cbn [Qnum Qden]; rewrite half_floor.
      * replace ((2 * - z + 1) / (2 * 1)) with (- z); [lia|]. apply Z.div_unique with 1; lia.
      * apply Z.div_unique with 1; lia.
    + rewrite integral_exact by (assumption || exact half_near). eexists. split; [reflexivity|].
      unfold nearest. set (n := if s then Z.neg m else Z.pos m).
      assert (Hs : n <? 0 = s) by (subst n; destruct s; reflexivity).
      destruct (Qlt_le_dec _ 0) as [Hl|Hl]; unfold Qopp; cbn [Qnum Qden]; rewrite half_floor, pow_pos_of by assumption.
      * assert (n < 0) by (unfold Qlt in Hl; cbn [Qnum Qden] in Hl; lia). destruct (Z.ltb_spec n 0); [reflexivity|lia].
      * assert (0 <= n) by (unfold Qle in Hl; cbn [Qnum Qden] in Hl; lia). destruct (Z.ltb_spec n 0); [lia|reflexivity].
Qed.
Theorem special_rounding name f : In name [str "floor"; str "ceil"; str "round"] ->
  (f = S754_nan -> call name [VFloat f] = Ok (VInt 0)) /\
  (f = S754_infinity false -> call name [VFloat f] = Ok (VInt (2 ^ 63 - 1))) /\
  (f = S754_infinity true -> call name [VFloat f] = Ok (VInt (- 2 ^ 63))) /\
  forall i, call name [VInt i] = Ok (VInt i).
Proof. intros [<-|[<-|[<-|[]]]]; (split; [intros ->; reflexivity|]); (split; [intros ->; reflexivity|]); (split; [intros ->; reflexivity|reflexivity]). Qed.
End Calls.
