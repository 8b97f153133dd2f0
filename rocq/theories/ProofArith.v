(** Lemmas about operators, indexing and text of integers. *)
From Verif Require Import Base Float NumText Vecc Value Ast Arith VmOps SpecArith ProofContainers.
Local Open Scope Z_scope.
Ltac Zify.zify_post_hook ::= Z.div_mod_to_equations.

Lemma fits64_in z : fits64 z <-> in_i64 z = true.
Proof. unfold fits64, in_i64, i64_min, i64_max; rewrite andb_true_iff, !Z.leb_le; lia. Qed.

Lemma ov64_fits m z : fits64 z -> ov64 m z = Ok z.
Proof. intros H; apply fits64_in in H; unfold ov64; rewrite H; reflexivity. Qed.

Lemma ov64_release z : exists w, ov64 Release z = Ok w /\ signed64 z w.
Proof.
  unfold ov64; destruct (in_i64 z) eqn:E.
  - exists z; split; auto; split; [apply fits64_in in E; exact E | exists 0; lia].
  - exists (wrap64 z); split; auto; split.
    + apply fits64_in, wrap64_range.
    + apply wrap64_cong.
Qed.

Lemma ov64_debug z : ~ fits64 z -> ov64 Debug z = Panic.
Proof.
  intros H; unfold ov64; destruct (in_i64 z) eqn:E; auto.
  exfalso; apply H, fits64_in, E.
Qed.

(** ** Indexing *)
Lemma to_u64_nonneg z : 0 <= z < 2 ^ 63 -> to_u64 z = Z.to_N z.
Proof. intros H; unfold to_u64; rewrite Z.mod_small by lia; reflexivity. Qed.

Lemma to_u64_neg z : - 2 ^ 63 <= z < 0 -> to_u64 z = Z.to_N (z + 2 ^ 64).
Proof.
  intros H; unfold to_u64.
  replace z with ((z + 2 ^ 64) + (-1) * 2 ^ 64) at 1 by lia.
  rewrite Z.mod_add by lia; rewrite Z.mod_small by lia; reflexivity.
Qed.

Lemma fix_index_nonneg m idx len :
  0 <= idx < 2 ^ 63 ->
  fix_index m idx len = if (idx <? Z.of_nat len) then Ok (Z.to_nat idx) else Err (EIndexError idx).
Proof.
  intros H; unfold fix_index.
  destruct (Z.ltb_spec idx 0); [lia|]; cbn [rbind].
  rewrite to_u64_nonneg by lia.
  destruct (N.leb_spec (N.of_nat len) (Z.to_N idx)), (Z.ltb_spec idx (Z.of_nat len)); try lia; auto.
  f_equal; lia.
Qed.

Lemma fix_index_release_neg idx len :
  - 2 ^ 63 <= idx < 0 -> Z.of_nat len < 2 ^ 63 ->
  fix_index Release idx len =
    if (- Z.of_nat len <=? idx) then Ok (Z.to_nat (Z.of_nat len + idx)) else Err (EIndexError idx).
Proof.
  intros H Hl; unfold fix_index.
  destruct (Z.ltb_spec idx 0) as [_|]; [|lia].
  destruct (Z.eq_dec idx (- 2 ^ 63)) as [->|Hne].
  - destruct (Z.leb_spec (- Z.of_nat len) (- 2 ^ 63)); [lia|].
    change (ov64 Release (- - 2 ^ 63)) with (@Ok Z (- 2 ^ 63)); cbn [rbind].
    rewrite Z.gtb_ltb; destruct (Z.ltb_spec (Z.of_nat len) (- 2 ^ 63)); [lia|].
    rewrite to_u64_neg by lia.
    set (s := (N.of_nat len + Z.to_N (- 2 ^ 63 + 2 ^ 64))%N).
    assert (Hs : Z.of_N s = Z.of_nat len + 2 ^ 63) by (unfold s; lia).
    destruct (N.leb_spec (2 ^ 64) s); [lia|]; cbn [rbind].
    destruct (N.leb_spec (N.of_nat len) s); [reflexivity | lia].
  - rewrite ov64_fits by (unfold fits64; lia); cbn [rbind].
    rewrite Z.gtb_ltb; destruct (Z.ltb_spec (Z.of_nat len) (- idx)), (Z.leb_spec (- Z.of_nat len) idx);
      try lia; auto.
    rewrite to_u64_neg by lia.
    set (s := (N.of_nat len + Z.to_N (idx + 2 ^ 64))%N).
    assert (Hs : Z.of_N s = Z.of_nat len + idx + 2 ^ 64) by (unfold s; lia).
    destruct (N.leb_spec (2 ^ 64) s); [|lia]; cbn [rbind].
    assert (Hw : usize_wrap s = Z.to_N (Z.of_nat len + idx)).
    { unfold usize_wrap. apply N2Z.inj. rewrite N2Z.inj_mod, Hs, Z2N.id by lia.
      change (Z.of_N (2 ^ 64)) with (2 ^ 64).
      replace (Z.of_nat len + idx + 2 ^ 64) with (Z.of_nat len + idx + 1 * 2 ^ 64) by lia.
      rewrite Z.mod_add by lia. apply Z.mod_small; lia. }
    rewrite Hw.
    destruct (N.leb_spec (N.of_nat len) (Z.to_N (Z.of_nat len + idx))); [lia|].
    f_equal; lia.
Qed.

Lemma fix_index_debug_neg idx len :
  - 2 ^ 63 <= idx < 0 -> Z.of_nat len < 2 ^ 63 ->
  fix_index Debug idx len =
    if (- Z.of_nat len <=? idx) || (idx =? - 2 ^ 63) then Panic else Err (EIndexError idx).
Proof.
  intros H Hl; unfold fix_index.
  destruct (Z.ltb_spec idx 0) as [_|]; [|lia].
  destruct (Z.eqb_spec idx (- 2 ^ 63)) as [->|Hne].
  - rewrite orb_true_r; reflexivity.
  - rewrite orb_false_r, ov64_fits by (unfold fits64; lia); cbn [rbind].
    rewrite Z.gtb_ltb; destruct (Z.ltb_spec (Z.of_nat len) (- idx)), (Z.leb_spec (- Z.of_nat len) idx);
      try lia; auto.
    rewrite to_u64_neg by lia.
    set (s := (N.of_nat len + Z.to_N (idx + 2 ^ 64))%N).
    assert (Hs : Z.of_N s = Z.of_nat len + idx + 2 ^ 64) by (unfold s; lia).
    destruct (N.leb_spec (2 ^ 64) s); [reflexivity | lia].
Qed.

Lemma rnth_some {A} (l : list A) i x : nth_error l i = Some x -> rnth l i = Ok x.
Proof. unfold rnth; intros ->; reflexivity. Qed.

(** [v_index] through [elements]. *)
Lemma v_index_elements {Fn} m (fi : fn_info Fn) idx v l :
  elements v = Some l ->
  v_index m fi (VInt idx) v =
    let! i := fix_index m idx (length l) in rnth l i.
Proof.
  intros He; destruct v; cbn in He; try discriminate; injection He as <-; cbn [v_index].
  - change (length [VInt (Z.of_N r); VInt (Z.of_N g); VInt (Z.of_N b); VInt (Z.of_N a)]) with 4%nat.
    destruct (fix_index m idx 4) as [i| |]; cbn [rbind]; auto.
    unfold rnth, channels; change [VInt (Z.of_N r); VInt (Z.of_N g); VInt (Z.of_N b); VInt (Z.of_N a)]
      with (map (fun c : N => @VInt Fn (Z.of_N c)) [r; g; b; a]).
    rewrite nth_error_map; destruct (nth_error [r; g; b; a] i); reflexivity.
  - rewrite map_length. destruct (fix_index m idx (length s)) as [i| |]; cbn [rbind]; auto.
    unfold rnth; rewrite nth_error_map; destruct (nth_error s i); reflexivity.
  - reflexivity.
  - reflexivity.
Qed.

Lemma nth_error_some_lt {A} (l : list A) i : (i < length l)%nat -> exists x, nth_error l i = Some x.
Proof.
  intros H; destruct (nth_error l i) eqn:E; eauto.
  apply nth_error_None in E; lia.
Qed.

Lemma index_release {Fn} (fi : fn_info Fn) idx v l :
  fits64 idx -> elements v = Some l -> Z.of_nat (length l) < 2 ^ 63 ->
  (in_bounds l idx /\ exists x, is_index l idx x /\ v_index Release fi (VInt idx) v = Ok x) \/
  (~ in_bounds l idx /\ v_index Release fi (VInt idx) v = Err (EIndexError idx)).
Proof.
  unfold fits64, in_bounds, is_index; intros Hi He Hl.
  rewrite (v_index_elements _ _ _ _ _ He).
  destruct (Z_lt_ge_dec idx 0) as [Hneg|Hpos].
  - rewrite fix_index_release_neg by lia.
    destruct (Z.leb_spec (- Z.of_nat (length l)) idx).
    + left; split; [lia|]. cbn [rbind].
      destruct (nth_error_some_lt l (Z.to_nat (Z.of_nat (length l) + idx)) ltac:(lia)) as [x Hx].
      exists x; split; [right; split; [lia | exact Hx] | apply rnth_some, Hx].
    + right; split; [lia | reflexivity].
  - rewrite fix_index_nonneg by lia.
    destruct (Z.ltb_spec idx (Z.of_nat (length l))).
    + left; split; [lia|]. cbn [rbind].
      destruct (nth_error_some_lt l (Z.to_nat idx) ltac:(lia)) as [x Hx].
      exists x; split; [left; split; [lia | exact Hx] | apply rnth_some, Hx].
    + right; split; [lia | reflexivity].
Qed.

(** ** Integer operators *)
(** Bit operations stay in range: a 64-bit integer is one whose arithmetic shift by 63
    is 0 or -1. *)
Lemma fits64_shift z : fits64 z <-> (Z.shiftr z 63 = 0 \/ Z.shiftr z 63 = -1).
Proof.
  unfold fits64; rewrite Z.shiftr_div_pow2 by lia. split.
  - intros H; destruct (Z_lt_ge_dec z 0).
    + right. symmetry; apply Z.div_unique with (r := z + 2 ^ 63); lia.
    + left. apply Z.div_small; lia.
  - intros H. pose proof (Z.div_mod z (2 ^ 63) ltac:(lia)).
    pose proof (Z.mod_pos_bound z (2 ^ 63) ltac:(lia)). destruct H as [H|H]; rewrite H in *; lia.
Qed.

Lemma bit_fits (f : Z -> Z -> Z) :
  (forall a b, Z.shiftr (f a b) 63 = f (Z.shiftr a 63) (Z.shiftr b 63)) ->
  (f 0 0 = 0 \/ f 0 0 = -1) -> (f 0 (-1) = 0 \/ f 0 (-1) = -1) ->
  (f (-1) 0 = 0 \/ f (-1) 0 = -1) -> (f (-1) (-1) = 0 \/ f (-1) (-1) = -1) ->
  forall l r, fits64 l -> fits64 r -> fits64 (f l r).
Proof.
  intros Hs H1 H2 H3 H4 l r Hl Hr.
  apply fits64_shift in Hl, Hr; apply fits64_shift; rewrite Hs.
  destruct Hl as [-> | ->], Hr as [-> | ->]; auto.
Qed.

Lemma land_fits l r : fits64 l -> fits64 r -> fits64 (Z.land l r).
Proof. apply bit_fits; [intros; apply Z.shiftr_land | left; reflexivity | left; reflexivity | left; reflexivity | right; reflexivity]. Qed.
Lemma lor_fits l r : fits64 l -> fits64 r -> fits64 (Z.lor l r).
Proof. apply bit_fits; [intros; apply Z.shiftr_lor | left; reflexivity | right; reflexivity | right; reflexivity | right; reflexivity]. Qed.
Lemma lxor_fits l r : fits64 l -> fits64 r -> fits64 (Z.lxor l r).
Proof. apply bit_fits; [intros; apply Z.shiftr_lxor | left; reflexivity | right; reflexivity | right; reflexivity | left; reflexivity]. Qed.

Lemma shiftr_fits l k : fits64 l -> 0 <= k -> fits64 (l / 2 ^ k).
Proof.
  unfold fits64; intros H Hk.
  assert (0 < 2 ^ k) by (apply Z.pow_pos_nonneg; lia).
  split; [apply Z.div_le_lower_bound | apply Z.div_lt_upper_bound]; nia.
Qed.

Lemma quot_fits l r :
  fits64 l -> r <> 0 -> ~ (l = - 2 ^ 63 /\ r = -1) -> fits64 (Z.quot l r).
Proof.
  unfold fits64; intros Hl Hr Hx.
  pose proof (Z.quot_abs l r Hr) as Ha.
  assert (Hle : Z.abs (Z.quot l r) <= Z.abs l /\ (Z.abs r <> 1 -> l <> 0 -> Z.abs (Z.quot l r) < Z.abs l)).
  { rewrite <- Ha. destruct (Z.eq_dec (Z.abs r) 1) as [->|].
    - rewrite Z.quot_1_r; split; [apply Z.le_refl | intros H; contradiction H; reflexivity].
    - destruct (Z.eq_dec l 0) as [->|].
      + change (Z.abs 0) with 0; rewrite Z.quot_0_l by (clear - Hr; lia). split; [apply Z.le_refl|].
        intros _ H; contradiction H; reflexivity.
      + assert (Z.quot (Z.abs l) (Z.abs r) < Z.abs l) by (apply Z.quot_lt; clear - n n0 Hr; lia).
        split; [apply Z.lt_le_incl; auto | auto]. }
  destruct Hle as [H1 H2].
  destruct (Z.eq_dec r (-1)) as [->|]; [|destruct (Z.eq_dec r 1) as [->|]].
  - change (-1) with (- (1)) in *. rewrite Z.quot_opp_r, Z.quot_1_r by discriminate.
    clear Ha H1 H2. assert (l <> - 2 ^ 63) by (intros ->; apply Hx; auto). lia.
  - rewrite Z.quot_1_r; exact Hl.
  - assert (l <> 0 -> Z.abs (Z.quot l r) < Z.abs l) by (apply H2; clear - n n0; lia).
    clear Ha H2 Hx. revert H1 H. generalize (Z.quot l r). intros q H1 H.
    destruct (Z.eq_dec l 0); [subst; lia|]. specialize (H n1). lia.
Qed.

Section IntOps.
Context {Fn : Type} (fi : fn_info Fn) (o : oracle) (feq : Fn -> Fn -> res bool) (smax amax : N).

Definition ast_op (i : int_op) : op :=
  match i with
  | IAdd => OAdd | ISub => OSub | IMul => OMul | IDiv => ODiv | IRem => OMod | IPow => OPow
  | IAnd => OBitwiseAnd | IOr => OBitwiseOr | IXor => OBitwiseXor
  | IShl => OBitwiseLeftShift | IShr => OBitwiseRightShift
  end.

Lemma to_u32_small r : 0 <= r < 2 ^ 32 -> Z.of_N (to_u32 r) = r.
Proof. intros H; unfold to_u32; rewrite Z.mod_small, Z2N.id by lia; reflexivity. Qed.

Lemma int_op_exact m i l r z :
  fits64 l -> fits64 r -> math_int i l r = Some z -> fits64 z ->
  ~ ((i = IDiv \/ i = IRem) /\ l = - 2 ^ 63 /\ r = -1) ->
  exists f, binary_fn m o fi feq smax amax (ast_op i) = Some f /\ f (VInt l) (VInt r) = Ok (VInt z).
Proof using.
  intros Hl Hr Hm Hz Hx; destruct i; cbn [ast_op binary_fn]; eexists; split; try reflexivity;
    cbn [math_int] in Hm;
    try (destruct (Z.eqb_spec r 0) as [|Hnz]; [discriminate|]);
    try (destruct (_ && _)%bool eqn:Hb in Hm; [|discriminate]); injection Hm as <-.
  - cbn [v_add]; rewrite ov64_fits by auto; reflexivity.
  - cbn [v_subtract]; rewrite ov64_fits by auto; reflexivity.
  - cbn [v_multiply]; rewrite ov64_fits by auto; reflexivity.
  - unfold v_divide; cbn [is_zero]. destruct (Z.eqb_spec r 0); [lia|].
    unfold i64_div, i64_min. destruct (Z.eqb_spec l (- 2 ^ 63)), (Z.eqb_spec r (-1)); cbn [andb]; auto.
    exfalso; apply Hx; auto.
  - unfold v_modulo; cbn [is_zero]. destruct (Z.eqb_spec r 0); [lia|].
    unfold i64_rem, i64_min. destruct (Z.eqb_spec l (- 2 ^ 63)), (Z.eqb_spec r (-1)); cbn [andb]; auto.
    exfalso; apply Hx; auto.
  - apply andb_true_iff in Hb as [H1 H2]; apply Z.leb_le in H1; apply Z.ltb_lt in H2.
    cbn [v_power]; rewrite to_u32_small by lia; rewrite ov64_fits by auto; reflexivity.
  - reflexivity.
  - reflexivity.
  - reflexivity.
  - unfold v_shl, v_int2, shift_amount; rewrite Hb; cbn [rbind].
    apply andb_true_iff in Hb as [H1 H2]; apply Z.leb_le in H1; apply Z.ltb_lt in H2.
    rewrite Z.shiftl_mul_pow2 by lia; rewrite wrap64_id by (apply fits64_in; auto); reflexivity.
  - unfold v_shr, v_int2, shift_amount; rewrite Hb; cbn [rbind].
    apply andb_true_iff in Hb as [H1 H2]; apply Z.leb_le in H1; apply Z.ltb_lt in H2.
    rewrite Z.shiftr_div_pow2 by lia; reflexivity.
Qed.

(** A result that does not fit wraps in a release build; a checked build aborts, except
    that a left shift drops bits in both. *)
Lemma int_op_release_wraps i l r z :
  fits64 l -> fits64 r -> math_int i l r = Some z ->
  ~ ((i = IDiv \/ i = IRem) /\ l = - 2 ^ 63 /\ r = -1) ->
  exists f w, binary_fn Release o fi feq smax amax (ast_op i) = Some f /\
              f (VInt l) (VInt r) = Ok (VInt w) /\ signed64 z w.
Proof using.
  intros Hl Hr Hm Hx.
  assert (Hsh : forall z, signed64 z (wrap64 z)).
  { intros z'; split; [apply fits64_in, wrap64_range | apply wrap64_cong]. }
  assert (Hself : fits64 z -> exists f w, binary_fn Release o fi feq smax amax (ast_op i) = Some f /\
              f (VInt l) (VInt r) = Ok (VInt w) /\ signed64 z w).
  { intros Hf; destruct (int_op_exact Release i l r z Hl Hr Hm Hf Hx) as (f & H1 & H2).
    exists f, z; repeat split; auto; [apply Hf | apply Hf | exists 0; lia]. }
  destruct i; cbn [ast_op binary_fn]; cbn [math_int] in Hm;
    try (destruct (Z.eqb_spec r 0) as [|Hnz]; [discriminate|]);
    try (destruct (_ && _)%bool eqn:Hb in Hm; [|discriminate]); injection Hm as <-.
  - destruct (ov64_release (l + r)) as (w & Hw & Hs).
    eexists _, w; split; [reflexivity|]; cbn [v_add]; rewrite Hw; auto.
  - destruct (ov64_release (l - r)) as (w & Hw & Hs).
    eexists _, w; split; [reflexivity|]; cbn [v_subtract]; rewrite Hw; auto.
  - destruct (ov64_release (l * r)) as (w & Hw & Hs).
    eexists _, w; split; [reflexivity|]; cbn [v_multiply]; rewrite Hw; auto.
  - apply Hself, quot_fits; auto; intros [? ?]; apply Hx; auto.
  - apply Hself. unfold fits64 in *.
    pose proof (Z.rem_bound_abs l r Hnz) as Hra; revert Hra; generalize (Z.rem l r); intros k Hra; clear Hself Hsh Hx; lia.
  - apply andb_true_iff in Hb as [H1 H2]; apply Z.leb_le in H1; apply Z.ltb_lt in H2.
    destruct (ov64_release (l ^ r)) as (w & Hw & Hs).
    eexists _, w; split; [reflexivity|]; cbn [v_power]; rewrite to_u32_small by lia; rewrite Hw; auto.
  - apply Hself, land_fits; auto.
  - apply Hself, lor_fits; auto.
  - apply Hself, lxor_fits; auto.
  - eexists _, (wrap64 (l * 2 ^ r)); split; [reflexivity|]; split; [|apply Hsh].
    unfold v_shl, v_int2, shift_amount; rewrite Hb; cbn [rbind].
    apply andb_true_iff in Hb as [H1 H2]; apply Z.leb_le in H1; apply Z.ltb_lt in H2.
    rewrite Z.shiftl_mul_pow2 by lia; reflexivity.
  - apply Hself, shiftr_fits; auto.
    apply andb_true_iff in Hb as [H1 H2]; apply Z.leb_le in H1; lia.
Qed.

(** Overflow of + - * ** aborts a checked build. *)
Lemma int_op_debug_aborts i l r z :
  i = IAdd \/ i = ISub \/ i = IMul \/ i = IPow ->
  math_int i l r = Some z -> ~ fits64 z ->
  exists f, binary_fn Debug o fi feq smax amax (ast_op i) = Some f /\ f (VInt l) (VInt r) = Panic.
Proof using.
  intros Hi Hm Hz.
  destruct Hi as [-> | [-> | [-> | ->]]]; cbn [ast_op binary_fn math_int] in *;
    eexists; (split; [reflexivity|]).
  - injection Hm as <-; cbn [v_add]; rewrite ov64_debug by auto; reflexivity.
  - injection Hm as <-; cbn [v_subtract]; rewrite ov64_debug by auto; reflexivity.
  - injection Hm as <-; cbn [v_multiply]; rewrite ov64_debug by auto; reflexivity.
  - destruct (_ && _)%bool eqn:Hb in Hm; [|discriminate]; injection Hm as <-.
    apply andb_true_iff in Hb as [H1 H2]; apply Z.leb_le in H1; apply Z.ltb_lt in H2.
    cbn [v_power]; rewrite to_u32_small, ov64_debug by (auto; lia); reflexivity.
Qed.

Lemma negate_exact m z :
  fits64 z -> z <> - 2 ^ 63 -> v_negate m fi (VInt z) = Ok (VInt (- z)).
Proof using.
  intros Hz Hn; cbn [v_negate]; rewrite ov64_fits; auto. unfold fits64 in *; lia.
Qed.
End IntOps.
