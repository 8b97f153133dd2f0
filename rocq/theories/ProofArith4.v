(** Lemmas about iteration, ranges, destructuring and the text of integers. *)
From Verif Require Import Base Float NumText Vecc Value Ast Arith VmOps SpecArith ProofContainers ProofArith.
Local Open Scope Z_scope.
Ltac Zify.zify_post_hook ::= Z.div_mod_to_equations.

Lemma zseq_length a n : length (zseq a n) = n.
Proof. revert a; induction n as [|n IH]; intros a; cbn [zseq length]; auto. Qed.

Lemma zseq_nth a n i : (i < n)%nat -> nth_error (zseq a n) i = Some (a + Z.of_nat i).
Proof.
  revert a i; induction n as [|n IH]; intros a i H; [lia|].
  destruct i; cbn [zseq nth_error]; [f_equal; lia|]. rewrite IH by lia. f_equal; lia.
Qed.

Lemma wrap32_cong z : exists k, wrap32 z = z + k * 2 ^ 32.
Proof.
  unfold wrap32. exists (- ((z + 2 ^ 31) / 2 ^ 32)).
  pose proof (Z.div_mod (z + 2 ^ 31) (2 ^ 32) ltac:(lia)). lia.
Qed.

Lemma wrap32_range z : - 2 ^ 31 <= wrap32 z < 2 ^ 31.
Proof. unfold wrap32. pose proof (Z.mod_pos_bound (z + 2 ^ 31) (2 ^ 32) ltac:(lia)). lia. Qed.

Lemma wrap32_unique z w : - 2 ^ 31 <= w < 2 ^ 31 -> (exists k, w = z + k * 2 ^ 32) -> wrap32 z = w.
Proof.
  intros Hw [k ->]. destruct (wrap32_cong z) as [j Hj]. pose proof (wrap32_range z). rewrite Hj in *. lia.
Qed.

Lemma wrap32_id z : - 2 ^ 31 <= z < 2 ^ 31 -> wrap32 z = z.
Proof. intros H; apply wrap32_unique; auto. exists 0; lia. Qed.

Section Iter.
Context {Fn : Type} (fi : fn_info Fn).

(** Position [i] of what a [for] visits; at the end the iteration stops. *)
Lemma iter_release (v : gvalue Fn) l i :
  value_wf v -> visits v = Some l -> (N.to_nat i <= length l)%nat ->
  v_iter Release fi i v = Ok (nth_error l (N.to_nat i)).
Proof using.
  intros Hw Hv Hi; destruct v; cbn [visits] in Hv; try discriminate; injection Hv as <-; cbn [v_iter].
  - inversion Hw; subst. rewrite map_length, zseq_length in Hi.
    set (z := a + wrap32 (Z.of_N i)).
    destruct (Z_lt_ge_dec a b) as [Hlt|Hge].
    + assert (Hr : wrap32 z = a + Z.of_N i).
      { apply wrap32_unique; [lia|]. destruct (wrap32_cong (Z.of_N i)) as [k Hk].
        exists (- k). unfold z; rewrite Hk; lia. }
      assert (Hk : (if in_i32 z then Ok z else Ok (wrap32 z)) = Ok (a + Z.of_N i)).
      { destruct (in_i32 z) eqn:E; [|rewrite Hr; auto].
        rewrite <- Hr, wrap32_id; auto. unfold in_i32 in E. lia. }
      rewrite Hk; cbn [rbind].
      rewrite nth_error_map. destruct (Z.ltb_spec (a + Z.of_N i) b).
      * rewrite zseq_nth by lia. cbn [option_map]. repeat f_equal. lia.
      * rewrite (proj2 (nth_error_None _ _)); [reflexivity|]. rewrite zseq_length; lia.
    + assert (i = 0%N) by lia. subst i.
      assert (Hk : (if in_i32 z then Ok z else Ok (wrap32 z)) = Ok a).
      { unfold z. change (wrap32 (Z.of_N 0)) with 0. rewrite Z.add_0_r.
        unfold in_i32; destruct ((_ <=? _) && _)%bool; auto. rewrite wrap32_id by auto. auto. }
      rewrite Hk; cbn [rbind]. destruct (Z.ltb_spec a b); [lia|].
      replace (Z.to_nat (b - a)) with 0%nat by lia. reflexivity.
  - rewrite <- nth_error_map. reflexivity.
  - rewrite nth_error_map; reflexivity.
  - reflexivity.
Qed.

(** The same in a checked build for at most 2^31 elements. *)
Lemma iter_debug (v : gvalue Fn) l i :
  value_wf v -> visits v = Some l -> (N.to_nat i <= length l)%nat -> Z.of_N i < 2 ^ 31 ->
  v_iter Debug fi i v = Ok (nth_error l (N.to_nat i)).
Proof using.
  intros Hw Hv Hi Hs; rewrite <- (iter_release v l i Hw Hv Hi).
  destruct v; cbn [visits] in Hv; try discriminate; auto. injection Hv as <-; cbn [v_iter].
  inversion Hw; subst. rewrite map_length, zseq_length in Hi.
  rewrite wrap32_id by lia.
  assert (in_i32 (a + Z.of_N i) = true) as -> by (unfold in_i32; lia). reflexivity.
Qed.

Lemma not_iterable m i (v : gvalue Fn) :
  visits v = None -> v_iter m fi i v = Err (ENotIterable (ntype fi v)).
Proof using. destruct v; cbn [visits]; try discriminate; auto. Qed.

Lemma unpack_spec n (v : gvalue Fn) :
  (forall r g b a, v <> VColor r g b a) ->
  v_unpack fi n v =
    match parts v with
    | Some l => if (N.of_nat (length l) =? n)%N then Ok l else Err (EInsufficientValues (N.of_nat (length l)) n)
    | None => Err (EUnpackable (ntype fi v))
    end.
Proof using.
  destruct v; intros Hc; try reflexivity.
  - destruct (Hc _ _ _ _ eq_refl).
  - cbn [v_unpack parts length]. rewrite N.eqb_sym. reflexivity.
Qed.

Lemma unpack_color n r g b a :
  v_unpack fi n (VColor r g b a) =
    if (n =? 0)%N then Err (EInsufficientValues 4 n)
    else if (n <=? 4)%N then Ok (firstn (N.to_nat n) (map (fun c => VInt (Z.of_N c)) [r; g; b; a]))
    else Panic.
Proof using.
  cbn [v_unpack]. destruct (N.ltb_spec n 1), (N.eqb_spec n 0); try lia; auto.
  destruct (N.ltb_spec 4 n), (N.leb_spec n 4); try lia; auto. rewrite firstn_map; reflexivity.
Qed.
End Iter.

(** ** Text of integers *)
Lemma digit_char_text d : (d < 36)%N -> digit_char d = digit_text (Z.of_N d).
Proof.
  intros H. assert (forallb (fun k => N.eqb (digit_char (N.of_nat k)) (digit_text (Z.of_nat k))) (seq 0 36) = true) as F
    by reflexivity.
  rewrite forallb_forall in F. specialize (F (N.to_nat d)). rewrite in_seq in F.
  specialize (F ltac:(lia)). apply N.eqb_eq in F. rewrite N2Nat.id in F. rewrite F. f_equal; lia.
Qed.

Lemma char_digit_char radix d : (d < radix)%N -> (radix <= 36)%N -> char_digit radix (digit_char d) = Some d.
Proof.
  intros H Hr. unfold char_digit, digit_char.
  assert (d < 36)%N by lia. clear Hr.
  destruct (N.ltb_spec d 10).
  - replace ((48 <=? 48 + d)%N && (48 + d <=? 57)%N)%bool with true by lia.
    replace (48 + d - 48)%N with d by lia. apply N.ltb_lt in H; rewrite H; auto.
  - replace ((48 <=? 87 + d)%N && (87 + d <=? 57)%N)%bool with false by lia.
    replace ((97 <=? 87 + d)%N && (87 + d <=? 122)%N)%bool with true by lia.
    replace (87 + d - 87)%N with d by lia. apply N.ltb_lt in H; rewrite H; auto.
Qed.

(** The digits the printer produces. *)
Fixpoint digs (fuel : nat) (radix n : N) (acc : list N) : list N :=
  match fuel with
  | O => acc
  | S f => let acc' := (n mod radix)%N :: acc in
           if (n / radix =? 0)%N then acc' else digs f radix (n / radix)%N acc'
  end.

Lemma radix_go_digs fuel radix n acc :
  radix_go fuel radix n (map digit_char acc) = map digit_char (digs fuel radix n acc).
Proof.
  revert n acc; induction fuel as [|f IH]; intros n acc; cbn [radix_go digs]; auto.
  destruct (N.eqb (n / radix) 0); [reflexivity|]. rewrite <- IH. reflexivity.
Qed.

Definition dval (radix : N) (l : list N) : N := fold_left (fun a d => a * radix + d)%N l 0%N.

Lemma fold_dval radix l a :
  fold_left (fun a d => a * radix + d)%N l a = (a * radix ^ N.of_nat (length l) + dval radix l)%N.
Proof.
  unfold dval. revert a. induction l as [|d l IH]; intros a; cbn [fold_left length].
  - change (N.of_nat 0) with 0%N. rewrite N.pow_0_r. lia.
  - rewrite IH, (IH (0 * radix + d)%N), Nat2N.inj_succ, N.pow_succ_r'. nia.
Qed.

Lemma digs_prop fuel radix n acc :
  (2 <= radix)%N -> (n < 2 ^ N.of_nat fuel)%N ->
  Forall (fun d => d < radix)%N acc -> (0 < fuel)%nat ->
  let ds := digs fuel radix n acc in
  exists pre, ds = pre ++ acc /\ Forall (fun d => d < radix)%N pre /\ dval radix pre = n /\
    match pre with [] => False | [_] => True | d :: _ => d <> 0%N end.
Proof.
  intros Hr. revert n acc; induction fuel as [|f IH]; intros n acc Hn Ha Hf; [lia|].
  cbn [digs].
  assert (Hm : (n mod radix < radix)%N) by (apply N.mod_lt; lia).
  assert (Hdm : n = (radix * (n / radix) + n mod radix)%N) by (apply N.div_mod; lia).
  destruct (N.eqb_spec (n / radix) 0) as [E|E].
  - exists [(n mod radix)%N]. repeat split; auto. unfold dval; cbn [fold_left].
    rewrite E, N.mul_0_r, N.add_0_l in Hdm. rewrite N.mul_0_l, N.add_0_l. auto.
  - destruct f as [|f].
    + change (N.of_nat 1) with 1%N in Hn. rewrite N.pow_1_r in Hn.
      destruct E. apply N.div_small. lia.
    + destruct (IH (n / radix)%N ((n mod radix)%N :: acc)) as (pre & E1 & H1 & H2 & H3); auto.
      * apply N.div_lt_upper_bound; [lia|].
        rewrite Nat2N.inj_succ, N.pow_succ_r' in Hn.
        eapply N.lt_le_trans; [apply Hn|]. apply N.mul_le_mono_r. auto.
      * lia.
      * exists (pre ++ [(n mod radix)%N]). rewrite E1, <- app_assoc. repeat split; auto.
        -- apply Forall_app; auto.
        -- unfold dval in *. rewrite fold_left_app, H2. cbn [fold_left]. rewrite N.mul_comm. auto.
        -- destruct pre as [|d pre]; [contradiction|].
           destruct pre as [|d' pre]; [|auto]. cbn [app]. intros ->.
           unfold dval in H2; cbn in H2. auto.
Qed.

Lemma digits_val_digs radix l a :
  (radix <= 36)%N -> Forall (fun d => d < radix)%N l ->
  digits_val radix a (map digit_char l) = Some (fold_left (fun a d => a * radix + d)%N l a).
Proof.
  intros Hr Hl; revert a; induction Hl as [|d l Hd _ IH]; intros a; cbn [map digits_val fold_left]; auto.
  rewrite char_digit_char by auto. auto.
Qed.

Lemma size_bound n : (n < 2 ^ N.of_nat (S (N.to_nat (N.size n))))%N.
Proof.
  rewrite Nat2N.inj_succ, N2Nat.id, N.pow_succ_r'.
  pose proof (N.size_gt n). nia.
Qed.

Lemma radix_text_spec radix n :
  (2 <= radix <= 36)%N ->
  exists ds, radix_text radix n = map digit_char ds /\ Forall (fun d => d < radix)%N ds /\
             dval radix ds = n /\ match ds with [] => False | [_] => True | d :: _ => d <> 0%N end.
Proof.
  intros Hr; unfold radix_text.
  destruct (digs_prop (S (N.to_nat (N.size n))) radix n []) as (pre & E & H1 & H2 & H3);
    [lia | apply size_bound | constructor | lia |].
  exists pre. split; [|auto]. rewrite app_nil_r in E.
  change (@nil N) with (map digit_char []) at 1. rewrite radix_go_digs, E. reflexivity.
Qed.

Lemma digit_not_sign d : digit_char d <> 45%N /\ digit_char d <> 43%N.
Proof. unfold digit_char; destruct (N.ltb_spec d 10); lia. Qed.

Lemma parse_int_text lo hi z :
  lo <= z <= hi -> parse_int lo hi 10 (int_text z) = Some z.
Proof.
  intros Hz. unfold int_text.
  destruct (Z.ltb_spec z 0).
  - destruct (radix_text_spec 10 (Z.to_N (- z)) ltac:(lia)) as (ds & E & H1 & H2 & H3).
    rewrite E. unfold parse_int. cbn [split_sign]. change (45 =? 45)%N with true. cbn iota. destruct ds as [|d ds]; [contradiction|].
    cbn [map]. change (digit_char d :: map digit_char ds) with (map digit_char (d :: ds)).
    rewrite digits_val_digs by (auto; lia). fold (dval 10 (d :: ds)). rewrite H2.
    rewrite Z2N.id by lia. replace (- - z) with z by lia.
    destruct (Z.leb_spec lo z), (Z.leb_spec z hi); cbn [andb]; auto; lia.
  - destruct (radix_text_spec 10 (Z.to_N z) ltac:(lia)) as (ds & E & H1 & H2 & H3).
    rewrite E. destruct ds as [|d ds]; [contradiction|]. unfold parse_int.
    destruct (digit_not_sign d) as [N1 N2].
    set (s := map digit_char (d :: ds)).
    assert (Hm : split_sign s = (false, s)).
    { subst s; cbn [map split_sign]. apply N.eqb_neq in N1, N2; rewrite N1, N2; auto. }
    rewrite Hm. subst s. cbn [map]. change (digit_char d :: map digit_char ds) with (map digit_char (d :: ds)).
    rewrite digits_val_digs by (auto; lia). fold (dval 10 (d :: ds)). rewrite H2.
    rewrite Z2N.id by lia.
    destruct (Z.leb_spec lo z), (Z.leb_spec z hi); cbn [andb]; auto; lia.
Qed.

Lemma parse_radix_text lo hi radix n :
  (2 <= radix <= 36)%N -> lo <= Z.of_N n <= hi ->
  parse_int lo hi radix (radix_text radix n) = Some (Z.of_N n).
Proof.
  intros Hr Hz. destruct (radix_text_spec radix n Hr) as (ds & E & H1 & H2 & H3).
  rewrite E. destruct ds as [|d ds]; [contradiction|]. unfold parse_int.
  destruct (digit_not_sign d) as [N1 N2].
  set (s := map digit_char (d :: ds)).
  assert (Hm : split_sign s = (false, s)).
  { subst s; cbn [map split_sign]. apply N.eqb_neq in N1, N2; rewrite N1, N2; auto. }
  rewrite Hm. subst s. cbn [map]. change (digit_char d :: map digit_char ds) with (map digit_char (d :: ds)).
  rewrite digits_val_digs by (auto; lia). fold (dval radix (d :: ds)). rewrite H2.
  destruct (Z.leb_spec lo (Z.of_N n)), (Z.leb_spec (Z.of_N n) hi); cbn [andb]; auto; lia.
Qed.

Lemma dval_digits radix l : Z.of_N (dval radix l) = digits_value (Z.of_N radix) (map Z.of_N l).
Proof.
  induction l as [|d l IH]; [reflexivity|].
  unfold dval. cbn [fold_left map digits_value]. rewrite fold_dval, map_length, <- IH.
  rewrite N.mul_0_l, N.add_0_l, N2Z.inj_add, N2Z.inj_mul, N2Z.inj_pow, nat_N_Z. reflexivity.
Qed.

Lemma radix_text_digits radix n :
  (2 <= radix <= 36)%N ->
  exists ds, radix_text radix n = map digit_text ds /\ digits_of (Z.of_N radix) ds (Z.of_N n).
Proof.
  intros Hr; destruct (radix_text_spec radix n Hr) as (ds & E & H1 & H2 & H3).
  exists (map Z.of_N ds). split; [|split; [|split]].
  - rewrite E, map_map. apply map_ext_in. intros d Hd. rewrite Forall_forall in H1.
    apply digit_char_text. specialize (H1 d Hd). lia.
  - rewrite Forall_map. eapply Forall_impl; [|exact H1]. cbn beta; intros; lia.
  - rewrite <- dval_digits, H2; auto.
  - destruct ds as [|d [|d' ds]]; auto. cbn [map]. lia.
Qed.

Lemma int_text_digits z :
  exists ds, digits_of 10 ds (Z.abs z) /\
    int_text z = (if z <? 0 then str "-" else []) ++ map digit_text ds.
Proof.
  unfold int_text. destruct (Z.ltb_spec z 0).
  - destruct (radix_text_digits 10 (Z.to_N (- z)) ltac:(lia)) as (ds & E & H1).
    exists ds. rewrite Z2N.id in H1 by lia. replace (Z.abs z) with (- z) by lia.
    rewrite E; auto.
  - destruct (radix_text_digits 10 (Z.to_N z) ltac:(lia)) as (ds & E & H1).
    exists ds. rewrite Z2N.id in H1 by lia. replace (Z.abs z) with z by lia.
    rewrite E; auto.
Qed.
