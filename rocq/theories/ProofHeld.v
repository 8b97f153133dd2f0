(** Every operation on values gives values the interpreter can hold. *)
From Verif Require Import Base Float NumText Vecc Value Ast Arith VmOps SpecArith ProofStd.
Ltac Zify.zify_post_hook ::= Z.div_mod_to_equations.

(** ** Bits *)
Lemma fits_shift z : fits64 z <-> Z.shiftr z 63 = 0%Z \/ Z.shiftr z 63 = (-1)%Z.
Proof. rewrite Z.shiftr_div_pow2 by lia. unfold fits64. change (2 ^ 63)%Z with 9223372036854775808%Z. lia. Qed.
Lemma land_fits a b : fits64 a -> fits64 b -> fits64 (Z.land a b).
Proof. rewrite !fits_shift, Z.shiftr_land. intros [-> | ->] [-> | ->]; cbn; auto. Qed.
Lemma lor_fits a b : fits64 a -> fits64 b -> fits64 (Z.lor a b).
Proof. rewrite !fits_shift, Z.shiftr_lor. intros [-> | ->] [-> | ->]; cbn; auto. Qed.
Lemma lxor_fits a b : fits64 a -> fits64 b -> fits64 (Z.lxor a b).
Proof. rewrite !fits_shift, Z.shiftr_lxor. intros [-> | ->] [-> | ->]; cbn; auto. Qed.
Lemma lnot_fits a : fits64 a -> fits64 (Z.lnot a).
Proof. unfold fits64, Z.lnot. lia. Qed.
Lemma shiftr_fits a k : (0 <= k)%Z -> fits64 a -> fits64 (Z.shiftr a k).
Proof.
  intros Hk. unfold fits64. rewrite Z.shiftr_div_pow2 by exact Hk.
  pose proof (Z.pow_pos_nonneg 2 k ltac:(lia) Hk). intros. nia.
Qed.
Lemma quot_fits l r : fits64 l -> r <> 0%Z -> ((l =? i64_min) && (r =? -1))%Z = false -> fits64 (Z.quot l r).
Proof.
  unfold fits64, i64_min. change (2 ^ 63)%Z with 9223372036854775808%Z. intros H Hr E.
  pose proof (Z.quot_rem' l r) as Q. pose proof (Z.rem_bound_abs l r Hr) as B. pose proof (Z.rem_sign_nz l r Hr) as S.
  assert (l = -9223372036854775808 -> r <> -1)%Z as X.
  { intros -> ->. discriminate. }
  clear E. remember (Z.quot l r) as q. remember (Z.rem l r) as e. clear Heqq Heqe. nia.
Qed.
Lemma rem_fits l r : fits64 l -> fits64 r -> r <> 0%Z -> fits64 (Z.rem l r).
Proof.
  unfold fits64. intros H H1 Hr. pose proof (Z.rem_bound_abs l r Hr). lia.
Qed.
Lemma wrap_fits z : fits64 (wrap64 z).
Proof. pose proof (wrap64_range z) as W. unfold in_i64, fits64, i64_min, i64_max in *. lia. Qed.
Lemma wrap32_range z : (- 2 ^ 31 <= wrap32 z < 2 ^ 31)%Z.
Proof. unfold wrap32. change (2 ^ 32)%Z with 4294967296%Z. change (2 ^ 31)%Z with 2147483648%Z. lia. Qed.

Section Held.
Context {Fn : Type} (m : mode) (o : oracle) (fi : fn_info Fn) (feq : Fn -> Fn -> res bool).
Notation val := (gvalue Fn).

Lemma sizes_from (l : list val) k :
  fold_right (fun x n => (get_size x + n)%N) k l = (fold_right (fun x n => (get_size x + n)%N) 0%N l + k)%N.
Proof. induction l; cbn [fold_right]; [lia|]. rewrite IHl. lia. Qed.
Lemma push_all_wf : forall items (v v' : vecc val),
  push_all v items = Ok v' -> value_wf (of_vecc v) -> Forall value_wf items -> value_wf (of_vecc v').
Proof.
  induction items as [|x items IH]; cbn [push_all]; intros v v' E Hv Hi; [injection E as <-; exact Hv|].
  unfold vecc_push in E. destruct (_ <? _)%N; [discriminate|]. inversion Hi as [|? ? Hx Hr]; subst.
  eapply IH; [exact E| |exact Hr]. inversion Hv as [| | | | | | | |? ? ? Hd Hs| | |]; subst.
  constructor; cbn [vc_data vc_size].
  - apply Forall_app; auto.
  - rewrite fold_right_app, Hs. cbn [fold_right]. rewrite (sizes_from _ (_ + 0)%N). lia.
Qed.
Lemma array_wf amax items (v : val) : Forall value_wf items -> v_array amax items = Ok v -> value_wf v.
Proof.
  intros Hi. unfold v_array. destruct (push_all _ _) as [w| |] eqn:E; cbn [rbind]; try discriminate. intros [= <-].
  eapply push_all_wf; [exact E| |exact Hi]. constructor; [constructor|reflexivity].
Qed.
Lemma extend_wf : forall items (v v' : vecc val),
  vecc_extend get_size v items = (v', Ok tt) -> value_wf (of_vecc v) -> Forall value_wf items -> value_wf (of_vecc v').
Proof.
  induction items as [|x items IH]; cbn [vecc_extend]; intros v v' E Hv Hi; [injection E as <-; exact Hv|].
  cbv zeta in E. destruct (_ <? _)%N; [discriminate|]. inversion Hi as [|? ? Hx Hr]; subst.
  eapply IH; [exact E| |exact Hr]. inversion Hv as [| | | | | | | |? ? ? Hd Hs| | |]; subst.
  constructor; cbn [vc_data vc_size].
  - apply Forall_app; auto.
  - rewrite fold_right_app, Hs. cbn [fold_right]. rewrite (sizes_from _ (_ + 0)%N). lia.
Qed.

Lemma avg_lt x y z : (x < 256)%N -> (y < 256)%N -> u8_avg m x y = Ok z -> (z < 256)%N.
Proof.
  unfold u8_avg. intros Hx Hy. destruct (_ <? _)%N eqn:E; [destruct m; [discriminate|]|]; intros [= <-]; lia.
Qed.
Lemma div_lt x y z : (x < 256)%N -> u8_sat_div x y = Ok z -> (z < 256)%N.
Proof.
  unfold u8_sat_div. intros Hx. destruct (N.eqb_spec y 0); [discriminate|]. intros [= <-].
  apply N.le_lt_trans with x; [|exact Hx]. apply N.div_le_upper_bound; nia.
Qed.

Ltac go := repeat match goal with
  | |- Ok _ = Ok _ -> _ => intros [= <-]
  | |- Err _ = Ok _ -> _ => discriminate
  | |- Panic = Ok _ -> _ => discriminate
  | |- unsup2 _ _ _ _ = Ok _ -> _ => discriminate
  | |- rbind ?x _ = Ok _ -> _ => destruct x eqn:?; cbn [rbind]
  | |- (if ?b then _ else _) = Ok _ -> _ => destruct b eqn:?
  | |- (match ?x with _ => _ end) = Ok _ -> _ => destruct x eqn:?
  end.
Lemma unary_wf op f (v r : val) : unary_fn m fi op = Some f -> value_wf v -> f v = Ok r -> value_wf r.
Proof.
  destruct op; cbn [unary_fn]; try discriminate; intros [= <-] Hv; unfold v_not, v_negate, v_bitnot;
    destruct v; try discriminate; go; inversion Hv; subst; constructor.
  - eapply ov64_fits; eauto.
  - now apply lnot_fits.
Qed.
Lemma binary_wf smax amax op f (a b r : val) : binary_fn m o fi feq smax amax op = Some f ->
  value_wf a -> value_wf b -> f a b = Ok r -> value_wf r.
Proof.
  destruct op; cbn [binary_fn]; try discriminate; intros [= <-] Ha Hb;
  unfold v_add, v_subtract, v_multiply, v_divide, v_modulo, v_power, v_equal, v_not_equal, v_lt, v_gt, v_le, v_ge, v_cmp,
    v_and, v_or, v_join, v_bitand, v_bitor, v_bitxor, v_shl, v_shr, v_int2, str_concat, i64_div, i64_rem; go;
  first
  [ match goal with |- value_wf (of_vecc _) => idtac end
  | inversion Ha; inversion Hb; subst; constructor;
    first [eapply ov64_fits; eassumption | eapply avg_lt; [| |eassumption]; assumption
          | eapply div_lt; [|eassumption]; assumption | idtac] ].
  all: try (unfold u8_sat_add, u8_sat_sub, u8_sat_mul; lia).
  - apply quot_fits; auto. match goal with H : is_zero _ = false |- _ => cbn in H; apply Z.eqb_neq in H; exact H end.
  - apply rem_fits; auto. match goal with H : is_zero _ = false |- _ => cbn in H; apply Z.eqb_neq in H; exact H end.
  - match goal with u : unit |- _ => destruct u end. inversion Ha; inversion Hb; subst.
    eapply extend_wf; [eassumption| |assumption]. constructor; auto.
  - match goal with H : Ok _ = Ok _ |- _ => injection H as <- end. now apply land_fits.
  - match goal with H : Ok _ = Ok _ |- _ => injection H as <- end. now apply lor_fits.
  - match goal with H : Ok _ = Ok _ |- _ => injection H as <- end. now apply lxor_fits.
  - revert Heqr0. destruct (shift_amount m z0); cbn [rbind]; try discriminate. intros [= <-]. apply wrap_fits.
  - revert Heqr0. destruct (shift_amount m z0) eqn:E; cbn [rbind]; try discriminate. intros [= <-].
    apply shiftr_fits; [|assumption]. revert E. unfold shift_amount. destruct (_ && _) eqn:E'.
    + intros [= <-]. lia.
    + destruct m; [discriminate|]. intros [= <-]. lia.
Qed.

Lemma index_wf (i v r : val) : value_wf v -> v_index m fi i v = Ok r -> value_wf r.
Proof.
  intros Hv. unfold v_index, rnth, channels. destruct i; try discriminate. destruct v; try discriminate; go;
    match goal with H : match nth_error _ _ with _ => _ end = Ok _ |- _ => revert H | _ => idtac end.
  all: inversion Hv; subst.
  - destruct (nth_error [r0; g; b; a] a0) eqn:E; [|discriminate]. intros [= <-]. constructor.
    apply nth_error_In in E. cbn in E. unfold fits64. destruct E as [<-|[<-|[<-|[<-|[]]]]]; lia.
  - constructor.
  - match goal with H : Forall _ _ |- _ => rewrite Forall_forall in H; apply H end. eapply nth_error_In; eauto.
  - match goal with H : nth_error _ _ = _ |- _ => apply nth_error_In in H; cbn in H; destruct H as [<-|[<-|[]]]; auto end.
Qed.
Lemma range_wf (a b r : val) : v_range fi a b = Ok r -> value_wf r.
Proof.
  unfold v_range. destruct a; try discriminate; destruct b; try discriminate. intros [= <-].
  constructor; apply wrap32_range.
Qed.
Lemma unpack_wf n (v : val) l : value_wf v -> v_unpack fi n v = Ok l -> Forall value_wf l.
Proof.
  intros Hv. unfold v_unpack. destruct v; try discriminate; go; inversion Hv; subst; auto.
  apply Forall_forall. intros x Hx. apply in_map_iff in Hx as (c & <- & Hc). constructor.
  assert (In c (channels r g b a)) as Hi.
  { rewrite <- (firstn_skipn (N.to_nat n)). apply in_or_app. now left. }
  cbn in Hi. unfold fits64. destruct Hi as [<-|[<-|[<-|[<-|[]]]]]; lia.
Qed.
Lemma iter_wf i (v r : val) : value_wf v -> v_iter m fi i v = Ok (Some r) -> value_wf r.
Proof.
  intros Hv. unfold v_iter, channels. destruct v; try discriminate; inversion Hv; subst.
  - destruct (in_i32 _) eqn:E; cbn [rbind].
    + destruct (_ <? _)%Z; [|discriminate]. intros [= <-]. constructor. unfold in_i32, fits64 in *. lia.
    + destruct m; cbn [rbind]; [discriminate|]. destruct (_ <? _)%Z; [|discriminate]. intros [= <-].
      pose proof (wrap32_range (a + wrap32 (Z.of_N i))). constructor. unfold fits64. lia.
  - destruct (nth_error [r0; g; b; a] _) eqn:E; [|discriminate]. intros [= <-]. constructor.
    apply nth_error_In in E. cbn in E. unfold fits64. destruct E as [<-|[<-|[<-|[<-|[]]]]]; lia.
  - destruct (nth_error s _); [|discriminate]. intros [= <-]. constructor.
  - intros [= E]. match goal with H : Forall _ _ |- _ => rewrite Forall_forall in H; apply H end. eapply nth_error_In; eauto.
Qed.
End Held.
