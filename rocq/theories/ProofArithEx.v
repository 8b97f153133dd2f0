(** Combined forms and counterexamples used by PropArith. *)
From Verif Require Import Base Float NumText Vecc Value Ast Arith VmOps SpecArith
  ProofArith ProofArith2 ProofArith3 ProofArith4.

Definition no_oracle : oracle :=
  mkOracle (fun _ => []) (fun _ => None) (fun _ _ => fzero) (fun _ _ => fzero) (fun _ => []) (fun _ => []) (fun _ => false).

Lemma strings_too_large (Fn : Type) m (fi : fn_info Fn) o smax amax l r n :
  ((smax < slen l + slen r)%N ->
     v_add m fi smax (VString l) (VString r) = Err EStringTooLarge /\
     v_join m o fi smax amax (VString l) (VString r) = Err EStringTooLarge) /\
  ((0 <= n)%Z -> (smax < slen l * Z.to_N n < 2 ^ 64)%N ->
     v_multiply m fi smax (VString l) (VInt n) = Err EStringTooLarge).
Proof.
  split.
  - intros H; split; cbn [v_add v_join]; apply concat_large; auto.
  - intros Hn [H1 H2]. rewrite repeat_string by auto.
    destruct (N.leb_spec (slen l * Z.to_N n) smax); [|auto].
    apply N.lt_nge in H1; contradiction.
Qed.

Lemma strings_wrap :
  exists s n, (0 <= n < 2 ^ 63)%Z /\ (100000 < slen s * Z.to_N n)%N /\
    forall m (Fn : Type) (fi : fn_info Fn), v_multiply m fi 100000 (VString s) (VInt n) = Panic.
Proof.
  exists (str "abcd"), (2 ^ 62)%Z. split; [lia|]. split; [vm_compute; auto|].
  intros m Fn fi. destruct m; vm_compute; auto.
Qed.

Lemma array_expression (Fn : Type) amax (items : list (gvalue Fn)) :
  let total := fold_right (fun x n => (get_size x + n)%N) 0%N items in
  ((total <= amax)%N -> v_array amax items = Ok (VArray items total amax)) /\
  ((amax < total)%N -> v_array amax items = Err EArrayTooLarge).
Proof.
  cbv zeta. rewrite array_spec, sizes_wf.
  destruct (N.leb_spec (fold_right (fun x n => (get_size x + n)%N) 0%N items) amax); split; intros; auto; lia.
Qed.

Lemma iteration (Fn : Type) (fi : fn_info Fn) v l i :
  value_wf v -> visits v = Some l -> (N.to_nat i <= length l)%nat ->
  v_iter Release fi i v = Ok (nth_error l (N.to_nat i)) /\
  ((Z.of_N i < 2 ^ 31)%Z -> v_iter Debug fi i v = Ok (nth_error l (N.to_nat i))).
Proof. intros; split; [apply iter_release | intros; apply iter_debug]; auto. Qed.

Lemma range_small (Fn : Type) (fi : fn_info Fn) a b :
  (- 2 ^ 31 <= a < 2 ^ 31)%Z -> (- 2 ^ 31 <= b < 2 ^ 31)%Z ->
  exists r, v_range fi (VInt a) (VInt b) = Ok r /\ value_wf r /\
    visits r = Some (map VInt (zseq a (Z.to_nat (b - a)))).
Proof.
  intros Ha Hb; cbn [v_range]; rewrite !wrap32_id by auto. eexists; split; [reflexivity|].
  split; [constructor; auto | reflexivity].
Qed.

Lemma range_large :
  exists a b : Z, (a < b < 2 ^ 63)%Z /\
    forall (Fn : Type) (fi : fn_info Fn), exists r,
      v_range fi (VInt a) (VInt b) = Ok r /\ visits r = Some [].
Proof.
  exists 0%Z, (2 ^ 31)%Z. split; [lia|]. intros Fn fi. eexists; split; [reflexivity|]. reflexivity.
Qed.

Lemma unpack_color_prefix (Fn : Type) (fi : fn_info Fn) n r g b a l :
  parts (VColor r g b a) = Some l -> (1 <= n <= 4)%N ->
  v_unpack fi n (VColor r g b a) = Ok (firstn (N.to_nat n) l).
Proof.
  intros [= <-] Hn. rewrite unpack_color.
  destruct (N.eqb_spec n 0); [lia|]. destruct (N.leb_spec n 4); [reflexivity | lia].
Qed.

Lemma unpack_color_panic (Fn : Type) (fi : fn_info Fn) n r g b a :
  (4 < n)%N -> v_unpack fi n (VColor r g b a) = Panic.
Proof.
  intros Hn. rewrite unpack_color.
  destruct (N.eqb_spec n 0); [lia|]. destruct (N.leb_spec n 4); [lia | reflexivity].
Qed.

Lemma index_debug_agrees (Fn : Type) (fi : fn_info Fn) i (v : gvalue Fn) l :
  fits64 i -> elements v = Some l -> (Z.of_nat (length l) < 2 ^ 63)%Z ->
  (0 <= i \/ - 2 ^ 63 < i < - Z.of_nat (length l))%Z ->
  v_index Debug fi (VInt i) v = v_index Release fi (VInt i) v.
Proof.
  unfold fits64; intros Hi He Hl Hr. rewrite !(v_index_elements _ _ _ _ _ He).
  destruct Hr as [Hr|Hr].
  - rewrite !fix_index_nonneg by lia; auto.
  - rewrite fix_index_debug_neg, fix_index_release_neg by lia.
    destruct (Z.leb_spec (- Z.of_nat (length l)) i); [lia|].
    destruct (Z.eqb_spec i (- 2 ^ 63)); [lia|]. reflexivity.
Qed.

Lemma index_debug_panics (Fn : Type) (fi : fn_info Fn) i (v : gvalue Fn) l :
  elements v = Some l -> (Z.of_nat (length l) < 2 ^ 63)%Z ->
  in_bounds l i -> (i < 0)%Z -> v_index Debug fi (VInt i) v = Panic.
Proof.
  unfold in_bounds; intros He Hl Hi Hn. rewrite (v_index_elements _ _ _ _ _ He), fix_index_debug_neg by lia.
  destruct (Z.leb_spec (- Z.of_nat (length l)) i); [reflexivity | lia].
Qed.

Lemma index_errors (Fn : Type) (fi : fn_info Fn) m i (v : gvalue Fn) :
  (elements v = None -> v_index m fi (VInt i) v = Err (EExpected (str "indexable") (ntype fi v))) /\
  (forall w, (forall z, w <> VInt z) -> v_index m fi w v = Err (EExpected (str "int") (ntype fi w))).
Proof.
  split.
  - destruct v; cbn [elements]; discriminate || reflexivity.
  - intros w Hw; destruct w; try reflexivity. destruct (Hw z eq_refl).
Qed.

Lemma negation_spec (Fn : Type) (fi : fn_info Fn) z :
  fits64 z ->
  (z <> - 2 ^ 63 -> forall m, v_negate m fi (VInt z) = Ok (VInt (- z)))%Z /\
  (z = - 2 ^ 63 -> v_negate Release fi (VInt z) = Ok (VInt z) /\ v_negate Debug fi (VInt z) = Panic)%Z /\
  (forall m, exists f, unary_fn m fi OBitwiseNot = Some f /\ f (VInt z) = Ok (VInt (- z - 1)%Z)).
Proof.
  intros Hz; split; [|split].
  - intros Hn m; apply negate_exact; auto.
  - intros ->; split; reflexivity.
  - intros m; eexists; split; [reflexivity|]. cbn [v_bitnot]; reflexivity.
Qed.

Lemma min_panics (Fn : Type) (fi : fn_info Fn) :
  math_int IRem (- 2 ^ 63) (-1) = Some 0%Z /\
  v_modulo fi (VInt (- 2 ^ 63)) (VInt (-1)) = Panic /\
  v_divide fi (VInt (- 2 ^ 63)) (VInt (-1)) = Panic.
Proof. repeat split. Qed.

Lemma crash_witnesses (Fn : Type) (fi : fn_info Fn) m :
  v_divide fi (VInt (- 2 ^ 63)) (VInt (-1)) = Panic /\
  v_divide fi (VColor 1 2 3 4) (VColor 1 0 1 1) = Panic /\
  v_multiply m fi 100000 (VString (str "abcd")) (VInt (2 ^ 62)) = Panic.
Proof. destruct m; repeat split; vm_compute; auto. Qed.

Lemma crash_examples :
  @crashes mfn Release 10 ODiv (VColor 1 2 3 4) (VColor 1 0 1 1) /\
  ~ @crashes mfn Release 10 OAdd (VInt (2 ^ 63 - 1)) (VInt 1) /\
  @crashes mfn Debug 10 OAdd (VInt (2 ^ 63 - 1)) (VInt 1).
Proof.
  split; [|split]; cbn [crashes].
  - auto.
  - intros [[=] _].
  - split; [auto|]. unfold fits64; lia.
Qed.

Lemma int_compare (Fn : Type) (fi : fn_info Fn) feq (l r : Z) :
  v_lt fi (VInt l) (VInt r) = Ok (VBool (if Z_lt_dec l r then true else false)) /\
  v_le fi (VInt l) (VInt r) = Ok (VBool (if Z_le_dec l r then true else false)) /\
  v_gt fi (VInt l) (VInt r) = Ok (VBool (if Z_gt_dec l r then true else false)) /\
  v_ge fi (VInt l) (VInt r) = Ok (VBool (if Z_ge_dec l r then true else false)) /\
  v_equal feq (@VInt Fn l) (VInt r) = Ok (VBool (if Z.eq_dec l r then true else false)).
Proof.
  unfold v_lt, v_le, v_gt, v_ge, v_equal; cbn [v_cmp geqb rbind].
  repeat split; repeat f_equal.
  - destruct (Z.ltb_spec l r), (Z_lt_dec l r); auto; lia.
  - destruct (Z.leb_spec l r), (Z_le_dec l r); auto; lia.
  - rewrite Z.gtb_ltb. destruct (Z.ltb_spec r l), (Z_gt_dec l r); auto; lia.
  - rewrite Z.geb_leb. destruct (Z.leb_spec r l), (Z_ge_dec l r); auto; lia.
  - destruct (Z.eqb_spec l r), (Z.eq_dec l r); auto; lia.
Qed.

Lemma compare_mirror (Fn : Type) (fi : fn_info Fn) (a b : gvalue Fn) :
  is_number a = true -> is_number b = true ->
  v_lt fi a b = v_gt fi b a /\ v_le fi a b = v_ge fi b a /\
  exists x y, v_lt fi a b = Ok (VBool x) /\ v_le fi a b = Ok (VBool y).
Proof.
  unfold v_lt, v_le, v_gt, v_ge.
  destruct a; try discriminate; destruct b; try discriminate; intros _ _; cbn [v_cmp];
    rewrite ?Z.gtb_ltb, ?Z.geb_leb; repeat split; eauto.
Qed.

Lemma equality_laws (Fn : Type) (feq : Fn -> Fn -> res bool) :
  (forall f g, feq f g = feq g f) -> (forall f, feq f f = Ok true) ->
  (forall f g h, feq f g = Ok true -> feq g h = Ok true -> feq f h = Ok true) ->
  (forall a b, v_equal feq a b = v_equal feq b a) /\
  (forall a b x, v_equal feq a b = Ok (VBool x) <-> v_not_equal feq a b = Ok (VBool (negb x))) /\
  (forall a, nan_free a -> v_equal feq a a = Ok (VBool true)) /\
  (forall a b c, v_equal feq a b = Ok (VBool true) -> v_equal feq b c = Ok (VBool true) ->
                 v_equal feq a c = Ok (VBool true)).
Proof.
  intros Hs Hr Ht; unfold v_equal, v_not_equal.
  split; [|split; [|split]].
  - intros a b. rewrite (geqb_sym feq Hs a b). auto.
  - intros a b x. destruct (geqb feq a b) as [[]| |]; cbn [rbind]; destruct x; cbn [negb]; split; congruence.
  - intros a Ha. rewrite (geqb_refl feq Hr a Ha). auto.
  - intros a b c H1 H2.
    destruct (geqb feq a b) as [[]| |] eqn:E1; try discriminate.
    destruct (geqb feq b c) as [[]| |] eqn:E2; try discriminate.
    rewrite (geqb_trans feq Ht _ _ _ E1 E2). auto.
Qed.

Lemma array_join (Fn : Type) m (fi : fn_info Fn) o smax amax d s mx d' s' mx' :
  value_wf (VArray d s mx) -> value_wf (VArray d' s' mx') ->
  ((s + s' <= amax)%N -> (s + s' <= mx)%N ->
     v_join m o fi smax amax (VArray d s mx) (VArray d' s' mx') = Ok (VArray (d ++ d') (s + s') mx)) /\
  ((amax < s + s')%N ->
     v_join m o fi smax amax (VArray d s mx) (VArray d' s' mx') = Err EArrayTooLarge).
Proof.
  intros H1 H2; rewrite (join_arrays m fi o smax amax d s mx d' s' mx' H1 H2).
  destruct (N.ltb_spec amax (s + s')); split; intros; auto; try lia.
  destruct (N.leb_spec (s + s') mx); [auto | lia].
Qed.

Lemma literal_join (Fn : Type) m (fi : fn_info Fn) o smax amax (items : list (gvalue Fn)) d s mx :
  (0 < s)%N -> value_wf (VArray d s mx) ->
  v_join m o fi smax amax (force_array items) (VArray d s mx) = Err EArrayTooLarge.
Proof.
  intros Hs Hw. unfold force_array, of_vecc, vecc_force_new; cbn [vc_data vc_size vc_max v_join].
  destruct (N.ltb _ _); [reflexivity|]. unfold arr_vecc. inversion Hw; subst.
  assert (Hx : forall l (dd : list (gvalue Fn)) ss mm, (mm < ss + sum_sizes get_size l)%N -> (0 < sum_sizes get_size l)%N ->
            exists v, vecc_extend get_size (mkVecc dd ss mm) l = (v, Err EArrayTooLarge)).
  { induction l as [|x l IH]; intros dd ss mm H Hp; cbn [sum_sizes fold_right] in *; [lia|].
    cbn [vecc_extend vc_data vc_size vc_max].
    destruct (N.ltb_spec mm (ss + get_size x)); eauto.
    fold (sum_sizes (@get_size Fn) l) in *. apply IH; lia. }
  destruct (Hx d items (sum_sizes get_size items) (sum_sizes get_size items)) as [v ->]; auto.
  unfold sum_sizes in *; lia.
Qed.

Lemma string_join (Fn : Type) m (fi : fn_info Fn) o smax amax (a b : gvalue Fn) ta tb :
  is_string a || is_string b = true ->
  join_text (o_f64_text o) int_text a = Some ta -> join_text (o_f64_text o) int_text b = Some tb ->
  v_join m o fi smax amax a b =
    if (slen (ta ++ tb) <=? smax)%N then Ok (VString (ta ++ tb)) else Err EStringTooLarge.
Proof.
  intros H1 H2 H3. rewrite (join_strings m fi o smax amax a b ta tb H1 H2 H3), slen_app.
  destruct (N.leb_spec (slen ta + slen tb) smax); [apply concat_small | apply concat_large]; auto.
Qed.

Lemma string_repeat (Fn : Type) m (fi : fn_info Fn) smax s n :
  ((0 <= n)%Z -> (slen s * Z.to_N n < 2 ^ 64)%N ->
     v_multiply m fi smax (VString s) (VInt n) =
       (if (slen s * Z.to_N n <=? smax)%N then Ok (VString (copies s (Z.to_nat n)))
        else Err EStringTooLarge)) /\
  ((n < 0)%Z -> exists e, v_multiply m fi smax (VString s) (VInt n) = Err e).
Proof.
  split; [apply repeat_string|]. intros Hn; cbn [v_multiply].
  destruct (Z.ltb_spec n 0); [eauto | lia].
Qed.

Lemma color_refuted (Fn : Type) (fi : fn_info Fn) o smax amax :
  v_join Release o fi smax amax (VColor 255 255 255 255) (VColor 255 255 255 255)
    = Ok (VColor 127 127 127 127) /\
  v_join Debug o fi smax amax (VColor 255 255 255 255) (VColor 255 255 255 255) = Panic /\
  v_divide fi (VColor 1 1 1 1) (VColor 0 1 1 1) = Panic.
Proof. repeat split. Qed.
