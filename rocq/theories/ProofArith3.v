(** Lemmas about joins, colours, sizes, iteration, destructuring and the text of
    integers. *)
From Verif Require Import Base Float NumText Vecc Value Ast Arith VmOps SpecArith ProofContainers ProofArith.
Local Open Scope Z_scope.
Ltac Zify.zify_post_hook ::= Z.div_mod_to_equations.

Lemma slen_app a b : slen (a ++ b) = (slen a + slen b)%N.
Proof. induction a as [|c a IH]; [reflexivity|]. change (slen ((c :: a) ++ b)) with (utf8_len c + slen (a ++ b))%N.
  change (slen (c :: a)) with (utf8_len c + slen a)%N. rewrite IH; lia. Qed.

Lemma str_repeat_copies s n : str_repeat s n = copies s (N.to_nat n).
Proof.
  unfold str_repeat. destruct s as [|c t].
  - induction (N.to_nat n); auto.
  - induction (N.to_nat n) as [|k IH]; cbn [repeat concat copies]; [auto | rewrite IH; auto].
Qed.

Lemma slen_copies s n : slen (copies s n) = (slen s * N.of_nat n)%N.
Proof. induction n as [|n IH]; cbn [copies]; [rewrite N.mul_0_r; reflexivity|].
  rewrite slen_app, IH, Nat2N.inj_succ, N.mul_succ_r; lia. Qed.

Section Sizes.
Context {Fn : Type} (m : mode) (fi : fn_info Fn) (o : oracle) (feq : Fn -> Fn -> res bool) (smax amax : N).

Lemma str_concat_ok l r (v : gvalue Fn) :
  str_concat smax l r = Ok v -> v = VString (l ++ r) /\ (slen (l ++ r) <= smax)%N.
Proof using.
  unfold str_concat; rewrite slen_app; destruct (N.ltb_spec smax (slen l + slen r)); [discriminate|].
  intros [= <-]; auto.
Qed.

(** ** C07 *)
Lemma string_size op f a b s :
  In op [OAdd; OMul; OJoin] ->
  binary_fn m o fi feq smax amax op = Some f -> f a b = Ok (VString s) -> (slen s <= smax)%N.
Proof using.
  intros Hop Hf Hr; cbn [In] in Hop; destruct Hop as [<-|[<-|[<-|[]]]]; cbn [binary_fn] in Hf; injection Hf as <-.
  - destruct a, b; cbn [v_add] in Hr; try discriminate;
      try (destruct (ov64 m _); discriminate).
    apply str_concat_ok in Hr as [[= ->] H]; auto.
  - destruct a, b; cbn [v_multiply] in Hr; try discriminate;
      try (destruct (ov64 m _); discriminate).
    destruct (Z.ltb_spec z 0); [discriminate|]. rename s0 into l.
    assert (Hs : forall p, p = (slen l * Z.to_N z)%N -> (p < 2 ^ 64)%N -> s = str_repeat l (Z.to_N z) -> (p <= smax)%N -> (slen s <= smax)%N).
    { intros p -> _ -> H1. rewrite str_repeat_copies, slen_copies. rewrite N2Nat.id. auto. }
    destruct m.
    + destruct (N.leb_spec (2 ^ 64) (slen l * Z.to_N z)); [discriminate|].
      destruct (N.ltb_spec smax (slen l * Z.to_N z)); [discriminate|].
      injection Hr as Hr. eapply Hs; eauto.
    + unfold usize_wrap in Hr.
      destruct (N.ltb_spec smax ((slen l * Z.to_N z) mod 2 ^ 64)) as [|Hw]; [discriminate|].
      destruct (N.leb_spec (2 ^ 64) (slen l * Z.to_N z)); [discriminate|].
      rewrite N.mod_small in Hw by auto.
      injection Hr as Hr. eapply Hs; eauto.
  - destruct a, b; cbn [v_join] in Hr; try discriminate;
      try (apply str_concat_ok in Hr as [[= ->] H]; auto).
    + destruct (u8_avg m r r0); cbn [rbind] in Hr; try discriminate.
      destruct (u8_avg m g g0); cbn [rbind] in Hr; try discriminate.
      destruct (u8_avg m b0 b); cbn [rbind] in Hr; try discriminate.
      destruct (u8_avg m a a0); cbn [rbind] in Hr; try discriminate.
    + destruct (N.ltb _ _); [discriminate|].
      destruct (vecc_extend _ _ _) as [? [| |]]; discriminate.
Qed.

(** What is too large is refused. *)
Lemma concat_large l r : (smax < slen l + slen r)%N -> @str_concat Fn smax l r = Err EStringTooLarge.
Proof using. intros H; unfold str_concat; destruct (N.ltb_spec smax (slen l + slen r)); [auto | lia]. Qed.
Lemma concat_small l r : (slen l + slen r <= smax)%N -> @str_concat Fn smax l r = Ok (VString (l ++ r)).
Proof using. intros H; unfold str_concat; destruct (N.ltb_spec smax (slen l + slen r)); [lia | auto]. Qed.

Lemma join_strings (a b : gvalue Fn) ta tb :
  is_string a || is_string b = true ->
  join_text (o_f64_text o) int_text a = Some ta -> join_text (o_f64_text o) int_text b = Some tb ->
  v_join m o fi smax amax a b = @str_concat Fn smax ta tb.
Proof using.
  intros Hs Ha Hb. destruct a; cbn in Ha; try discriminate; destruct b; cbn in Hb, Hs; try discriminate;
    try destruct b; try destruct b0; injection Ha as <-; injection Hb as <-; reflexivity.
Qed.

Lemma repeat_string s n :
  0 <= n -> (slen s * Z.to_N n < 2 ^ 64)%N ->
  v_multiply m fi smax (VString s) (VInt n) =
    (if (slen s * Z.to_N n <=? smax)%N then Ok (VString (copies s (Z.to_nat n))) else Err EStringTooLarge).
Proof using.
  intros Hn Hp; cbn [v_multiply]. destruct (Z.ltb_spec n 0); [lia|].
  rewrite str_repeat_copies. replace (N.to_nat (Z.to_N n)) with (Z.to_nat n) by lia.
  unfold usize_wrap. rewrite N.mod_small by auto.
  destruct (N.leb_spec (2 ^ 64) (slen s * Z.to_N n)); [exfalso; eapply N.lt_irrefl, N.lt_le_trans; eauto|].
  destruct (N.ltb_spec smax (slen s * Z.to_N n)), (N.leb_spec (slen s * Z.to_N n) smax), m; auto;
    exfalso; eapply N.lt_irrefl; eapply N.lt_le_trans; eauto.
Qed.

(** ** C08, C31 *)
Notation sizes := (sum_sizes (@get_size Fn)).

Lemma sizes_wf d : sizes d = fold_right (fun x n => (get_size x + n)%N) 0%N d.
Proof using. reflexivity. Qed.

Lemma push_all_spec items v :
  push_all v items =
    (if (vc_max v <? vc_size v + sizes items)%N
     then match items with [] => Ok v | _ => Err EArrayTooLarge end
     else Ok (mkVecc (vc_data v ++ items) (vc_size v + sizes items) (vc_max v))).
Proof using.
  revert v; induction items as [|x l IH]; intros [d s mx]; cbn [push_all vc_data vc_size vc_max].
  - cbn [sum_sizes fold_right]. rewrite N.add_0_r, app_nil_r. destruct (mx <? s)%N; auto.
  - change (sizes (x :: l)) with (get_size x + sizes l)%N.
    unfold vecc_push; cbn [vc_data vc_size vc_max].
    destruct (N.ltb_spec mx (s + get_size x)).
    + destruct (N.ltb_spec mx (s + (get_size x + sizes l))); [auto | lia].
    + rewrite IH; cbn [vc_data vc_size vc_max]. rewrite <- app_assoc; cbn [app].
      rewrite N.add_assoc.
      destruct (N.ltb_spec mx (s + get_size x + sizes l)); auto.
      destruct l; auto. cbn [sum_sizes fold_right] in *; lia.
Qed.

Lemma array_spec items :
  v_array amax items =
    (if (sizes items <=? amax)%N then Ok (VArray items (sizes items) amax) else Err EArrayTooLarge).
Proof using.
  unfold v_array; rewrite push_all_spec; cbn [vecc_new vc_data vc_size vc_max].
  rewrite N.add_0_l.
  destruct (N.ltb_spec amax (sizes items)), (N.leb_spec (sizes items) amax); try lia; auto.
  destruct items; auto. cbn [sum_sizes fold_right] in *; lia.
Qed.

Lemma extend_spec d s mx (items : list (gvalue Fn)) :
  (s + sizes items <= mx)%N ->
  vecc_extend get_size (mkVecc d s mx) items = (mkVecc (d ++ items) (s + sizes items) mx, Ok tt).
Proof using.
  revert d s; induction items as [|x l IH]; intros d s H; cbn [vecc_extend].
  - cbn [sum_sizes fold_right]. rewrite N.add_0_r, app_nil_r; auto.
  - change (sizes (x :: l)) with (get_size x + sizes l)%N in *. cbn [vc_data vc_size vc_max].
    destruct (N.ltb_spec mx (s + get_size x)); [lia|].
    rewrite IH by lia. rewrite <- app_assoc, N.add_assoc; reflexivity.
Qed.

Lemma sizes_app d d' : sizes (d ++ d') = (sizes d + sizes d')%N.
Proof using. induction d as [|x d IH]; [reflexivity|].
  change (sizes ((x :: d) ++ d')) with (get_size x + sizes (d ++ d'))%N.
  change (sizes (x :: d)) with (get_size x + sizes d)%N. rewrite IH; lia. Qed.

Lemma join_arrays d s mx d' s' mx' :
  value_wf (VArray d s mx) -> value_wf (VArray d' s' mx') ->
  v_join m o fi smax amax (VArray d s mx) (VArray d' s' mx') =
    (if (amax <? s + s')%N then Err EArrayTooLarge
     else if (s + s' <=? mx)%N then Ok (VArray (d ++ d') (s + s') mx)
     else match d' with [] => Ok (VArray d s mx) | _ => Err EArrayTooLarge end).
Proof using.
  intros H1 H2; inversion H1; subst; inversion H2; subst.
  rewrite <- !sizes_wf. cbn [v_join].
  destruct (N.ltb _ _); auto. unfold arr_vecc.
  destruct (N.leb_spec (sizes d + sizes d') mx).
  - rewrite extend_spec by auto; reflexivity.
  - assert (Hx : forall items d s, (mx < s + sizes items)%N ->
       items = [] \/ exists v, vecc_extend get_size (@mkVecc (gvalue Fn) d s mx) items = (v, Err EArrayTooLarge)).
    { induction items as [|x l IH]; intros d0 s0 Hs; auto. right; cbn [vecc_extend vc_data vc_size vc_max].
      destruct (N.ltb_spec mx (s0 + get_size x)); eauto.
      change (sizes (x :: l)) with (get_size x + sizes l)%N in Hs.
      destruct (IH (d0 ++ [x]) (s0 + get_size x)%N ltac:(lia)) as [->|]; eauto.
      cbn [sum_sizes fold_right] in Hs; lia. }
    destruct (Hx d' d (sizes d) ltac:(lia)) as [->|[v Hv]].
    + reflexivity.
    + rewrite Hv. destruct d'; auto. discriminate Hv.
Qed.

Lemma join_array_size a b d s mx :
  value_wf a -> value_wf b -> v_join m o fi smax amax a b = Ok (VArray d s mx) ->
  s = sizes d /\ (s <= amax)%N.
Proof using.
  intros Ha Hb Hr. destruct a, b; cbn [v_join] in Hr; try discriminate;
    try (unfold str_concat in Hr; destruct (N.ltb _ _); discriminate).
  - destruct (u8_avg m r r0); cbn [rbind] in Hr; try discriminate.
    destruct (u8_avg m g g0); cbn [rbind] in Hr; try discriminate.
    destruct (u8_avg m b0 b); cbn [rbind] in Hr; try discriminate.
    destruct (u8_avg m a a0); cbn [rbind] in Hr; try discriminate.
  - change (v_join m o fi smax amax (VArray data size max) (VArray data0 size0 max0) = Ok (VArray d s mx)) in Hr.
    rewrite join_arrays in Hr by auto. inversion Ha; subst; inversion Hb; subst.
    rewrite <- !sizes_wf in *.
    destruct (N.ltb_spec amax (sizes data + sizes data0)); [discriminate|].
    destruct (N.leb_spec (sizes data + sizes data0) max).
    + injection Hr as <- <- <-. rewrite sizes_app; auto.
    + destruct data0; [|discriminate]. injection Hr as <- <- <-. cbn [sum_sizes fold_right] in *. split; auto; lia.
Qed.

(** ** C33 *)
Lemma color_add r g b a r' g' b' a' :
  v_add m fi smax (VColor r g b a) (VColor r' g' b' a') =
  Ok (VColor (u8_sat_add r r') (u8_sat_add g g') (u8_sat_add b b') (u8_sat_add a a')).
Proof using. reflexivity. Qed.

Lemma color_ops op f a b :
  In op [OAdd; OSub; OMul] -> binary_fn m o fi feq smax amax op = Some f ->
  is_color a -> is_color b -> value_wf a -> value_wf b ->
  exists c, f a b = Ok c /\ value_wf c /\
    chan4 (fun x y => clamp255 (match op with OAdd => x + y | OSub => x - y | _ => x * y end)) a b c.
Proof using.
  intros Hop Hf (r & g & b0 & a0 & ->) (r' & g' & b' & a' & ->) W1 W2.
  inversion W1; subst; inversion W2; subst.
  cbn [In] in Hop; destruct Hop as [<-|[<-|[<-|[]]]]; cbn [binary_fn] in Hf; injection Hf as <-;
    (eexists; split; [reflexivity|]); (split; [constructor; unfold u8_sat_add, u8_sat_sub, u8_sat_mul; lia|]);
    do 12 eexists; (split; [reflexivity|]); (split; [reflexivity|]); (split; [reflexivity|]);
    unfold u8_sat_add, u8_sat_sub, u8_sat_mul, clamp255; rewrite ?N2Z.inj_min, ?N2Z.inj_mul;
    repeat split; lia.
Qed.

Lemma color_div a b f :
  binary_fn m o fi feq smax amax ODiv = Some f ->
  is_color a -> is_color b -> value_wf a -> value_wf b ->
  (forall r g b' a', b = VColor r g b' a' -> r <> 0 /\ g <> 0 /\ b' <> 0 /\ a' <> 0)%N ->
  exists c, f a b = Ok c /\ value_wf c /\ chan4 Z.div a b c.
Proof using.
  intros Hf (r & g & b0 & a0 & ->) (r' & g' & b' & a' & ->) W1 W2 Hnz.
  injection Hf as <-.
  destruct (Hnz _ _ _ _ eq_refl) as (H1 & H2 & H3 & H4).
  inversion W1; subst; inversion W2; subst.
  unfold v_divide; cbn [is_zero]. unfold u8_sat_div.
  apply N.eqb_neq in H1, H2, H3, H4. rewrite H1, H2, H3, H4; cbn [rbind].
  apply N.eqb_neq in H1, H2, H3, H4.
  assert (Hd : forall x y, y <> 0%N -> (x < 256)%N -> (x / y < 256)%N).
  { intros x y Hy Hx. apply N.div_lt_upper_bound; [auto|]. nia. }
  eexists; split; [reflexivity|]; split; [constructor; auto|].
  do 12 eexists; (split; [reflexivity|]); (split; [reflexivity|]); (split; [reflexivity|]).
  rewrite !N2Z.inj_div; auto.
Qed.

Lemma color_mean a b f :
  binary_fn m o fi feq smax amax OJoin = Some f ->
  is_color a -> is_color b ->
  (forall r g b' a' r' g' b'' a'', a = VColor r g b' a' -> b = VColor r' g' b'' a'' ->
     r + r' <= 255 /\ g + g' <= 255 /\ b' + b'' <= 255 /\ a' + a'' <= 255)%N ->
  exists c, f a b = Ok c /\ value_wf c /\ chan4 (fun x y => (x + y) / 2) a b c.
Proof using.
  intros Hf (r & g & b0 & a0 & ->) (r' & g' & b' & a' & ->) Hs.
  injection Hf as <-.
  destruct (Hs _ _ _ _ _ _ _ _ eq_refl eq_refl) as (H1 & H2 & H3 & H4).
  cbn [v_join]; unfold u8_avg.
  destruct (N.ltb_spec 255 (r + r')); [lia|]. destruct (N.ltb_spec 255 (g + g')); [lia|].
  destruct (N.ltb_spec 255 (b0 + b')); [lia|]. destruct (N.ltb_spec 255 (a0 + a')); [lia|].
  cbn [rbind]. eexists; split; [reflexivity|]; split; [constructor; lia|].
  do 12 eexists; (split; [reflexivity|]); (split; [reflexivity|]); (split; [reflexivity|]).
  repeat split; lia.
Qed.
End Sizes.
