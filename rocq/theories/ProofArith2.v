(** Lemmas about crashes, comparisons, joins, colours, sizes, iteration and
    destructuring. *)
From Verif Require Import Base Float NumText Vecc Value Ast Arith VmOps SpecArith ProofContainers ProofArith.
Local Open Scope Z_scope.
Ltac Zify.zify_post_hook ::= Z.div_mod_to_equations.

Lemma fits64_dec z : {fits64 z} + {~ fits64 z}.
Proof.
  destruct (in_i64 z) eqn:E; [left | right; rewrite fits64_in, E; discriminate].
  apply fits64_in, E.
Qed.

Lemma ov64_panic m z {A} (k : Z -> A) :
  (let! x := ov64 m z in Ok (k x)) = Panic <-> m = Debug /\ ~ fits64 z.
Proof.
  unfold ov64. rewrite fits64_in. destruct (in_i64 z); [|destruct m]; cbn [rbind].
  - split; [discriminate | intros [_ H]; destruct H; auto].
  - split; [intros _ | auto]. split; [auto | discriminate].
  - split; [discriminate | intros [[=] _]].
Qed.

Section Crash.
Context {Fn : Type} (fi : fn_info Fn) (o : oracle) (feq : Fn -> Fn -> res bool) (smax amax : N).
Hypothesis feq_safe : forall f g, feq f g <> Panic.

Lemma geqb_safe : forall a b : gvalue Fn, geqb feq a b <> Panic.
Proof using feq_safe.
  induction a as [| | | | | | | |l s mx IH| |a1 a2 IH1 IH2|f] using gvalue_rect';
    intros w; destruct w; cbn [geqb]; try discriminate; auto.
  - destruct (length l =? length data)%nat; [|discriminate].
    revert data; induction IH as [|x l Hx _ IHl]; intros [|y t]; try discriminate.
    specialize (Hx y). destruct (geqb feq x y) as [[]| |]; cbn [rbind]; try discriminate; auto.
  - specialize (IH1 w1). destruct (geqb feq a1 w1) as [[]| |]; cbn [rbind]; try discriminate; auto.
Qed.

Lemma vecc_extend_safe (v : vecc (gvalue Fn)) items :
  (exists v', vecc_extend get_size v items = (v', Ok tt)) \/
  (exists v', vecc_extend get_size v items = (v', Err EArrayTooLarge)).
Proof using.
  revert v; induction items as [|x l IH]; intros v; cbn [vecc_extend]; eauto.
  destruct (N.ltb _ _); eauto.
Qed.

Lemma u8_div_panic a b : u8_sat_div a b = Panic <-> b = 0%N.
Proof using. unfold u8_sat_div; destruct (N.eqb_spec b 0); split; congruence. Qed.

Lemma operator_crashes m op f a b :
  binary_fn m o fi feq smax amax op = Some f -> (f a b = Panic <-> crashes m smax op a b).
Proof using feq_safe.
  intros Hf; destruct op; cbn [binary_fn] in Hf; injection Hf as <- || discriminate Hf.
  - (* + *)
    destruct a, b; cbn [v_add crashes]; try (split; [discriminate | contradiction]).
    + apply ov64_panic.
    + unfold str_concat; destruct (N.ltb _ _); split; [discriminate | contradiction | discriminate | contradiction].
  - destruct a, b; cbn [v_subtract crashes]; try (split; [discriminate | contradiction]).
    apply ov64_panic.
  - destruct a, b; cbn [v_multiply crashes]; try (split; [discriminate | contradiction]).
    + apply ov64_panic.
    + destruct (Z.ltb_spec z 0); [split; [discriminate | intros (? & _); lia]|].
      set (p := (slen s * Z.to_N z)%N).
      destruct (N.leb_spec (2 ^ 64) p) as [Hp|Hp], m; unfold usize_wrap.
      * split; auto.
      * destruct (N.ltb_spec smax (p mod 2 ^ 64)%N) as [Hw|Hw].
        -- split; [discriminate|]. intros (_ & _ & [[=]|Hc]). apply N.lt_nge in Hw; contradiction.
        -- split; auto.
      * destruct (N.ltb smax p); (split; [discriminate|]); intros (_ & Hc & _); apply N.lt_nge in Hp; contradiction.
      * destruct (N.ltb smax (p mod 2 ^ 64)%N); (split; [discriminate|]);
          intros (_ & Hc & _); apply N.lt_nge in Hp; contradiction.
  - unfold v_divide.
    destruct a, b; cbn [is_zero crashes]; try (split; [discriminate | contradiction]);
      try (destruct (feqb _ _); split; [discriminate | contradiction | discriminate | contradiction]);
      try (destruct (Z.eqb_spec z 0); split; [discriminate | contradiction | discriminate | contradiction]).
    + unfold i64_div, i64_min.
      destruct (Z.eqb_spec z0 0); [split; [discriminate | intros [_ ->]; discriminate]|].
      destruct (Z.eqb_spec z (- 2 ^ 63)), (Z.eqb_spec z0 (-1)); cbn [andb];
        (split; [try discriminate; auto | intros [? ?]; congruence]).
    + pose proof (u8_div_panic r r0). pose proof (u8_div_panic g g0).
      pose proof (u8_div_panic b0 b). pose proof (u8_div_panic a a0).
      unfold u8_sat_div in *.
      destruct (r0 =? 0)%N, (g0 =? 0)%N, (b =? 0)%N, (a0 =? 0)%N; cbn [rbind]; intuition congruence.
  - unfold v_modulo.
    destruct a, b; cbn [is_zero crashes]; try (split; [discriminate | contradiction]);
      try (destruct (feqb _ _); split; [discriminate | contradiction | discriminate | contradiction]);
      try (destruct (Z.eqb_spec z 0); split; [discriminate | contradiction | discriminate | contradiction]).
    unfold i64_rem, i64_min.
    destruct (Z.eqb_spec z0 0); [split; [discriminate | intros [_ ->]; discriminate]|].
    destruct (Z.eqb_spec z (- 2 ^ 63)), (Z.eqb_spec z0 (-1)); cbn [andb];
      (split; [try discriminate; auto | intros [? ?]; congruence]).
  - destruct a, b; cbn [v_power crashes]; try (split; [discriminate | contradiction]).
    unfold to_u32; rewrite Z2N.id by (apply Z.mod_pos_bound; reflexivity). apply ov64_panic.
  - cbn [crashes]; split; [|contradiction]. unfold v_equal.
    pose proof (geqb_safe a b). destruct (geqb feq a b); cbn [rbind]; congruence.
  - cbn [crashes]; split; [|contradiction]. unfold v_not_equal.
    pose proof (geqb_safe a b). destruct (geqb feq a b); cbn [rbind]; congruence.
  - destruct a, b; cbn [v_lt v_cmp crashes]; split; discriminate || contradiction.
  - destruct a, b; cbn [v_gt v_cmp crashes]; split; discriminate || contradiction.
  - destruct a, b; cbn [v_le v_cmp crashes]; split; discriminate || contradiction.
  - destruct a, b; cbn [v_ge v_cmp crashes]; split; discriminate || contradiction.
  - destruct a, b; cbn [v_and crashes]; split; discriminate || contradiction.
  - destruct a, b; cbn [v_or crashes]; split; discriminate || contradiction.
  - destruct a, b; cbn [v_join crashes]; try (split; discriminate || contradiction);
      unfold str_concat;
      try (destruct (N.ltb _ _); split; discriminate || contradiction).
    + unfold u8_avg.
      destruct (N.ltb_spec 255 (r + r0)), (N.ltb_spec 255 (g + g0)), (N.ltb_spec 255 (b0 + b)), (N.ltb_spec 255 (a + a0)), m;
        cbn [rbind]; (split; [try discriminate; intros _; split; auto; tauto
                             |intros [? Hc]; try reflexivity; try discriminate;
                              exfalso; repeat (destruct Hc as [Hc|Hc]); try (apply (N.lt_irrefl 255));
                              eapply N.lt_le_trans; eassumption]).
    + destruct (N.ltb _ _); [split; discriminate || contradiction|].
      destruct (vecc_extend_safe (arr_vecc data size max) data0) as [[v' ->]|[v' ->]];
        split; discriminate || contradiction.
  - destruct a, b; cbn [v_bitand v_int2 crashes]; split; discriminate || contradiction.
  - destruct a, b; cbn [v_bitor v_int2 crashes]; split; discriminate || contradiction.
  - destruct a, b; cbn [v_bitxor v_int2 crashes]; split; discriminate || contradiction.
  - destruct a, b; cbn [v_shl v_int2 crashes]; try (split; discriminate || contradiction).
    unfold shift_amount.
    destruct (Z.leb_spec 0 z0), (Z.ltb_spec z0 64), m; cbn [andb rbind];
      (split; [first [discriminate | intros _; split; [auto | lia]] | intros [? ?]; auto; try discriminate; lia]).
  - destruct a, b; cbn [v_shr v_int2 crashes]; try (split; discriminate || contradiction).
    unfold shift_amount.
    destruct (Z.leb_spec 0 z0), (Z.ltb_spec z0 64), m; cbn [andb rbind];
      (split; [first [discriminate | intros _; split; [auto | lia]] | intros [? ?]; auto; try discriminate; lia]).
Qed.

Lemma unary_crashes m op f a :
  unary_fn m fi op = Some f ->
  (f a = Panic <-> op = ONeg /\ m = Debug /\ exists z, a = VInt z /\ ~ fits64 (- z)).
Proof using.
  intros Hf; destruct op; cbn [unary_fn] in Hf; try discriminate; injection Hf as <-.
  - destruct a; cbn [v_not]; split; try discriminate; intros ([=] & _).
  - destruct a; cbn [v_negate]; try (split; [discriminate | intros (_ & _ & ? & [=] & _)]).
    rewrite (ov64_panic m (- z) VInt). split.
    + intros [? ?]; repeat split; eauto.
    + intros (_ & ? & z' & [= <-] & ?); auto.
  - destruct a; cbn [v_bitnot]; split; try discriminate; intros ([=] & _).
Qed.
End Crash.

(** ** Comparisons *)
Lemma pos_ccc_swap m m' : Pcompare m m' Eq = CompOpp (Pcompare m' m Eq).
Proof. change (Pos.compare m m' = CompOpp (Pos.compare m' m)). apply Pos.compare_antisym. Qed.

Lemma sfcompare_swap a b : SFcompare a b = option_map CompOpp (SFcompare b a).
Proof.
  destruct a as [s|s| |s m e], b as [s'|s'| |s' m' e']; cbn; try destruct s; try destruct s'; try reflexivity;
    rewrite (Z.compare_antisym e' e); destruct (e' ?= e); cbn [CompOpp option_map]; try reflexivity;
    rewrite (pos_ccc_swap m m'); destruct (Pcompare m' m Eq); reflexivity.
Qed.

Lemma feqb_sym a b : feqb a b = feqb b a.
Proof. unfold feqb, SFeqb; rewrite sfcompare_swap; destruct (SFcompare b a) as [[]|]; reflexivity. Qed.

(** Equal floats are the same float or two zeros. *)
Definition is_fzero (f : f64) : bool := match f with S754_zero _ => true | _ => false end.

Lemma feqb_spec a b :
  feqb a b = true <-> (is_fzero a = true /\ is_fzero b = true) \/ (a = b /\ a <> S754_nan).
Proof.
  unfold feqb, SFeqb. destruct a as [s|s| |s m e], b as [s'|s'| |s' m' e']; cbn.
  all: try destruct s; try destruct s'; cbn [is_fzero]; try solve [intuition congruence].
  all: destruct (Z.compare_spec e e') as [->| |]; cbn [CompOpp]; try solve [intuition (congruence || lia)].
  all: change (Pcompare m m' Eq) with (Pos.compare m m').
  all: destruct (Pos.compare_spec m m') as [->| |]; cbn [CompOpp]; try solve [intuition congruence].
  all: try (split; [discriminate | intros [[? ?]|[[=] _]]; congruence || lia]).
Qed.

Lemma feqb_trans a b c : feqb a b = true -> feqb b c = true -> feqb a c = true.
Proof.
  rewrite !feqb_spec. intros [[H1 H2]|[-> H]] [[H3 H4]|[-> H']]; auto.
Qed.

Section Equality.
Context {Fn : Type} (feq : Fn -> Fn -> res bool).

Fixpoint leq_ (l l' : list (gvalue Fn)) : res bool :=
  match l, l' with
  | x :: t, x' :: t' => let! b := geqb feq x x' in if (b : bool) then leq_ t t' else Ok false
  | _, _ => Ok true
  end.

Lemma geqb_array l s m l' s' m' :
  geqb feq (VArray l s m) (VArray l' s' m') =
  if (length l =? length l')%nat then leq_ l l' else Ok false.
Proof using.
  reflexivity.
Qed.

Lemma geqb_sym (Hf : forall f g, feq f g = feq g f) :
  forall a b, geqb feq a b = geqb feq b a.
Proof using.
  induction a as [| | | | | | | |l s mx IH| |a1 a2 IH1 IH2|f] using gvalue_rect';
    intros b'; destruct b'; try reflexivity.
  - cbn [geqb]; f_equal. destruct b, b0; reflexivity.
  - cbn [geqb]; rewrite Z.eqb_sym; reflexivity.
  - cbn [geqb]; rewrite feqb_sym; reflexivity.
  - cbn [geqb]; rewrite (Z.eqb_sym a), (Z.eqb_sym b); reflexivity.
  - cbn [geqb]; rewrite (N.eqb_sym r), (N.eqb_sym g), (N.eqb_sym b), (N.eqb_sym a); reflexivity.
  - cbn [geqb]. f_equal. unfold seqb.
    destruct (list_eq_dec N.eq_dec s s0), (list_eq_dec N.eq_dec s0 s); congruence.
  - cbn [geqb]. rewrite (N.eqb_sym i). do 2 f_equal. unfold seqb.
    destruct (list_eq_dec N.eq_dec n name), (list_eq_dec N.eq_dec name n); congruence.
  - rewrite !geqb_array, Nat.eqb_sym. destruct (length data =? length l)%nat; [|reflexivity].
    revert data; induction IH as [|x t Hx _ IHt]; intros [|y u]; try reflexivity.
    cbn [leq_]. rewrite Hx. destruct (geqb feq y x) as [[]| |]; cbn [rbind]; auto.
  - cbn [geqb]; rewrite N.eqb_sym; reflexivity.
  - cbn [geqb]. rewrite IH1, IH2. reflexivity.
  - cbn [geqb]. auto.
Qed.

Lemma geqb_refl (Hf : forall f, feq f f = Ok true) :
  forall a, nan_free a -> geqb feq a a = Ok true.
Proof using.
  induction a as [| | | | | | | |l s mx IH| |a1 a2 IH1 IH2|f] using gvalue_rect'; intros Hn;
    cbn [geqb]; rewrite ?Bool.eqb_reflx, ?Z.eqb_refl, ?N.eqb_refl, ?seqb_refl; auto.
  - f_equal. apply feqb_spec. inversion Hn; subst; auto.
  - change (geqb feq (VArray l s mx) (VArray l s mx) = Ok true). rewrite geqb_array, Nat.eqb_refl.
    inversion Hn; subst. induction IH as [|x t Hx _ IHt]; [reflexivity|]. inversion H0; subst.
    cbn [leq_]. rewrite Hx by auto. cbn [rbind]. apply IHt; auto. constructor; auto.
  - inversion Hn; subst. rewrite IH1, IH2 by auto. reflexivity.
Qed.

Lemma geqb_trans (Hf : forall f g h, feq f g = Ok true -> feq g h = Ok true -> feq f h = Ok true) :
  forall a b c, geqb feq a b = Ok true -> geqb feq b c = Ok true -> geqb feq a c = Ok true.
Proof using.
  induction a as [| | | | | | | |l s mx IH| |a1 a2 IH1 IH2|f] using gvalue_rect'; intros b' c';
    destruct b'; cbn [geqb]; intros H1; try discriminate;
    destruct c'; intros H2; try discriminate; auto.
  - injection H1 as H1; injection H2 as H2. apply Bool.eqb_prop in H1, H2; subst. rewrite Bool.eqb_reflx; auto.
  - injection H1 as H1; injection H2 as H2. apply Z.eqb_eq in H1, H2; subst. rewrite Z.eqb_refl; auto.
  - injection H1 as H1; injection H2 as H2. rewrite (feqb_trans _ _ _ H1 H2); auto.
  - injection H1 as H1; injection H2 as H2. rewrite andb_true_iff, !Z.eqb_eq in H1, H2.
    destruct H1 as [-> ->], H2 as [-> ->]. rewrite !Z.eqb_refl; auto.
  - injection H1 as H1; injection H2 as H2. rewrite !andb_true_iff, !N.eqb_eq in H1, H2.
    destruct H1 as [[[-> ->] ->] ->], H2 as [[[-> ->] ->] ->]. rewrite !N.eqb_refl; auto.
  - injection H1 as H1; injection H2 as H2. apply seqb_eq in H1, H2; subst. rewrite seqb_refl; auto.
  - injection H1 as H1; injection H2 as H2. rewrite andb_true_iff, N.eqb_eq, seqb_eq in H1, H2.
    destruct H1 as [-> ->], H2 as [-> ->]. rewrite seqb_refl, N.eqb_refl; auto.
  - change (geqb feq (VArray l s mx) (VArray data size max) = Ok true) in H1.
    change (geqb feq (VArray data size max) (VArray data0 size0 max0) = Ok true) in H2.
    change (geqb feq (VArray l s mx) (VArray data0 size0 max0) = Ok true).
    rewrite !geqb_array in *.
    destruct (Nat.eqb_spec (length l) (length data)); [|discriminate].
    destruct (Nat.eqb_spec (length data) (length data0)); [|discriminate].
    destruct (Nat.eqb_spec (length l) (length data0)); [|congruence]. clear e1.
    revert data data0 e e0 H1 H2; induction IH as [|x t Hx _ IHt];
      intros [|y u] [|z w] e e0 H1 H2; try reflexivity; try discriminate.
    cbn [leq_] in *. destruct (geqb feq x y) as [[]| |] eqn:E1; try discriminate.
    destruct (geqb feq y z) as [[]| |] eqn:E2; try discriminate. cbn [rbind] in *.
    rewrite (Hx _ _ E1 E2); cbn [rbind]. injection e as e; injection e0 as e0.
    apply (IHt u w); auto.
  - injection H1 as H1; injection H2 as H2. apply N.eqb_eq in H1, H2; subst. rewrite N.eqb_refl; auto.
  - destruct (geqb feq a1 b'1) as [[]| |] eqn:E1; try discriminate.
    destruct (geqb feq b'1 c'1) as [[]| |] eqn:E2; try discriminate. cbn [rbind] in *.
    rewrite (IH1 _ _ E1 E2); cbn [rbind]. eapply IH2; eauto.
  - eapply Hf; eauto.
Qed.
End Equality.
