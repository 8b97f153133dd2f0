(** The text of a value is the one of SpecText.v. *)
From Verif Require Import Base RleVec Float NumText Value Ast Arith Builtins SpecArith SpecBuiltins SpecText ProofArith4.
Ltac Zify.zify_post_hook ::= Z.div_mod_to_equations.

Lemma value_bound r ds : (2 <= r)%Z -> Forall (fun d => 0 <= d < r)%Z ds ->
  (0 <= digits_value r ds < r ^ Z.of_nat (length ds))%Z.
Proof.
  intros Hr. induction 1 as [|d t Hd Ht IH]; [cbn; lia|]. cbn [digits_value length].
  rewrite Nat2Z.inj_succ, Z.pow_succ_r by lia. nia.
Qed.
Lemma value_same_length r a : forall b, (2 <= r)%Z -> Forall (fun d => 0 <= d < r)%Z a -> Forall (fun d => 0 <= d < r)%Z b ->
  length a = length b -> digits_value r a = digits_value r b -> a = b.
Proof.
  induction a as [|x a IH]; intros [|y b] Hr Ha Hb Hl Hv; try discriminate; [reflexivity|].
  injection Hl as Hl. inversion Ha; inversion Hb; subst. cbn [digits_value] in Hv. rewrite Hl in Hv.
  pose proof (value_bound r a Hr H2). pose proof (value_bound r b Hr H6). rewrite Hl in H.
  assert (x = y) as -> by nia. f_equal. apply IH; auto. lia.
Qed.
Lemma value_low r d t : (2 <= r)%Z -> Forall (fun d => 0 <= d < r)%Z (d :: t) -> d <> 0%Z ->
  (r ^ Z.of_nat (length t) <= digits_value r (d :: t))%Z.
Proof.
  intros Hr H Hd. inversion H; subst. pose proof (value_bound r t Hr H3). cbn [digits_value].
  pose proof (Z.pow_pos_nonneg r (Z.of_nat (length t))). nia.
Qed.
Lemma digits_length_le r a b n : (2 <= r)%Z -> digits_of r a n -> digits_of r b n -> length a <= length b.
Proof.
  intros Hr (Ha & Va & La) (Hb & Vb & Lb).
  destruct a as [|x [|x' a]]; cbn [length]; try lia; [destruct b; [contradiction|cbn; lia]|].
  pose proof (value_low r x (x' :: a) Hr Ha La) as L. pose proof (value_bound r b Hr Hb) as U.
  destruct (Nat.le_gt_cases (S (S (length a))) (length b)) as [|G]; [assumption|exfalso].
  assert (r ^ Z.of_nat (length b) <= r ^ Z.of_nat (length (x' :: a)))%Z by (apply Z.pow_le_mono_r; cbn [length]; lia).
  lia.
Qed.
Lemma digits_unique r a b n : (2 <= r)%Z -> digits_of r a n -> digits_of r b n -> a = b.
Proof.
  intros Hr Ha Hb. apply value_same_length with r; auto; try apply Ha; try apply Hb.
  - pose proof (digits_length_le r a b n Hr Ha Hb). pose proof (digits_length_le r b a n Hr Hb Ha). lia.
  - destruct Ha as (_ & -> & _), Hb as (_ & -> & _). reflexivity.
Qed.
Lemma decimal_unique n t u : decimal n t -> decimal n u -> t = u.
Proof. intros (a & Ha & ->) (b & Hb & ->). now rewrite (digits_unique 10 a b n). Qed.
Lemma decimal_radix n : decimal (Z.of_N n) (radix_text 10 n).
Proof. destruct (radix_text_digits 10 n ltac:(lia)) as (ds & E & H). exists ds. auto. Qed.
Lemma integer_shown z : integer_text z (int_text z).
Proof.
  unfold integer_text, int_text. destruct (Z.ltb_spec z 0).
  - exists (radix_text 10 (Z.to_N (- z))). split; [|reflexivity].
    pose proof (decimal_radix (Z.to_N (- z))) as D. now rewrite Z2N.id in D by lia.
  - pose proof (decimal_radix (Z.to_N z)) as D. now rewrite Z2N.id in D by lia.
Qed.
Lemma integer_unique z t u : integer_text z t -> integer_text z u -> t = u.
Proof.
  unfold integer_text. destruct (_ <? _)%Z; [|apply decimal_unique].
  intros (t' & Ht & ->) (u' & Hu & ->). f_equal. eapply decimal_unique; eauto.
Qed.
Lemma digit_same d : (d < 16)%N -> digit_char d = digit_text (Z.of_N d).
Proof.
  intros H. assert (In d (map N.of_nat (seq 0 16))) as HI.
  { apply in_map_iff. exists (N.to_nat d). split; [lia|]. apply in_seq. lia. }
  cbn in HI. repeat (destruct HI as [<-|HI]; [reflexivity|]). destruct HI.
Qed.
Lemma byte_shown n : (n < 256)%N -> byte_text n (hex2 n).
Proof.
  intros H. exists (Z.of_N (n / 16)), (Z.of_N (n mod 16)). unfold hex2.
  rewrite !digit_same by lia. repeat split; lia.
Qed.
Lemma byte_unique n t u : byte_text n t -> byte_text n u -> t = u.
Proof. intros (h & l & H1 & H2 & H3 & ->) (h' & l' & H1' & H2' & H3' & ->). assert (h = h') as -> by lia. now assert (l = l') as -> by lia. Qed.

Definition commas {Fn} (o : oracle) (fi : fn_info Fn) : bool -> list (gvalue Fn) -> rstring :=
  fix go (first : bool) (l : list (gvalue Fn)) : rstring :=
    match l with
    | [] => []
    | x :: t => (if first then [] else str ", ") ++ display o fi x ++ go false t
    end.
Lemma commas_joined {Fn} (o : oracle) (fi : fn_info Fn) l : joined (str ", ") (map (display o fi) l) (commas o fi true l).
Proof.
  assert (K : forall x l, joined (str ", ") (map (display o fi) (x :: l)) (display o fi x ++ commas o fi false l)).
  { intros x t. revert x. induction t as [|y t IH]; intros x.
    - cbn [map commas]. rewrite app_nil_r. constructor.
    - change (commas o fi false (y :: t)) with (str ", " ++ display o fi y ++ commas o fi false t).
      change (map (display o fi) (x :: y :: t)) with (display o fi x :: map (display o fi) (y :: t)).
      constructor; [discriminate|apply IH]. }
  destruct l as [|x l]; [constructor|]. exact (K x l).
Qed.
Lemma joined_unique sep l : forall t u, joined sep l t -> joined sep l u -> t = u.
Proof.
  induction l as [|x l IH]; intros t u H1 H2; inversion H1; inversion H2; subst; try congruence; auto; try contradiction.
  f_equal. f_equal. auto.
Qed.

Section Shown.
Context (o : oracle).
Lemma written_display (v : value) : value_wf v -> written (o_f64_text o) v (display o mfi v).
Proof.
  induction v using gvalue_rect'; intros W; cbn [display].
  - constructor.
  - destruct b; constructor.
  - constructor. apply integer_shown.
  - constructor.
  - constructor; apply integer_shown.
  - inversion W; subst. constructor; apply byte_shown; assumption.
  - constructor.
  - constructor. apply decimal_radix.
  - inversion W; subst. apply wr_array with (ts := map (display o mfi) l); [|apply commas_joined].
    match goal with Hw : Forall value_wf l |- _ => revert H Hw end. clear. induction l as [|x l IH]; intros H Hw; constructor; inversion H; inversion Hw; subst; auto.
  - constructor. apply decimal_radix.
  - inversion W; subst. constructor; auto.
  - destruct f; constructor.
Qed.
Ltac uni P L := match goal with A : P ?x, B : P ?y |- _ => rewrite (L _ _ _ A B); clear A end.
Lemma written_unique (v : value) : forall t u, written (o_f64_text o) v t -> written (o_f64_text o) v u -> t = u.
Proof.
  induction v using gvalue_rect'; intros t u H1 H2; inversion H1; inversion H2; subst; try congruence.
  - eapply integer_unique; eauto.
  - uni (integer_text a) integer_unique. uni (integer_text b) integer_unique. reflexivity.
  - uni (byte_text r) byte_unique. uni (byte_text g) byte_unique. uni (byte_text b) byte_unique.
    uni (byte_text a) byte_unique. reflexivity.
  - uni (decimal (Z.of_N i)) decimal_unique. reflexivity.
  - match goal with A : Forall2 _ l ?x, B : Forall2 _ l ?y |- _ => assert (x = y) as -> end.
    { match goal with A : Forall2 _ l ?x, B : Forall2 _ l ?y |- _ => revert A B; generalize x; generalize y end. clear - H.
      induction H as [|x l Hx Hl IH]; intros ts ts0 A B; inversion A; inversion B; subst; auto. f_equal; auto. }
    match goal with A : joined _ ?l ?x, B : joined _ ?l ?y |- _ => rewrite (joined_unique _ _ _ _ A B) end. reflexivity.
  - uni (decimal (Z.of_N i)) decimal_unique. reflexivity.
  - match goal with A : written _ v1 ?x, B : written _ v1 ?y |- _ => rewrite (IHv1 _ _ A B) end.
    match goal with A : written _ v2 ?x, B : written _ v2 ?y |- _ => rewrite (IHv2 _ _ A B) end. reflexivity.
Qed.
Lemma str_shown m feq amax (v : value) t : value_wf v ->
  (std_call m o mfi feq amax (str "str") [v] = Ok (VString t) <-> written (o_f64_text o) v t).
Proof.
  intros W. change (std_call m o mfi feq amax (str "str") [v]) with (Ok (A := value) (VString (display o mfi v))).
  pose proof (written_display v W) as S. split; [now intros [= <-]|]. intros H. f_equal. f_equal. eapply written_unique; eauto.
Qed.
End Shown.
