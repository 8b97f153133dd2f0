(** The operations on values treat callables as opaque: values that agree up to a relation
    between callables are taken to values that agree up to it (proof device). *)
From Verif Require Import Base Vecc Float NumText Value Ast Arith VmOps SpecRel.

Lemma f2_length {A B} (P : A -> B -> Prop) l l' : Forall2 P l l' -> length l = length l'.
Proof. induction 1; cbn; auto. Qed.
Lemma f2_nth {A B} (P : A -> B -> Prop) l l' i : Forall2 P l l' ->
  match nth_error l i, nth_error l' i with
  | Some x, Some y => P x y
  | None, None => True
  | _, _ => False
  end.
Proof. intros H. revert i. induction H; intros [|i]; cbn; auto. apply IHForall2. Qed.

Section Rel.
Context {A B : Type} (R : A -> B -> Prop).

Notation grel := (grel R).

Lemma rr_bind {X Y X' Y'} (P : X -> Y -> Prop) (Q : X' -> Y' -> Prop) x y f g :
  rr P x y -> (forall a b, P a b -> rr Q (f a) (g b)) -> rr Q (rbind x f) (rbind y g).
Proof. destruct x, y; cbn; auto; try contradiction. Qed.
Lemma rr_refl {X} (x : res X) : rr eq x x.
Proof. destruct x; cbn; auto. Qed.

Context (m : mode) (o : oracle) (fa : fn_info A) (fb : fn_info B)
        (ea : A -> A -> res bool) (eb : B -> B -> res bool) (smax amax : N).
Hypothesis HF : forall x y, R x y -> fi_type fa x = fi_type fb y.
Hypothesis HE : forall x y x' y', R x y -> R x' y' -> rr eq (ea x x') (eb y y').

Lemma grel_ntype v w : grel v w -> ntype fa v = ntype fb w.
Proof using HF. destruct 1; cbn; auto. Qed.
Lemma grel_size v w : grel v w -> get_size v = get_size w.
Proof using. induction 1; cbn; auto. congruence. Qed.

Lemma grel_eqb v : forall w v' w', grel v w -> grel v' w' -> rr eq (geqb ea v v') (geqb eb w w').
Proof using HE.
  induction v using gvalue_rect'; intros w v' w' H1 H2; inversion H1; subst; inversion H2; subst;
    cbn [geqb rr]; auto.
  - rename l into l1.
    match goal with H : Forall2 grel l1 ?x |- _ => rename x into l2; rename H into HA end.
    match goal with H : Forall2 grel ?x ?y |- context [length l1 =? length ?x] => rename x into l3, y into l4; rename H into HB end.
    rewrite <- (f2_length _ _ _ HA), <- (f2_length _ _ _ HB). destruct (length l1 =? length l3); [|cbn; auto].
    clear H1 H2. revert l2 l3 l4 HA HB. induction H as [|x t Hx Ht IH]; intros l2 l3 l4 HA HB.
    + inversion HA; subst. destruct l3, l4; cbn; auto; inversion HB.
    + inversion HA; subst. inversion HB; subst; [cbn; auto|].
      eapply rr_bind; [eapply Hx; eauto|]. intros a b ->. destruct b; [|cbn; auto]. apply IH; auto.
  - eapply rr_bind; [eapply IHv1; eauto|]. intros x y ->. destruct y; [|cbn; auto]. eapply IHv2; eauto.
Qed.

Lemma rr_ok v w : grel v w -> rr grel (Ok v) (Ok w).
Proof. auto. Qed.
Lemma rr_same_z (x : res Z) : rr grel (let! z := x in Ok (VInt z)) (let! z := x in Ok (VInt z)).
Proof. destruct x; cbn; auto. constructor. Qed.
Lemma unsup_rel op v w v' w' : grel v w -> grel v' w' -> rr grel (unsup2 fa op v v') (unsup2 fb op w w').
Proof using HF. intros. cbn. erewrite (grel_ntype v), (grel_ntype v'); eauto. Qed.
Lemma concat_rel l r : rr grel (str_concat smax l r) (str_concat smax l r).
Proof. unfold str_concat. destruct (smax <? _)%N; cbn; auto. constructor. Qed.

Lemma u8rel (f : N -> N -> res N) r g b a r' g' b' a' :
  rr grel (let! x := f r r' in let! y := f g g' in let! z := f b b' in let! w := f a a' in Ok (VColor x y z w))
          (let! x := f r r' in let! y := f g g' in let! z := f b b' in let! w := f a a' in Ok (VColor x y z w)).
Proof.
  destruct (f r r'); cbn; auto. destruct (f g g'); cbn; auto. destruct (f b b'); cbn; auto.
  destruct (f a a'); cbn; auto. constructor.
Qed.

Definition vrel (x : vecc (gvalue A)) (y : vecc (gvalue B)) : Prop :=
  Forall2 grel (vc_data x) (vc_data y) /\ vc_size x = vc_size y /\ vc_max x = vc_max y.
Lemma push_rel x y v w : vrel x y -> grel v w ->
  vrel (fst (vecc_push get_size x v)) (fst (vecc_push get_size y w)) /\
  snd (vecc_push get_size x v) = snd (vecc_push get_size y w).
Proof.
  intros (H1 & H2 & H3) H. unfold vecc_push. rewrite H2, H3, (grel_size _ _ H).
  destruct (_ <? _)%N; cbn; [split; [split; auto|auto]|]. split; [split; [|auto]|auto].
  cbn. apply Forall2_app; auto.
Qed.

Lemma extend_rel l l' : Forall2 grel l l' -> forall x y, vrel x y ->
  vrel (fst (vecc_extend get_size x l)) (fst (vecc_extend get_size y l')) /\
  snd (vecc_extend get_size x l) = snd (vecc_extend get_size y l').
Proof using.
  induction 1 as [|v w l l' Hv Hl IH]; intros x y Hx; [split; auto|].
  cbn [vecc_extend]. destruct Hx as (H1 & H2 & H3). rewrite H2, H3, (grel_size _ _ Hv).
  destruct (_ <? _)%N; cbn; [split; [split; auto|auto]|].
  apply IH. split; [|auto]. cbn. apply Forall2_app; auto.
Qed.
Lemma push_all_rel l l' : Forall2 grel l l' -> forall x y, vrel x y ->
  rr vrel (push_all x l) (push_all y l').
Proof using.
  induction 1 as [|v w l l' Hv Hl IH]; intros x y Hx; [exact Hx|].
  cbn [push_all]. destruct (push_rel _ _ _ _ Hx Hv) as [E1 E2].
  destruct (vecc_push get_size x v) as [x' r], (vecc_push get_size y w) as [y' r']. cbn in *. subst r'.
  destruct r; cbn; auto.
Qed.

Lemma array_rel l l' : Forall2 grel l l' -> rr grel (v_array amax l) (v_array amax l').
Proof using.
  intros H. unfold v_array. eapply rr_bind; [apply push_all_rel; [exact H|]|].
  - split; [constructor|auto].
  - intros x y (H1 & H2 & H3). cbn. unfold of_vecc. rewrite H2, H3. constructor; auto.
Qed.

Definition orel {X Y} (P : X -> Y -> Prop) (x : option X) (y : option Y) : Prop :=
  match x, y with Some a, Some b => P a b | None, None => True | _, _ => False end.

Lemma rnth_rel l l' i : Forall2 grel l l' -> rr grel (rnth l i) (rnth l' i).
Proof using. intros H. pose proof (f2_nth _ _ _ i H). unfold rnth. destruct (nth_error l i), (nth_error l' i); cbn; auto; contradiction. Qed.

Lemma truthy_rel v w : grel v w -> rr eq (is_truthy fa v) (is_truthy fb w).
Proof using HF. intros H. destruct H; cbn; auto. erewrite HF; eauto. Qed.
Lemma index_rel i j v w : grel i j -> grel v w -> rr grel (v_index m fa i v) (v_index m fb j w).
Proof using HF.
  intros H1 H2. pose proof (grel_ntype _ _ H1) as E1. pose proof (grel_ntype _ _ H2) as E2.
  destruct H1; cbn [v_index]; cbn [ntype] in E1; cbn [ntype]; try (cbn; congruence).
  destruct H2; cbn [ntype] in E2; try (cbn; congruence).
  - eapply rr_bind; [apply rr_refl|]. intros i ? <-. eapply rr_bind; [apply rr_refl|]. intros c ? <-. cbn. constructor.
  - eapply rr_bind; [apply rr_refl|]. intros i ? <-. eapply rr_bind; [apply rr_refl|]. intros c ? <-. cbn. constructor.
  - rewrite (f2_length _ _ _ H). eapply rr_bind; [apply rr_refl|]. intros i ? <-. apply rnth_rel; auto.
  - eapply rr_bind; [apply rr_refl|]. intros i ? <-. apply rnth_rel; repeat constructor; auto.
Qed.
Lemma range_rel v w v' w' : grel v w -> grel v' w' -> rr grel (v_range fa v v') (v_range fb w w').
Proof using HF.
  intros H1 H2. pose proof (grel_ntype _ _ H1) as E1. pose proof (grel_ntype _ _ H2) as E2.
  destruct H1; cbn [v_range]; cbn [ntype] in *; try (cbn; congruence).
  destruct H2; cbn [ntype] in *; try (cbn; congruence). cbn. constructor.
Qed.
Lemma map_int_rel (l : list N) : Forall2 grel (map (fun c => VInt (Z.of_N c)) l) (map (fun c => VInt (Z.of_N c)) l).
Proof using. induction l; cbn; constructor; auto. constructor. Qed.
Lemma unpack_rel n v w : grel v w -> rr (Forall2 grel) (v_unpack fa n v) (v_unpack fb n w).
Proof using HF.
  intros H. pose proof (grel_ntype _ _ H) as E. destruct H; cbn [v_unpack]; cbn [ntype] in *; try (cbn; congruence).
  - destruct (n <? 1)%N; [reflexivity|]. destruct (4 <? n)%N; [exact I|]. apply map_int_rel.
  - rewrite (f2_length _ _ _ H). destruct (_ =? _)%N; [exact H|reflexivity].
  - destruct (_ =? _)%N; [repeat constructor; auto|reflexivity].
Qed.
Lemma iter_rel i v w : grel v w -> rr (orel grel) (v_iter m fa i v) (v_iter m fb i w).
Proof using HF.
  intros H. pose proof (grel_ntype _ _ H) as E. destruct H; cbn [v_iter]; cbn [ntype] in *; try (cbn; congruence).
  - eapply rr_bind; [apply rr_refl|]. intros k ? <-. destruct (_ <? _)%Z; cbn; auto. constructor.
  - cbn [rr]. destruct (nth_error (channels r g b a) (N.to_nat i)); cbn; auto. constructor.
  - cbn [rr]. destruct (nth_error s (N.to_nat i)); cbn; auto. constructor.
  - cbn [rr]. pose proof (f2_nth _ _ _ (N.to_nat i) H). unfold orel.
    destruct (nth_error l (N.to_nat i)), (nth_error l' (N.to_nat i)); auto.
Qed.

Lemma unary_rel op f : unary_fn m fa op = Some f -> exists g, unary_fn m fb op = Some g /\
  forall v w, grel v w -> rr grel (f v) (g w).
Proof using HF.
  intros H. destruct op; try discriminate; injection H as <-; (eexists; split; [reflexivity|]);
    intros v w Hv; pose proof (grel_ntype _ _ Hv) as E; destruct Hv; cbn -[str] in *;
    rewrite ?E; auto; try constructor.
  apply rr_same_z.
Qed.

Lemma cmp_rel op zc fc v w v' w' : grel v w -> grel v' w' ->
  rr grel (v_cmp fa op zc fc v v') (v_cmp fb op zc fc w w').
Proof using HF.
  intros H1 H2. pose proof (grel_ntype _ _ H1) as E1. pose proof (grel_ntype _ _ H2) as E2.
  destruct H1, H2; cbn [v_cmp unsup2 rr]; try constructor; rewrite ?E1, ?E2; auto.
Qed.
Lemma int2_rel op f v w v' w' : grel v w -> grel v' w' ->
  rr grel (v_int2 fa op f v v') (v_int2 fb op f w w').
Proof using HF.
  intros H1 H2. pose proof (grel_ntype _ _ H1) as E1. pose proof (grel_ntype _ _ H2) as E2.
  destruct H1, H2; cbn [v_int2 unsup2 rr]; rewrite ?E1, ?E2; auto. apply rr_same_z.
Qed.
Lemma add_rel v w v' w' : grel v w -> grel v' w' -> rr grel (v_add m fa smax v v') (v_add m fb smax w w').
Proof using HF.
  intros H1 H2. pose proof (grel_ntype _ _ H1) as E1. pose proof (grel_ntype _ _ H2) as E2.
  destruct H1, H2; cbn [v_add unsup2 rr]; rewrite ?E1, ?E2; auto; try constructor.
  - apply rr_same_z. - apply concat_rel.
Qed.
Lemma sub_rel v w v' w' : grel v w -> grel v' w' -> rr grel (v_subtract m fa v v') (v_subtract m fb w w').
Proof using HF.
  intros H1 H2. pose proof (grel_ntype _ _ H1) as E1. pose proof (grel_ntype _ _ H2) as E2.
  destruct H1, H2; cbn [v_subtract unsup2 rr]; rewrite ?E1, ?E2; auto; try constructor.
  apply rr_same_z.
Qed.
Lemma mul_rel v w v' w' : grel v w -> grel v' w' -> rr grel (v_multiply m fa smax v v') (v_multiply m fb smax w w').
Proof using HF.
  intros H1 H2. pose proof (grel_ntype _ _ H1) as E1. pose proof (grel_ntype _ _ H2) as E2.
  destruct H1, H2; cbn [v_multiply unsup2 rr]; rewrite ?E1, ?E2; auto; try constructor.
  - apply rr_same_z.
  - cbn [ntype]. destruct (_ <? 0)%Z; [reflexivity|]. destruct m.
    + destruct (_ <=? _)%N; [exact I|]. destruct (_ <? _)%N; [reflexivity|constructor].
    + destruct (_ <? _)%N; [reflexivity|]. destruct (_ <=? _)%N; [exact I|constructor].
Qed.
Lemma is_zero_rel v w : grel v w -> is_zero v = is_zero w.
Proof using. destruct 1; reflexivity. Qed.
Lemma div_rel v w v' w' : grel v w -> grel v' w' -> rr grel (v_divide fa v v') (v_divide fb w w').
Proof using HF.
  intros H1 H2. pose proof (grel_ntype _ _ H1) as E1. pose proof (grel_ntype _ _ H2) as E2.
  unfold v_divide. rewrite (is_zero_rel _ _ H2). destruct (is_zero w'); [reflexivity|].
  destruct H1, H2; cbn [unsup2 rr]; rewrite ?E1, ?E2; auto; try constructor.
  - unfold i64_div. destruct (_ && _)%bool; cbn; auto. constructor.
  - apply u8rel.
Qed.
Lemma mod_rel v w v' w' : grel v w -> grel v' w' -> rr grel (v_modulo fa v v') (v_modulo fb w w').
Proof using HF.
  intros H1 H2. pose proof (grel_ntype _ _ H1) as E1. pose proof (grel_ntype _ _ H2) as E2.
  unfold v_modulo. rewrite (is_zero_rel _ _ H2). destruct (is_zero w'); [reflexivity|].
  destruct H1, H2; cbn [unsup2 rr]; rewrite ?E1, ?E2; auto; try constructor.
  unfold i64_rem. destruct (_ && _)%bool; cbn; auto. constructor.
Qed.
Lemma pow_rel v w v' w' : grel v w -> grel v' w' -> rr grel (v_power m o fa v v') (v_power m o fb w w').
Proof using HF.
  intros H1 H2. pose proof (grel_ntype _ _ H1) as E1. pose proof (grel_ntype _ _ H2) as E2.
  destruct H1, H2; cbn [v_power unsup2 rr]; rewrite ?E1, ?E2; auto; try constructor.
  apply rr_same_z.
Qed.
Lemma join_rel v w v' w' : grel v w -> grel v' w' -> rr grel (v_join m o fa smax amax v v') (v_join m o fb smax amax w w').
Proof using HF.
  intros H1 H2. pose proof (grel_ntype _ _ H1) as E1. pose proof (grel_ntype _ _ H2) as E2.
  destruct H1, H2; cbn [v_join]; try apply concat_rel; try (cbn [unsup2 rr]; rewrite ?E1, ?E2; reflexivity).
  - apply u8rel.
  - destruct (_ <? _)%N; [reflexivity|].
    destruct (extend_rel l0 l'0 H0 (arr_vecc l s m0) (arr_vecc l' s m0)) as [(K1 & K2 & K3) K4]; [split; auto|].
    destruct (vecc_extend get_size (arr_vecc l s m0) l0) as [x r], (vecc_extend get_size (arr_vecc l' s m0) l'0) as [y r'].
    cbn in *. subst r'. destruct r; cbn; auto. unfold of_vecc. rewrite K2, K3. constructor; auto.
Qed.
Lemma andor_rel v w v' w' : grel v w -> grel v' w' ->
  rr grel (v_and fa v v') (v_and fb w w') /\ rr grel (v_or fa v v') (v_or fb w w').
Proof using HF.
  intros H1 H2. pose proof (grel_ntype _ _ H1) as E1. pose proof (grel_ntype _ _ H2) as E2.
  destruct H1, H2; cbn [v_and v_or unsup2 rr]; rewrite ?E1, ?E2; split; auto; constructor.
Qed.
Lemma equal_rel v w v' w' : grel v w -> grel v' w' ->
  rr grel (v_equal ea v v') (v_equal eb w w') /\ rr grel (v_not_equal ea v v') (v_not_equal eb w w').
Proof using HE.
  intros H1 H2. unfold v_equal, v_not_equal.
  split; (eapply rr_bind; [eapply grel_eqb; eauto|]); intros a b ->; constructor.
Qed.

Lemma binary_rel op f : binary_fn m o fa ea smax amax op = Some f ->
  exists g, binary_fn m o fb eb smax amax op = Some g /\
  forall v w v' w', grel v w -> grel v' w' -> rr grel (f v v') (g w w').
Proof using HF HE.
  intros H. destruct op; try discriminate; injection H as <-; (eexists; split; [reflexivity|]); intros v w v' w' H1 H2.
  - apply add_rel; auto. - apply sub_rel; auto. - apply mul_rel; auto. - apply div_rel; auto.
  - apply mod_rel; auto. - apply pow_rel; auto. - apply equal_rel; auto. - apply equal_rel; auto.
  - apply cmp_rel; auto. - apply cmp_rel; auto. - apply cmp_rel; auto. - apply cmp_rel; auto.
  - apply andor_rel; auto. - apply andor_rel; auto. - apply join_rel; auto.
  - apply int2_rel; auto. - apply int2_rel; auto. - apply int2_rel; auto. - apply int2_rel; auto. - apply int2_rel; auto.
Qed.
End Rel.
