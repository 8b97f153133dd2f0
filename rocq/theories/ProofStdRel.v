(** The builtins of the standard library treat callables as opaque: values that agree up to
    a relation between callables are taken to values that agree up to it (proof device). *)
From Verif Require Import Base Vecc Float NumText Value Ast Arith Args Builtins SpecRel ProofRel.

Section Rel.
Context {A B : Type} (R : A -> B -> Prop).
Context (m : mode) (o : oracle) (fa : fn_info A) (fb : fn_info B)
        (ea : A -> A -> res bool) (eb : B -> B -> res bool) (amax : N).
Hypothesis HF : forall x y, R x y -> fi_type fa x = fi_type fb y.
Hypothesis HT : forall x y, R x y -> fi_text fa x = fi_text fb y.
Hypothesis HE : forall x y x' y', R x y -> R x' y' -> rr eq (ea x x') (eb y y').
Notation grel := (grel R).

Lemma grel_display v : forall w, grel v w -> display o fa v = display o fb w.
Proof using HT.
  induction v using gvalue_rect'; intros w H1; inversion H1; subst; cbn [display]; auto.
  - f_equal. f_equal. set (sep := str ", "). clearbody sep. generalize true as first. rename H5 into HA. clear H1.
    revert l' HA. induction H as [|x t Hx Ht IH]; intros l2 HA first; inversion HA; subst; [reflexivity|].
    f_equal. f_equal; [auto|apply IH; auto].
  - erewrite IHv1, IHv2; eauto.
Qed.

Definition prel (k : pkind) : @pty A k -> @pty B k -> Prop :=
  match k with
  | PAny => grel
  | PList | PRest => Forall2 grel
  | PPair => fun x y => grel (fst x) (fst y) /\ grel (snd x) (snd y)
  | PInt | PInt32 | PU8 | PBool | PFloat | PDouble | PNum | PStr | PColor | PSpecial _ => eq
  end.
Fixpoint srel (ps : list param) : @sig A ps -> @sig B ps -> Prop :=
  match ps with
  | [] => rr grel
  | Req k :: t => fun f g => forall x y, prel k x y -> srel t (f x) (g y)
  | Opt k :: t => fun f g => forall x y, orel (prel k) x y -> srel t (f x) (g y)
  end.

Lemma convert_rel k v w : grel v w -> rr (prel k) (convert fa k v) (convert fb k w).
Proof using HF.
  intros H. pose proof (grel_ntype R fa fb HF v w H) as T.
  destruct k; destruct H; cbn in *; auto; try (now rewrite T); try (now rewrite HF with (1 := H));
    try (repeat (constructor; auto); fail).
  all: try (destruct (seqb _ _); cbn; auto).
Qed.
Lemma take_rel k args args' : Forall2 grel args args' ->
  rr (fun x y => prel k (fst x) (fst y) /\ Forall2 grel (snd x) (snd y)) (take fa k args) (take fb k args').
Proof using HF.
  intros H. assert (G : rr (fun x y => prel k (fst x) (fst y) /\ Forall2 grel (snd x) (snd y))
     (let! p := consume (kind_name k) args in let! x := convert fa k (fst p) in Ok (x, snd p))
     (let! p := consume (kind_name k) args' in let! x := convert fb k (fst p) in Ok (x, snd p))).
  { destruct H as [|v w l l' Hv Hl]; [cbn; auto|]. cbn [consume rbind fst snd].
    eapply rr_bind; [apply convert_rel; exact Hv|]. intros a b Hab. cbn. auto. }
  destruct k; try exact G. cbn. auto.
Qed.
Lemma call_rel ps : forall f g args args', srel ps f g -> Forall2 grel args args' ->
  rr grel (call fa ps f args) (call fb ps g args').
Proof using HF.
  induction ps as [|[k|k] ps IH]; intros f g args args' Hf H; cbn [call].
  - destruct H as [|v w l l' Hv Hl]; cbn; [exact Hf|now rewrite (grel_ntype R fa fb HF v w Hv)].
  - eapply rr_bind; [apply take_rel; exact H|]. intros a b [H1 H2]. apply IH; [apply Hf; exact H1|exact H2].
  - unfold take_opt. destruct H as [|v w l l' Hv Hl].
    + apply IH; [|constructor]. apply Hf. exact Logic.I.
    + eapply rr_bind; [eapply rr_bind; [apply take_rel; constructor; eauto|]|].
      * intros a b Hab.
        instantiate (1 := fun x y => orel (prel k) (fst x) (fst y) /\ Forall2 grel (snd x) (snd y)). exact Hab.
      * intros a b [H1 H2]. apply IH; [apply Hf; exact H1|exact H2].
Qed.

(** ** The bodies *)
Lemma f2_upd l l' i v w : Forall2 grel l l' -> grel v w -> Forall2 grel (upd i v l) (upd i w l').
Proof using. intros H Hv. revert i. induction H; intros [|i]; cbn; constructor; auto. Qed.
Lemma sum_rel l l' : Forall2 grel l l' -> sum_sizes get_size l = sum_sizes get_size l'.
Proof using. unfold sum_sizes. induction 1; cbn; auto. rewrite (grel_size R x y H). f_equal; auto. Qed.
Lemma mk_rel l l' : Forall2 grel l l' -> rr grel (make_value_array l amax) (make_value_array l' amax).
Proof using.
  intros H. unfold make_value_array, vecc_try_new_from. cbv zeta. rewrite (sum_rel _ _ H).
  destruct (_ <? _)%N; cbn; auto. now constructor.
Qed.
Lemma force_rel l l' : Forall2 grel l l' -> grel (force_array l) (force_array l').
Proof using. intros H. unfold force_array, vecc_force_new, of_vecc. cbn. rewrite (sum_rel _ _ H). now constructor. Qed.
Lemma f2_firstn l l' n : Forall2 grel l l' -> Forall2 grel (firstn n l) (firstn n l').
Proof using. intros H. revert n. induction H; intros [|n]; cbn; constructor; auto. Qed.
Lemma f2_skipn l l' n : Forall2 grel l l' -> Forall2 grel (skipn n l) (skipn n l').
Proof using. intros H. revert n. induction H; intros [|n]; cbn; auto. Qed.
Lemma f2_strings (l : list rstring) : Forall2 grel (map VString l) (map VString l).
Proof using. induction l; cbn; constructor; auto. constructor. Qed.
Lemma f2_chars (l : rstring) : Forall2 grel (map (fun c => VString [c]) l) (map (fun c => VString [c]) l).
Proof using. induction l; cbn; constructor; auto. constructor. Qed.
Lemma display_list l l' : Forall2 grel l l' -> map (display o fa) l = map (display o fb) l'.
Proof using HT. induction 1; cbn; auto. f_equal; auto. now apply grel_display. Qed.

Ltac args := cbn [srel prel]; intros;
  repeat match goal with H : orel _ _ _ |- _ => cbn [orel prel] in H end;
  repeat match goal with
  | H : orel _ ?x ?y |- _ => destruct x, y; cbn in H; try contradiction
  | H : ?x = ?y |- _ => subst y
  end;
  repeat match goal with x : pty PColor |- _ => destruct x as [[[? ?] ?] ?] end.
Ltac fin := lazymatch goal with
  | |- rr _ Panic _ => exact Logic.I
  | |- rr _ (rbind _ _) _ => apply rr_same_z
  | |- rr _ (Ok _) (Ok _) => apply rr_ok; solve [constructor; auto]
  | |- rr _ _ _ => unfold err_msg; cbn [rr]; first [ reflexivity
     | match goal with H : R ?f ?g |- _ => cbn [ntype]; rewrite (HF _ _ H); reflexivity end ]
  end.
Ltac branch := match goal with |- context [match ?b with _ => _ end] =>
    lazymatch type of b with bool => idtac | pty PBool => idtac | option _ => idtac | list _ => idtac | res _ => idtac end;
    destruct b eqn:? end.
Ltac easy_ := args;
  repeat match goal with H : grel ?x ?y |- _ => rewrite ?(grel_ntype R fa fb HF x y H); revert H end; intros;
  repeat match goal with H : grel ?x _ |- context [match ?x with _ => _ end] => destruct H end;
  cbv zeta; cbn [rbind]; repeat (first [fin | branch; cbn [rbind]]).

Lemma r_get : srel _ (b_get (Fn := A) m) (b_get m).
Proof using.
  args. unfold b_get. rewrite (f2_length _ _ _ H). destruct (fix_index m x0 (length y)) as [i| |]; cbn; auto.
  pose proof (f2_nth _ _ _ i H). destruct (nth_error x i), (nth_error y i); cbn; auto; contradiction.
Qed.
Lemma r_set : srel _ (b_set (Fn := A) m amax) (b_set m amax).
Proof using.
  args. unfold b_set. rewrite (f2_length _ _ _ H). destruct (fix_index m x0 (length y)) as [i| |]; cbn; auto.
  pose proof (f2_nth _ _ _ i H). destruct (nth_error x i), (nth_error y i); cbn; auto; try contradiction.
  apply mk_rel. apply f2_upd; auto.
Qed.
Lemma r_slice : srel _ (b_slice (Fn := A) m) (b_slice m).
Proof using.
  args. unfold b_slice. cbv zeta. rewrite (f2_length _ _ _ H).
  destruct (slice_bound m _ x0 x0) as [s| |]; cbn [rbind]; try fin.
  destruct (slice_bound m _ x1 s) as [e| |]; cbn [rbind]; try fin.
  destruct (e <? s)%Z; [fin|]. destruct (_ || _); [fin|]. cbn. apply force_rel, f2_firstn, f2_skipn; auto.
Qed.
Lemma r_str : srel _ (b_str o fa) (b_str o fb).
Proof using HT. args. unfold b_str. rewrite (grel_display _ _ H). fin. Qed.
Lemma r_split : srel _ (b_split (Fn := A) amax) (b_split amax).
Proof using. args; unfold b_split; apply mk_rel, f2_strings. Qed.
Lemma r_join : srel _ (b_join o fa) (b_join o fb).
Proof using HT. args; unfold b_join; rewrite (display_list _ _ H); fin. Qed.
Lemma r_chars : srel _ (b_chars (Fn := A)) b_chars.
Proof using. args. unfold b_chars. cbn. apply force_rel, f2_chars. Qed.
Lemma r_rainbow : srel _ (b_rainbow_colors (Fn := A) amax) (b_rainbow_colors amax).
Proof using. apply mk_rel. repeat constructor. Qed.
Lemma r_assert_eq : srel _ (b_assert_eq o fa ea) (b_assert_eq o fb eb).
Proof using HT HE.
  args. unfold b_assert_eq. eapply rr_bind; [eapply grel_eqb; eauto|]. intros a b ->. destruct b; [fin|].
  cbn. unfold eq_msg. now rewrite (grel_display _ _ H), (grel_display _ _ H0).
Qed.
Lemma r_assert_ne : srel _ (b_assert_ne o fa ea) (b_assert_ne o fb eb).
Proof using HT HE.
  args. unfold b_assert_ne. eapply rr_bind; [eapply grel_eqb; eauto|]. intros a b ->. destruct b; [|fin].
  cbn. unfold eq_msg. now rewrite (grel_display _ _ H), (grel_display _ _ H0).
Qed.
Lemma r_gettype : srel _ (b_gettype fa) (b_gettype fb).
Proof using HF. args. unfold b_gettype. rewrite (grel_ntype R fa fb HF x y H). fin. Qed.
Lemma r_len : srel _ (b_len fa) (b_len fb).
Proof using HF.
  args. unfold b_len. rewrite (grel_ntype R fa fb HF x y H).
  destruct H as [| | | | | | | |l l' s mx H| | |]; try fin. rewrite (f2_length _ _ _ H). fin.
Qed.
Lemma r_hue (c x mm h a : f64) : grel (hue_channels c x mm h a) (hue_channels c x mm h a).
Proof using.
  unfold hue_channels. repeat match goal with |- context [if ?b then _ else _] => destruct b end; constructor.
Qed.

Definition brel (x : @bfun A) (y : @bfun B) : Prop :=
  fst x = fst y /\ forall args args', Forall2 grel args args' -> rr grel (snd x args) (snd y args').
Lemma reg_rel name ps f g : srel ps f g -> brel (reg fa name ps f) (reg fb name ps g).
Proof using HF. intros H. split; [reflexivity|]. intros. now apply call_rel. Qed.
Ltac hd x := lazymatch x with ?f _ => hd f | _ => x end.
Ltac one := apply reg_rel;
  lazymatch goal with |- srel _ ?x _ =>
    let h := hd x in
    lazymatch h with
    | @b_get => exact r_get | @b_set => exact r_set | @b_slice => exact r_slice | @b_str => exact r_str
    | @b_split => exact r_split | @b_join => exact r_join | @b_chars => exact r_chars
    | @b_rainbow_colors => exact r_rainbow | @b_assert_eq => exact r_assert_eq
    | @b_assert_ne => exact r_assert_ne | @b_gettype => exact r_gettype | @b_len => exact r_len
    | @b_hsla => args; apply r_hue | @b_hsl => args; apply r_hue
    | @b_hsva => args; apply r_hue | @b_hsv => args; apply r_hue
    | _ => unfold h; easy_
    end end.
Lemma core_rel : Forall2 brel (core_list m o fa amax) (core_list m o fb amax).
Proof using HF HT.
  unfold core_list. repeat (apply Forall2_cons; [|]); [..|apply Forall2_nil].
  all: one.
Qed.
Lemma math_rel : Forall2 brel (math_list m o fa) (math_list m o fb).
Proof using HF HT.
  unfold math_list. repeat (apply Forall2_cons; [|]); [..|apply Forall2_nil]; one.
Qed.
Lemma colors_rel : Forall2 brel (colors_list fa amax) (colors_list fb amax).
Proof using HF HT.
  unfold colors_list. repeat (apply Forall2_cons; [|]); [..|apply Forall2_nil]; one.
Qed.
Lemma strings_rel : Forall2 brel (strings_list o fa amax) (strings_list o fb amax).
Proof using HF HT.
  unfold strings_list. repeat (apply Forall2_cons; [|]); [..|apply Forall2_nil]; one.
Qed.
Lemma testing_rel : Forall2 brel (testing_list o fa ea) (testing_list o fb eb).
Proof using HF HT HE.
  unfold testing_list. repeat (apply Forall2_cons; [|]); [..|apply Forall2_nil]; one.
Qed.
Lemma std_list_rel : Forall2 brel (std_list m o fa ea amax) (std_list m o fb eb amax).
Proof using HF HT HE.
  unfold std_list. repeat apply Forall2_app;
    auto using core_rel, math_rel, colors_rel, strings_rel, testing_rel.
Qed.
Lemma std_rel name args args' : Forall2 grel args args' ->
  rr grel (std_call m o fa ea amax name args) (std_call m o fb eb amax name args').
Proof using HF HT HE.
  intros H. unfold std_call. induction std_list_rel as [|[n f] [n' g] l l' [Hn Hf] Hl IH]; [reflexivity|].
  cbn [fst snd] in *. subst n'. cbn [alookup]. destruct (seqb name n); auto.
Qed.
End Rel.
