(** Colour and number builtins, and totality of all builtins (C51, C54, C55, C59, C60). *)
From Verif Require Import Base Float NumText Vecc Value Ast Arith Args Builtins SpecArith ProofArith ProofArith2
  SpecBuiltins ProofBuiltins ProofBuiltins2.
Ltac Zify.zify_post_hook ::= Z.div_mod_to_equations.

(** All bytes. *)
Fixpoint bytes_from (n : nat) (start : N) : list N :=
  match n with O => [] | S k => start :: bytes_from k (start + 1) end.
Definition all_bytes : list N := bytes_from 256 0.
Lemma bytes_from_in n : forall start x, (start <= x < start + N.of_nat n)%N -> In x (bytes_from n start).
Proof.
  induction n; intros start x H; [lia|]. cbn [bytes_from In].
  destruct (N.eq_dec start x); [auto|right]. apply IHn. lia.
Qed.
Lemma byte_in x : (x < 256)%N -> In x all_bytes.
Proof. intros. apply bytes_from_in. lia. Qed.

Definition check2 (p : N -> N -> bool) : bool :=
  forallb (fun x => forallb (p x) all_bytes) all_bytes.
Lemma check2_ok p : check2 p = true -> forall x y, (x < 256)%N -> (y < 256)%N -> p x y = true.
Proof.
  unfold check2. rewrite forallb_forall. intros H x y Hx Hy.
  specialize (H _ (byte_in _ Hx)). rewrite forallb_forall in H. apply H, byte_in, Hy.
Qed.
Definition check1 (p : N -> bool) : bool := forallb p all_bytes.
Lemma check1_ok p : check1 p = true -> forall x, (x < 256)%N -> p x = true.
Proof. unfold check1. rewrite forallb_forall. intros H x Hx. apply H, byte_in, Hx. Qed.

Notation zp := (S754_zero false).
Notation zn := (S754_zero true).

Lemma times_zero s x : (x < 256)%N -> fmul (fN x) (S754_zero s) = S754_zero s.
Proof.
  intros Hx.
  set (p := fun x => match fmul (fN x) (S754_zero s) with S754_zero s' => Bool.eqb s s' | _ => false end).
  assert (E : p x = true).
  { refine (check1_ok p _ x Hx). unfold p. destruct s; vm_compute; reflexivity. }
  unfold p in E. destruct (fmul (fN x) (S754_zero s)); try discriminate.
  apply Bool.eqb_prop in E. now subst.
Qed.
Lemma mix_zero s x y : (x < 256)%N -> (y < 256)%N -> mix1 (S754_zero s) x y = x.
Proof.
  intros Hx Hy. unfold mix1. rewrite times_zero by exact Hy. apply N.eqb_eq.
  refine (check1_ok (fun x => (f_to_u8 (f_round (fadd (fmul (fN x) (fsub f1 (S754_zero s))) (S754_zero s))) =? x)%N) _ x Hx).
  destruct s; vm_compute; reflexivity.
Qed.
Lemma mix_one x y : (x < 256)%N -> (y < 256)%N -> mix1 f1 x y = y.
Proof.
  intros Hx Hy. unfold mix1. change (fsub f1 f1) with (S754_zero false). rewrite times_zero by exact Hx.
  apply N.eqb_eq.
  refine (check1_ok (fun y => (f_to_u8 (f_round (fadd (S754_zero false) (fmul (fN y) f1))) =? y)%N) _ y Hy).
  vm_compute; reflexivity.
Qed.
Lemma dim_zero s x : (x < 256)%N -> dim1 (S754_zero s) x = x.
Proof.
  intros Hx. apply N.eqb_eq. refine (check1_ok (fun x => (dim1 (S754_zero s) x =? x)%N) _ x Hx).
  destruct s; vm_compute; reflexivity.
Qed.
Lemma dim_one x : (x < 256)%N -> dim1 f1 x = 0%N.
Proof.
  intros Hx. apply N.eqb_eq. refine (check1_ok (fun x => (dim1 f1 x =? 0)%N) _ x Hx). vm_compute; reflexivity.
Qed.

Lemma unit_low t : fleb t fzero = true \/ t = S754_nan -> exists s, unit_clamp t = S754_zero s.
Proof.
  intros [H| ->]; [|exists false; reflexivity].
  destruct t as [s|[]| |[] p e]; try discriminate; try (eexists; reflexivity).
Qed.
Lemma unit_high t : fleb f1 t = true -> unit_clamp t = f1.
Proof.
  intros H. destruct t as [[]|[]| |[] p e]; try discriminate; [reflexivity|].
  unfold unit_clamp. change (fmax (S754_finite false p e) fzero) with (S754_finite false p e).
  unfold fmin. change (is_nan (S754_finite false p e)) with false. change (is_nan f1) with false. cbv iota.
  unfold fltb, SFltb. unfold fleb, SFleb in H.
  destruct (SFcompare f1 (S754_finite false p e)) as [[]|] eqn:E; try discriminate; try reflexivity.
  change f1 with (S754_finite false 4503599627370496 (-52)) in *. cbn [SFcompare] in E.
  destruct (Z.compare_spec (-52) e); try discriminate. subst e.
  injection E as E. apply Pos.compare_eq in E. subst. reflexivity.
Qed.

Section Colors.
Context {Fn : Type} (m : mode) (o : oracle) (fi : fn_info Fn) (feq : Fn -> Fn -> res bool) (amax : N).
Notation val := (gvalue Fn).
Notation std := (std_call m o fi feq amax).

Theorem rgba_spec r g b a :
  exists r' g' b' a', std (str "rgba") [VInt r; VInt g; VInt b; VInt a] = Ok (VColor r' g' b' a') /\
    Z.of_N r' = clamp255 r /\ Z.of_N g' = clamp255 g /\ Z.of_N b' = clamp255 b /\ Z.of_N a' = clamp255 a.
Proof.
  set (c z := Z.to_N (Z.max (Z.min z 255) 0)).
  assert (Hc : forall z, Z.of_N (c z) = clamp255 z) by (intros z; unfold c, clamp255; lia).
  exists (c r), (c g), (c b), (c a). split; [reflexivity|]. auto.
Qed.
Theorem rgb_spec r g b :
  std (str "rgb") [VInt r; VInt g; VInt b] = std (str "rgba") [VInt r; VInt g; VInt b; VInt 255].
Proof. reflexivity. Qed.
Theorem channels_spec r g b a :
  std (str "r") [VColor r g b a] = Ok (VInt (Z.of_N r)) /\
  std (str "g") [VColor r g b a] = Ok (VInt (Z.of_N g)) /\
  std (str "b") [VColor r g b a] = Ok (VInt (Z.of_N b)) /\
  std (str "a") [VColor r g b a] = Ok (VInt (Z.of_N a)).
Proof. repeat split. Qed.
Theorem invert_twice (c : val) : value_wf c -> is_color c ->
  exists d, is_color d /\ std (str "invert") [c] = Ok d /\ std (str "invert") [d] = Ok c.
Proof.
  intros Hw (r & g & b & a & ->). inversion Hw; subst.
  eexists. split; [do 4 eexists; reflexivity|]. split; [reflexivity|].
  transitivity (@Ok val (VColor (255 - (255 - r)) (255 - (255 - g)) (255 - (255 - b)) a)); [reflexivity|].
  f_equal. f_equal; lia.
Qed.
Theorem invert_channels r g b a :
  std (str "invert") [VColor r g b a] = Ok (VColor (255 - r) (255 - g) (255 - b) a).
Proof. reflexivity. Qed.

Lemma double_arg (v : val) t : accepts PDouble v t -> take fi PDouble [v] = Ok (t, []).
Proof. intros H. apply take_iff. exists v. auto. Qed.
Theorem mix_spec r g b a r' g' b' a' v t :
  value_wf (@VColor Fn r g b a) -> value_wf (@VColor Fn r' g' b' a') -> @accepts Fn PDouble v t ->
  (fleb t fzero = true \/ t = S754_nan ->
     std (str "mix") [VColor r g b a; VColor r' g' b' a'; v] = Ok (VColor r g b a)) /\
  (fleb f1 t = true ->
     std (str "mix") [VColor r g b a; VColor r' g' b' a'; v] = Ok (VColor r' g' b' a')).
Proof.
  intros Hw Hw' Ht. apply double_arg in Ht. inversion Hw; inversion Hw'; subst.
  assert (E : std (str "mix") [VColor r g b a; VColor r' g' b' a'; v] = b_mix (r, g, b, a) (r', g', b', a') t).
  { transitivity (let! p := take fi PDouble [v] in let! _ := stop fi (snd p) in
                  b_mix (r, g, b, a) (r', g', b', a') (fst p)); [reflexivity|]. now rewrite Ht. }
  split; intros H; rewrite E; unfold b_mix.
  - destruct (unit_low t H) as [s ->]. now rewrite !mix_zero by auto.
  - rewrite (unit_high t H). now rewrite !mix_one by auto.
Qed.
Theorem lighten_spec r g b a v t :
  value_wf (@VColor Fn r g b a) -> @accepts Fn PDouble v t ->
  (fleb t fzero = true \/ t = S754_nan -> std (str "lighten") [VColor r g b a; v] = Ok (VColor r g b a)) /\
  (fleb f1 t = true -> std (str "lighten") [VColor r g b a; v] = Ok (VColor 255 255 255 255)).
Proof.
  intros Hw Ht. apply double_arg in Ht. inversion Hw; subst.
  assert (E : std (str "lighten") [VColor r g b a; v] = b_lighten (r, g, b, a) t).
  { transitivity (let! p := take fi PDouble [v] in let! _ := stop fi (snd p) in
                  b_lighten (r, g, b, a) (fst p)); [reflexivity|]. now rewrite Ht. }
  split; intros H; rewrite E; unfold b_lighten.
  - destruct (unit_low t H) as [s ->]. now rewrite !mix_zero by (auto; lia).
  - rewrite (unit_high t H). now rewrite !mix_one by (auto; lia).
Qed.
Theorem darken_spec r g b a v t :
  value_wf (@VColor Fn r g b a) -> @accepts Fn PDouble v t ->
  (fleb t fzero = true \/ t = S754_nan -> std (str "darken") [VColor r g b a; v] = Ok (VColor r g b a)) /\
  (fleb f1 t = true -> std (str "darken") [VColor r g b a; v] = Ok (VColor 0 0 0 0)).
Proof.
  intros Hw Ht. apply double_arg in Ht. inversion Hw; subst.
  assert (E : std (str "darken") [VColor r g b a; v] = b_darken (r, g, b, a) t).
  { transitivity (let! p := take fi PDouble [v] in let! _ := stop fi (snd p) in
                  b_darken (r, g, b, a) (fst p)); [reflexivity|]. now rewrite Ht. }
  split; intros H; rewrite E; unfold b_darken.
  - destruct (unit_low t H) as [s ->]. now rewrite !dim_zero by auto.
  - rewrite (unit_high t H). now rewrite !dim_one by auto.
Qed.

Theorem complement_black r g b a : value_wf (@VColor Fn r g b a) ->
  std (str "complement") [VColor r g b a] = Ok (VColor 0 0 0 0).
Proof.
  intros Hw. inversion Hw; subst.
  set (c := fun x => f_to_u8 (f_round (fmul (fN x) (f_of_Z (-1))))).
  assert (Hc : forall x, (x < 256)%N -> c x = 0%N).
  { intros x Hx. apply N.eqb_eq. refine (check1_ok (fun x => (c x =? 0)%N) _ x Hx). vm_compute; reflexivity. }
  transitivity (@Ok val (VColor (c r) (c g) (c b) (c a))); [reflexivity|]. now rewrite !Hc by auto.
Qed.

(** ** @clamp *)
Lemma not_ltb_leb a b : a <> S754_nan -> b <> S754_nan -> fltb a b = false -> fleb b a = true.
Proof.
  unfold fltb, fleb, SFltb, SFleb. intros Ha Hb. rewrite (sfcompare_swap b a).
  destruct (SFcompare a b) as [[]|] eqn:E; try discriminate; try reflexivity.
  exfalso. destruct a as [[]|[]| |[] p e]; try congruence; destruct b as [[]|[]| |[] p' e']; try congruence; discriminate.
Qed.
Lemma leb_refl a : a <> S754_nan -> fleb a a = true.
Proof.
  intros Ha. apply not_ltb_leb; auto. unfold fltb, SFltb.
  pose proof (sfcompare_swap a a) as E. destruct (SFcompare a a) as [[]|]; try discriminate; reflexivity.
Qed.
Lemma clamp_call a lo hi : std (str "clamp") [VFloat a; VFloat lo; VFloat hi] = b_clamp a lo hi.
Proof. reflexivity. Qed.
Theorem clamp_spec a lo hi :
  a <> S754_nan -> lo <> S754_nan -> hi <> S754_nan ->
  (fltb hi lo = true -> exists e, std (str "clamp") [VFloat a; VFloat lo; VFloat hi] = Err e) /\
  (fleb lo hi = true -> exists r, std (str "clamp") [VFloat a; VFloat lo; VFloat hi] = Ok (VFloat r) /\
     fleb lo r = true /\ fleb r hi = true /\
     (fleb lo a = true -> fleb a hi = true -> feqb a r = true)).
Proof.
  intros Ha Hl Hh. rewrite clamp_call. unfold b_clamp.
  split; [intros ->; eexists; reflexivity|]. intros H.
  assert (fltb hi lo = false) as ->.
  { unfold fltb, fleb, SFltb, SFleb in *. rewrite (sfcompare_swap hi lo).
    destruct (SFcompare lo hi) as [[]|]; try discriminate; reflexivity. }
  assert (is_nan lo = false) as -> by (destruct lo; congruence || reflexivity).
  assert (is_nan hi = false) as -> by (destruct hi; congruence || reflexivity).
  cbn [orb]. eexists. split; [reflexivity|].
  destruct (fltb a lo) eqn:E1; [|destruct (fltb hi a) eqn:E2].
  - split; [now apply leb_refl|]. split; [exact H|].
    unfold fltb, fleb, SFltb, SFleb, feqb, SFeqb in *. rewrite (sfcompare_swap lo a).
    destruct (SFcompare a lo) as [[]|]; try discriminate.
  - split; [exact H|]. split; [now apply leb_refl|]. intros _.
    unfold fltb, fleb, SFltb, SFleb, feqb, SFeqb in *. rewrite (sfcompare_swap a hi).
    destruct (SFcompare hi a) as [[]|]; try discriminate.
  - split; [now apply not_ltb_leb|]. split; [now apply not_ltb_leb|]. intros _ _.
    pose proof (leb_refl a Ha) as R. pose proof (sfcompare_swap a a) as S.
    unfold fleb, SFleb, feqb, SFeqb in *. destruct (SFcompare a a) as [[]|]; try discriminate; reflexivity.
Qed.
Theorem min_max_spec a b :
  std (str "min") [VInt a; VInt b] = Ok (VInt (Z.min a b)) /\
  std (str "max") [VInt a; VInt b] = Ok (VInt (Z.max a b)).
Proof. split; reflexivity. Qed.
End Colors.

(** ** No builtin aborts, with the exceptions listed *)
Section Total.
Context {Fn : Type} (m : mode) (o : oracle) (fi : fn_info Fn) (feq : Fn -> Fn -> res bool) (amax : N).
Notation val := (gvalue Fn).

Fixpoint never (ps : list param) : @sig Fn ps -> Prop :=
  match ps return sig ps -> Prop with
  | [] => fun r => r <> Panic
  | Req k :: t => fun f => forall x, never t (f x)
  | Opt k :: t => fun f => forall x, never t (f x)
  end.
Lemma never_matches : forall ps (f : sig ps) args r, never ps f -> matches ps f args r -> r <> Panic.
Proof.
  induction ps as [|[k|k] ps IH]; intros f args r Hn; cbn [matches never] in *.
  - intros [_ ->]. exact Hn.
  - intros (x & rest & _ & Hm). eapply IH; eauto.
  - intros [[_ Hm]|(_ & x & rest & _ & Hm)]; eapply IH; eauto.
Qed.
Lemma never_call ps (f : sig ps) : never ps f -> forall args, call fi ps f args <> Panic.
Proof.
  intros Hn args. destruct (call_exhaustive fi ps f args) as [(r & Hr)|(e & He)].
  - rewrite (call_matches fi ps f args r Hr). eapply never_matches; eauto.
  - rewrite (call_misfit fi ps f args e He). discriminate.
Qed.

Lemma make_array_calm (l : list val) : make_value_array l amax <> Panic.
Proof. rewrite make_array. destruct (_ <=? _)%N; discriminate. Qed.

Lemma alookup_in {V} name (l : list (rstring * V)) f : alookup seqb name l = Some f -> In (name, f) l.
Proof.
  induction l as [|[n g] l IH]; cbn; [discriminate|].
  destruct (seqb name n) eqn:E; [|auto]. apply seqb_eq in E. intros [= ->]. subst; auto.
Qed.

Definition risky : list rstring :=
  [str "get"; str "set"; str "slice"; str "assert_eq"; str "assert_ne"; str "abs"].
Definition calm (p : @bfun Fn) : Prop := In (fst p) risky \/ forall args, snd p args <> Panic.
Lemma calm_reg name ps (f : sig ps) : never ps f -> calm (reg fi name ps f).
Proof. right. now apply never_call. Qed.
Lemma calm_risky name ps (f : sig ps) : In name risky -> calm (reg fi name ps f).
Proof. now left. Qed.

Ltac calm :=
  apply calm_reg; cbn [never pty]; intros;
  repeat match goal with
  | x : (_ * _)%type |- _ => destruct x
  end;
  cbv delta [b_str b_radix b_char b_int_from_radix b_int b_float b_bool b_color b_len b_gettype b_truncate
   b_capitalize b_title b_uppercase b_lowercase b_split b_join b_replace b_trim b_trim_start b_trim_end
   b_starts_with b_ends_with b_contains b_chars b_assert b_unreachable b_panic b_todo b_log b_min b_max
   b_rounding b_fix b_clamp b_interp b_math1 b_atan2 b_sqrt b_rgba b_rgb b_r b_g b_b b_a b_luma b_hue
   b_saturation b_cdifference b_invert b_alpha b_mix b_lighten b_darken b_saturate b_complement
   b_contrast_color b_rainbow_colors b_hsla b_hsl b_hsva b_hsv] beta zeta iota;
  try apply make_array_calm;
  repeat match goal with
  | |- Ok _ <> Panic => discriminate
  | |- Err _ <> Panic => discriminate
  | |- err_msg _ <> Panic => discriminate
  | |- match ?x with _ => _ end <> Panic => destruct x
  end.

Lemma std_calm : Forall calm (std_list m o fi feq amax).
Proof.
  unfold std_list, core_list, math_list, colors_list, strings_list, testing_list. cbn [app].
  repeat (constructor; [first [apply calm_risky; cbn; tauto | calm; fail]|]). constructor.
Qed.
End Total.
