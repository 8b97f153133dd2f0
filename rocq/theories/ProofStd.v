(** The standard builtins: results are values the interpreter can hold. *)
From Verif Require Import Base Float NumText Vecc Value Ast Arith VmOps Args Builtins SpecArith SpecBuiltins
  ProofBuiltins ProofBuiltins2 ProofBuiltins3 ProofBuiltins4.
Ltac Zify.zify_post_hook ::= Z.div_mod_to_equations.

Section Sound.
Context {Fn : Type} (m : mode) (o : oracle) (fi : fn_info Fn) (feq : Fn -> Fn -> res bool) (amax : N).
Notation val := (gvalue Fn).

(** What bodies get from values that are well formed and not longer than memory. *)
Definition small (v : val) : Prop :=
  match v with
  | VArray l _ _ => (Z.of_nat (length l) < 2 ^ 63)%Z
  | VString s => (Z.of_N (slen s) < 2 ^ 63)%Z
  | _ => True
  end.
Definition arg_ok (k : pkind) : @pty Fn k -> Prop :=
  match k return pty k -> Prop with
  | PAny => fun x => value_wf x /\ small x
  | PInt => fun x => fits64 x
  | PInt32 => fun x => (- 2 ^ 31 <= x < 2 ^ 31)%Z
  | PU8 => fun x => (x < 256)%N
  | PColor => fun '(r, g, b, a) => (r < 256 /\ g < 256 /\ b < 256 /\ a < 256)%N
  | PList | PRest => fun x => Forall value_wf x
  | PPair => fun x => value_wf (fst x) /\ value_wf (snd x)
  | _ => fun _ => True
  end.
Definition res_ok (r : res val) : Prop := match r with Ok v => value_wf v | _ => True end.
Fixpoint sound (ps : list param) : @sig Fn ps -> Prop :=
  match ps return sig ps -> Prop with
  | [] => fun r => res_ok r
  | Req k :: t => fun f => forall x, arg_ok k x -> sound t (f x)
  | Opt k :: t => fun f => sound t (f None) /\ forall x, arg_ok k x -> sound t (f (Some x))
  end.

Lemma float_int_range lo hi f z : (lo <= 0 <= hi)%Z -> float_to_int lo hi f z -> (lo <= z <= hi)%Z.
Proof.
  intros Hb H. apply to_int_iff in H; [|exact Hb]. subst z. destruct f as [s|[]| |s p e]; cbn [f_to_int]; lia.
Qed.
Lemma u8_lt f : (f_to_u8 f < 256)%N.
Proof.
  pose proof (to_u8_value f) as H. assert (0 <= f_to_int 0 255 f <= 255)%Z; [|lia].
  destruct f as [s|[]| |s p e]; cbn [f_to_int]; lia.
Qed.
Lemma i64_fits f : fits64 (f_to_i64 f).
Proof.
  unfold f_to_i64, fits64, i64_min, i64_max. destruct f as [s|[]| |s p e]; cbn [f_to_int]; lia.
Qed.
Lemma accepts_ok k v x : value_wf v -> small v -> accepts k v x -> arg_ok k x.
Proof.
  destruct k; cbn [accepts arg_ok]; try (intros; exact Logic.I).
  - intros H1 H2 ->. auto.
  - destruct v; try tauto; intros H1 H2 H3; [subst; now inversion H1|].
    apply float_int_range in H3; unfold fits64; lia.
  - destruct v; try tauto; intros H1 H2 H3. apply float_int_range in H3; lia.
  - destruct v; try tauto; intros H1 H2 H3; [unfold clamp255 in *; lia|].
    cbv zeta in H3. apply u8_clamped in H3. subst. apply u8_lt.
  - destruct x as [[[r g] b] a]. intros H1 H2 ->. now inversion H1.
  - intros H1 H2 [(s & mx & ->)|(a & b & -> & ->)]; inversion H1; subst; auto.
  - destruct x as [a b]. cbn. intros H1 H2 ->. now inversion H1.
  - tauto.
Qed.
Lemma arg_is_ok k args x rest : Forall value_wf args -> Forall small args -> arg k args x rest ->
  arg_ok k x /\ Forall value_wf rest /\ Forall small rest.
Proof.
  intros Ha Hs H.
  assert (k = PRest \/ exists v, args = v :: rest /\ accepts k v x) as [->|(v & -> & Hv)].
  { destruct k; cbn in H; auto. }
  - destruct H as [-> ->]. repeat split; auto.
  - inversion Ha; inversion Hs; subst. repeat split; auto. eapply accepts_ok; eauto.
Qed.
Lemma sound_matches : forall ps (f : sig ps) args r, Forall value_wf args -> Forall small args ->
  sound ps f -> matches ps f args r -> res_ok r.
Proof.
  induction ps as [|[k|k] ps IH]; intros f args r Ha Hs Hn; cbn [matches sound] in *.
  - intros [_ ->]. exact Hn.
  - intros (x & rest & Hx & Hm). destruct (arg_is_ok _ _ _ _ Ha Hs Hx) as (H1 & H2 & H3).
    exact (IH _ _ _ H2 H3 (Hn x H1) Hm).
  - destruct Hn as [Hn1 Hn2]. intros [[_ Hm]|(_ & x & rest & Hx & Hm)].
    { exact (IH _ _ _ (Forall_nil _) (Forall_nil _) Hn1 Hm). }
    destruct (arg_is_ok _ _ _ _ Ha Hs Hx) as (H1 & H2 & H3). exact (IH _ _ _ H2 H3 (Hn2 x H1) Hm).
Qed.
Lemma sound_call ps (f : sig ps) : sound ps f -> forall args, Forall value_wf args -> Forall small args ->
  res_ok (call fi ps f args).
Proof.
  intros Hn args Ha Hs. destruct (call_exhaustive fi ps f args) as [(r & Hr)|(e & He)].
  - rewrite (call_matches fi ps f args r Hr). eapply sound_matches; eauto.
  - rewrite (call_misfit fi ps f args e He). exact Logic.I.
Qed.
Definition gives (p : @bfun Fn) : Prop := forall args, Forall value_wf args -> Forall small args -> res_ok (snd p args).
Lemma gives_reg name ps (f : sig ps) : sound ps f -> gives (reg fi name ps f).
Proof. intros H args. apply sound_call; auto. Qed.

Lemma hex_lt d s : (d < 256)%N -> (hex_or d s < 256)%N.
Proof.
  intros Hd. unfold hex_or, parse_u8_hex, parse_int. destruct (split_sign s) as [neg ds].
  destruct ds; [exact Hd|]. destruct (digits_val _ _ _); [|exact Hd].
  match goal with |- context [if ?b then Some ?z else None] => destruct b eqn:E; [|exact Hd] end. 
  apply andb_prop in E. lia.
Qed.
Lemma byte_lt z : (byte_of z < 256)%N.
Proof. unfold byte_of. lia. Qed.
Lemma parse_fits r s z : parse_i64 r s = Some z -> fits64 z.
Proof.
  unfold parse_i64, parse_int, fits64, i64_min, i64_max. destruct (split_sign s) as [neg ds].
  destruct ds; [discriminate|]. destruct (digits_val _ _ _); [|discriminate].
  match goal with |- context [if ?b then Some ?z else None] => destruct b eqn:E; [|discriminate] end.
  intros [= <-]. lia.
Qed.
Lemma array_ok l : Forall value_wf l -> res_ok (make_value_array l amax).
Proof.
  intros H. rewrite make_array. destruct (_ <=? _)%N; [|exact Logic.I]. cbn. now constructor.
Qed.
Lemma force_ok l : Forall (@value_wf Fn) l -> value_wf (force_array l).
Proof. intros H. now constructor. Qed.

Ltac bodies := cbv delta [b_str b_radix b_char b_int_from_radix b_int b_float b_bool b_color b_len b_gettype b_truncate
   b_capitalize b_title b_uppercase b_lowercase b_split b_join b_replace b_trim b_trim_start b_trim_end
   b_starts_with b_ends_with b_contains b_chars b_assert b_assert_eq b_assert_ne b_unreachable b_panic b_todo b_log b_min b_max
   b_rounding b_fix b_clamp b_interp b_abs b_math1 b_atan2 b_sqrt b_rgba b_rgb b_r b_g b_b b_a b_luma b_hue
   b_saturation b_cdifference b_invert b_alpha b_mix b_lighten b_darken b_saturate b_complement
   b_contrast_color b_rainbow_colors b_hsla b_hsl b_hsva b_hsv b_get b_set b_slice
   hsla_to_rgba hsva_to_rgba hue_channels mix1 dim1] beta zeta iota.
Ltac wf1 := first [ exact Logic.I | constructor; unfold fits64 in *; (apply u8_lt || apply i64_fits || apply byte_lt || (apply hex_lt; lia) || lia)
   | constructor ].
Lemma ov64_fits mm z z' : ov64 mm z = Ok z' -> fits64 z'.
Proof.
  unfold ov64. destruct (in_i64 z) eqn:E.
  - intros [= <-]. unfold in_i64, fits64, i64_min, i64_max in *. lia.
  - destruct mm; [discriminate|]. intros [= <-]. pose proof (wrap64_range z) as W.
    unfold in_i64, fits64, i64_min, i64_max in *. lia.
Qed.
Lemma Forall_upd {A} (P : A -> Prop) x : forall l i, P x -> Forall P l -> Forall P (upd i x l).
Proof.
  induction l as [|y l IH]; intros [|i] Hx H; cbn; auto; inversion H; subst; constructor; auto.
Qed.
Lemma strings_wf (l : list rstring) : Forall (@value_wf Fn) (map VString l).
Proof. induction l; cbn; constructor; auto; constructor. Qed.
Lemma chars_wf s : Forall (@value_wf Fn) (map (fun c : N => VString [c]) s).
Proof. induction s; cbn; constructor; auto; constructor. Qed.
Lemma part_wf (l : list val) a b : Forall value_wf l -> Forall value_wf (firstn a (skipn b l)).
Proof.
  intros H. apply Forall_forall. intros x Hx. rewrite Forall_forall in H. apply H.
  rewrite <- (firstn_skipn b l). apply in_or_app. right. rewrite <- (firstn_skipn a). apply in_or_app. now left.
Qed.
Lemma rainbow_wf : Forall (@value_wf Fn) rainbow.
Proof. unfold rainbow. repeat (constructor; [constructor; reflexivity|]). constructor. Qed.

Ltac invs := repeat match goal with
  | H : value_wf (VInt _) |- _ => inversion H; subst; clear H
  | H : value_wf (VColor _ _ _ _) |- _ => inversion H; subst; clear H
  | H : _ /\ _ |- _ => destruct H
  end.
Lemma std_sound : Forall gives (std_list m o fi feq amax).
Proof.
  unfold std_list, core_list, math_list, colors_list, strings_list, testing_list. cbn [app].
  repeat (constructor; [apply gives_reg; cbn [sound pty arg_ok]; intros;
    repeat match goal with x : (_ * _)%type |- _ => destruct x end; repeat split; intros; bodies;
    repeat match goal with
    | |- res_ok (Ok _) => cbn [res_ok]
    | |- res_ok (Err _) => exact Logic.I
    | |- res_ok Panic => exact Logic.I
    | |- res_ok (err_msg _) => exact Logic.I
    | |- res_ok (make_value_array _ _) => apply array_ok
    | |- res_ok (rbind ?x _) => destruct x eqn:?; cbn [rbind]
    | |- res_ok (match ?x with _ => _ end) => destruct x eqn:?
    | |- value_wf (let '(_, _) := ?x in _) => destruct x eqn:?
    | |- value_wf (force_array _) => apply force_ok
    end; invs; try assumption; try wf1; try assumption|]); [..|constructor].
  all: try (eapply parse_fits; eassumption).
  all: try (eapply ov64_fits; eassumption).
  all: try apply strings_wf.
  all: try apply chars_wf.
  all: try apply part_wf; try assumption.
  all: try (unfold fits64 in *; cbn [small] in *; lia).
  - rewrite Forall_forall in H. apply H. eapply nth_error_In; eassumption.
  - now apply Forall_upd.
  - constructor; reflexivity.
  - repeat (constructor; [constructor; reflexivity|]). constructor.
Qed.

Theorem std_results name args v : Forall value_wf args -> Forall small args ->
  std_call m o fi feq amax name args = Ok v -> value_wf v.
Proof.
  intros Ha Hs. unfold std_call. destruct (alookup seqb name _) as [f|] eqn:E; [|discriminate].
  apply alookup_in in E. pose proof std_sound as H. rewrite Forall_forall in H. specialize (H _ E args Ha Hs).
  cbn in H. intros Hr. rewrite Hr in H. exact H.
Qed.
End Sound.
