(** Colours by hue (C84). *)
From Coq Require Import QArith Qround.
From Verif Require Import Base RleVec Pool Vecc Float NumText Chunk Value Ast Arith VmOps Args Builtins SpecArith SpecBuiltins SpecText SpecLib
  ProofArith4 ProofBuiltins ProofBuiltins2 ProofBuiltins3 ProofConsole5 ProofText ProofLib ProofLib2 ProofLib3 ProofLib4.
Local Open Scope Z_scope.

Section Calls.
Context (mo : mode) (o : oracle) {Fn : Type} (fi : fn_info Fn) (feq : Fn -> Fn -> res bool) (amax : N).
Notation call := (std_call mo o fi feq amax).
Notation val := (gvalue Fn).

Lemma color_eqb_ok (v : val) p : color_eqb v p = true -> exists r g b, v = VColor r g b 255 /\ p r g b = true.
Proof.
  destruct v; try discriminate. cbn [color_eqb]. rewrite andb_true_iff. intros [H E]. apply N.eqb_eq in E as ->. eauto.
Qed.
Theorem wheel_is h : 0 <= h < 360 ->
  (exists r g b, call (str "hsl") [VInt h; VInt 1; VFloat one_half] = Ok (VColor r g b 255) /\ wheel h r g b) /\
  (exists r g b, call (str "hsv") [VInt h; VInt 1; VInt 1] = Ok (VColor r g b 255) /\ wheel h r g b).
Proof.
  intros Hh. pose proof (all_below_ok _ _ (degrees_check (Fn := Fn)) (Z.to_N h) ltac:(lia)) as E. cbv beta in E.
  rewrite Z2N.id in E by lia. apply andb_true_iff in E as [E1 E2].
  apply color_eqb_ok in E1 as (r & g & b & E1 & W1). apply color_eqb_ok in E2 as (r' & g' & b' & E2 & W2).
  split; [exists r, g, b|exists r', g', b']; (split; [|now apply wheel_ok]).
  - change (call (str "hsl") [VInt h; VInt 1; VFloat one_half]) with (Ok (hsla_to_rgba (Fn := Fn) (f_of_Z h) f1 fhalf f1)). now rewrite E1.
  - change (call (str "hsv") [VInt h; VInt 1; VInt 1]) with (Ok (hsva_to_rgba (Fn := Fn) (f_of_Z h) f1 f1 f1)). now rewrite E2.
Qed.

(** ** Without saturation every colour is grey *)
Definition is_zero_f (f : f64) : Prop := exists s, f = S754_zero s.
Definition zero_b (f : f64) : bool := match f with S754_zero _ => true | _ => false end.
Lemma hue_x_check : all_below 361 (fun h =>
  let x c := hue_x c (fdiv (f_of_Z (Z.of_N h)) (f_of_Z 60)) in
  zero_b (x (S754_zero false)) && zero_b (x (S754_zero true)) &&
  match x S754_nan with S754_nan => true | _ => false end) = true.
Proof. vm_compute. reflexivity. Qed.
Definition ch (v mm : f64) : N := f_to_u8 (f_round (fmul (fmin (fmax (fadd v mm) fzero) f1) f255)).
Lemma ch_zero s s' mm : ch (S754_zero s) mm = ch (S754_zero s') mm.
Proof. destruct mm as [t|t| |t m e], s, s'; try destruct t; reflexivity. Qed.
Lemma ch_nan v w : ch v S754_nan = ch w S754_nan.
Proof. unfold ch. assert (E : forall v, fadd v S754_nan = S754_nan) by (intros [[|]|[|]| |[|] ? ?]; reflexivity). now rewrite !E. Qed.
Lemma times_zero x s : (exists t, fmul x (S754_zero s) = S754_zero t) \/ fmul x (S754_zero s) = S754_nan.
Proof. destruct x as [t|t| |t m e]; cbn; eauto. Qed.
Lemma minus_nan x : fsub x S754_nan = S754_nan.
Proof. destruct x as [[|]|[|]| |[|] ? ?]; reflexivity. Qed.
Lemma channels_grey (c : f64) mm h a : 0 <= h <= 360 ->
  (exists t, c = S754_zero t) \/ c = S754_nan /\ mm = S754_nan ->
  exists n m, hue_channels (Fn := Fn) c (hue_x c (fdiv (f_of_Z h) (f_of_Z 60))) mm (fdiv (f_of_Z h) (f_of_Z 60)) a = VColor n n n m.
Proof.
  intros Hh Hc. pose proof (all_below_ok _ _ hue_x_check (Z.to_N h) ltac:(lia)) as E. cbv beta zeta in E.
  rewrite Z2N.id in E by lia. apply andb_true_iff in E as [E E3]. apply andb_true_iff in E as [E1 E2].
  set (hh := fdiv (f_of_Z h) (f_of_Z 60)) in *. clearbody hh. set (x := hue_x c hh).
  assert (K : ch x mm = ch c mm /\ ch fzero mm = ch c mm).
  { destruct Hc as [[t ->]|[-> ->]].
    - split; [|apply ch_zero]. subst x. destruct t; [destruct (hue_x (S754_zero true) hh)|destruct (hue_x (S754_zero false) hh)]; try discriminate; apply ch_zero.
    - split; apply ch_nan. }
  clearbody x. destruct K as [K1 K2]. unfold hue_channels. fold (ch c mm).
  exists (ch c mm). eexists.
  repeat match goal with |- context[if ?b then _ else _] => destruct b end; cbv beta zeta iota;
    fold (ch c mm) (ch x mm) (ch fzero mm); rewrite ?K1, ?K2; reflexivity.
Qed.
Theorem grey_is h (v : val) x : 0 <= h <= 360 -> num_of v x ->
  (exists n, call (str "hsl") [VInt h; VInt 0; v] = Ok (VColor n n n 255)) /\
  (exists n, call (str "hsv") [VInt h; VInt 0; v] = Ok (VColor n n n 255)).
Proof.
  intros Hh Hv.
  assert (E : call (str "hsl") [VInt h; VInt 0; v] = Ok (hsla_to_rgba (f_of_Z h) (f_of_Z 0) x f1) /\
              call (str "hsv") [VInt h; VInt 0; v] = Ok (hsva_to_rgba (f_of_Z h) (f_of_Z 0) x f1))
    by (destruct Hv as [->|(i & -> & ->)]; split; reflexivity).
  destruct E as [-> ->]. change (f_of_Z 0) with (S754_zero false).
  assert (A : forall c xx mm hh n m, hue_channels (Fn := Fn) c xx mm hh f1 = VColor n n n m -> m = 255%N).
  { intros c xx mm hh n m. unfold hue_channels. destruct (if fltb hh f1 then _ else _) as [[r g] b]. intros H.
    injection H as _ _ _ <-. vm_compute. reflexivity. }
  split.
  - unfold hsla_to_rgba. cbv zeta. match goal with |- context[hue_channels ?c _ ?mm] =>
      destruct (channels_grey c mm h f1 Hh) as (n & m & E) end.
    { destruct (times_zero (fsub f1 (fabs (fsub (fmul (f_of_Z 2) x) f1))) false) as [[t Ht]|Ht]; rewrite Ht; [left; eauto|right].
      split; [reflexivity|]. apply minus_nan. }
    exists n. rewrite E. now rewrite (A _ _ _ _ _ _ E).
  - unfold hsva_to_rgba. cbv zeta. match goal with |- context[hue_channels ?c _ ?mm] =>
      destruct (channels_grey c mm h f1 Hh) as (n & m & E) end.
    { destruct (times_zero x false) as [[t Ht]|Ht]; rewrite Ht; [left; eauto|right].
      split; [reflexivity|]. apply minus_nan. }
    exists n. rewrite E. now rewrite (A _ _ _ _ _ _ E).
Qed.

(** ** Transparency *)
Lemma u8_of_round f q n : binary64 f -> rational f = Some q -> nearest q n ->
  Z.of_N (f_to_u8 (f_round f)) = clamp255 n.
Proof.
  intros Hv Hq Hn. rewrite to_u8_value.
  destruct (round_is mo o fi feq amax f q Hv Hq) as (n' & E & Hn').
  assert (n' = n) as -> by (unfold nearest in *; destruct (Qlt_le_dec q 0); congruence).
  change (call (str "round") [VFloat f]) with (Ok (A := val) (VInt (f_to_i64 (f_round f)))) in E.
  injection E as E. unfold clamp255, limited, f_to_i64, f_to_int, i64_min, i64_max in *.
  destruct (f_round f) as [s|s| |s m e]; cbn [f_to_int]; try lia.
  destruct s; lia.
Qed.
Theorem alpha_is r g b a (v : val) x q n : num_of v x -> binary64 (fmul x (f_of_Z 255)) ->
  rational (fmul x (f_of_Z 255)) = Some q -> nearest q n ->
  exists a', call (str "alpha") [VColor r g b a; v] = Ok (VColor r g b a') /\ Z.of_N a' = clamp255 n.
Proof.
  intros Hv H1 H2 H3. exists (f_to_u8 (f_round (fmul x (f_of_Z 255)))). split; [|eapply u8_of_round; eassumption].
  destruct Hv as [->|(i & -> & ->)]; reflexivity.
Qed.
End Calls.
