(** Logic (C78), colours (C84) and texts (C85). *)
From Coq Require Import QArith.
From Verif Require Import Base RleVec Pool Vecc Float NumText Chunk Value Ast Arith VmOps Args Builtins SpecArith SpecBuiltins SpecText SpecLib
  ProofArith4 ProofBuiltins ProofBuiltins2 ProofBuiltins3 ProofConsole5 ProofText ProofLib ProofLib3.
Local Open Scope nat_scope.

Section Logic.
Context {Fn : Type} (fi : fn_info Fn).
Theorem logic a b :
  v_and fi (VBool a) (VBool b) = Ok (VBool (andb a b)) /\ v_or fi (VBool a) (VBool b) = Ok (VBool (orb a b)) /\
  v_not fi (VBool a) = Ok (VBool (negb a)).
Proof. repeat split. Qed.
End Logic.

Section Calls.
Context (mo : mode) (o : oracle) {Fn : Type} (fi : fn_info Fn) (feq : Fn -> Fn -> res bool) (amax : N).
Notation call := (std_call mo o fi feq amax).
Notation val := (gvalue Fn).

(** ** Texts *)
Lemma words_gap p gap : Forall (fun c => p c = true) gap -> forall s cur,
  cur = [] -> words_go p (gap ++ s) cur = words_go p s [].
Proof. induction 1 as [|c gap Hc _ IH]; intros s cur ->; cbn [app words_go]; [reflexivity|]. rewrite Hc. now apply IH. Qed.
Lemma words_word p w : Forall (fun c => p c = false) w -> forall s cur,
  words_go p (w ++ s) cur = words_go p s (rev w ++ cur).
Proof.
  induction 1 as [|c w Hc _ IH]; intros s cur; cbn [app words_go rev]; [reflexivity|]. rewrite Hc, IH.
  now rewrite <- app_assoc.
Qed.
Lemma rev_some {A} (w : list A) : w <> [] -> exists x t, rev w = x :: t.
Proof.
  intros H. destruct (rev w) as [|x t] eqn:E; [|eauto]. apply (f_equal (@rev A)) in E. rewrite rev_involutive in E. contradiction.
Qed.
Lemma words_are p s ws : worded p s ws -> words_go p s [] = ws.
Proof.
  induction 1 as [gap Hg|gap w Hg Hn Hw|gap w c s ws Hg Hn Hw Hc H IH].
  - rewrite <- (app_nil_r gap). now rewrite (words_gap p gap Hg [] [] eq_refl).
  - rewrite (words_gap p gap Hg _ [] eq_refl). rewrite <- (app_nil_r w) at 1. rewrite words_word by assumption.
    rewrite app_nil_r. cbn [words_go]. destruct (rev_some w Hn) as (x & t & E). rewrite E, <- E, rev_involutive. reflexivity.
  - rewrite (words_gap p gap Hg _ [] eq_refl), words_word by assumption. rewrite app_nil_r. cbn [words_go]. rewrite Hc.
    destruct (rev_some w Hn) as (x & t & E). rewrite E, <- E, rev_involutive. now rewrite IH.
Qed.
Lemma worded_exists p s : exists ws, worded p s ws.
Proof.
  assert (G : forall n s, length s <= n -> exists ws, worded p s ws).
  { induction n as [|n IH]; intros t Ht.
    - destruct t; [|cbn in Ht; lia]. exists []. constructor. constructor.
    - destruct (drop_while_spec p t) as (gap & E & Hg & Hd). destruct (drop_while p t) as [|c u] eqn:Ed.
      + exists []. rewrite app_nil_r in E. subst t. now constructor.
      + destruct (drop_while_spec (fun c => negb (p c)) (c :: u)) as (w & E2 & Hw & Hd2).
        assert (Hw' : Forall (fun c => p c = false) w) by (eapply Forall_impl; [|exact Hw]; intros x Hx; now apply negb_true_iff).
        destruct (drop_while (fun c => negb (p c)) (c :: u)) as [|x v] eqn:Ed2.
        * exists [w]. rewrite app_nil_r in E2. subst t. rewrite E2. apply wo_last; auto. rewrite <- E2. discriminate.
        * destruct w as [|y w].
          { cbn in E2. injection E2 as <- <-. apply negb_false_iff in Hd2. congruence. }
          apply negb_false_iff in Hd2. destruct (IH v) as (ws & Hv).
          { subst t. rewrite E2 in Ht. rewrite !app_length in Ht. cbn in Ht. lia. }
          exists ((y :: w) :: ws). subst t. rewrite E2. apply wo_word; auto. discriminate. }
  eapply G. apply le_n.
Qed.
Theorem capitalize_is s : exists t, call (str "capitalize") [VString s] = Ok (VString t) /\ capital (o_char_upper o) s t.
Proof. exists (cap_first o s). split; [reflexivity|]. destruct s; reflexivity. Qed.
Lemma join_joined sep l : joined sep l (str_join sep l).
Proof.
  induction l as [|x l IH]; [constructor|]. destruct l as [|y l]; [constructor|].
  change (str_join sep (x :: y :: l)) with (x ++ sep ++ str_join sep (y :: l)). constructor; [discriminate|exact IH].
Qed.
Theorem title_is s : exists ws cs t, worded (o_whitespace o) s ws /\ Forall2 (capital (o_char_upper o)) ws cs /\ joined (str " ") cs t /\
  call (str "title") [VString s] = Ok (VString t).
Proof.
  destruct (worded_exists (o_whitespace o) s) as (ws & Hw). exists ws, (map (cap_first o) ws), (str_join (str " ") (map (cap_first o) ws)).
  split; [exact Hw|]. split; [|split; [apply join_joined|]].
  - clear. induction ws as [|[|c w] ws IH]; cbn [map]; constructor; try assumption; reflexivity.
  - change (call (str "title") [VString s]) with (Ok (A := val) (VString (str_join (str " ") (map (cap_first o) (words_go (o_whitespace o) s []))))).
    now rewrite (words_are _ _ _ Hw).
Qed.
Theorem letter_case s :
  call (str "uppercase") [VString s] = Ok (VString (concat (map (o_char_upper o) s))) /\
  call (str "lowercase") [VString s] = Ok (VString (concat (map (o_char_lower o) s))).
Proof.
  split.
  - change (call (str "uppercase") [VString s]) with (Ok (A := val) (VString (flat_map (o_char_upper o) s))). now rewrite flat_map_concat_map.
  - change (call (str "lowercase") [VString s]) with (Ok (A := val) (VString (flat_map (o_char_lower o) s))). now rewrite flat_map_concat_map.
Qed.
Theorem trim_ends s :
  (exists pre r, call (str "trim_start") [VString s] = Ok (VString r) /\ s = pre ++ r /\
     Forall (fun c => o_whitespace o c = true) pre /\ (forall c t, r = c :: t -> o_whitespace o c = false)) /\
  (exists r post, call (str "trim_end") [VString s] = Ok (VString r) /\ s = r ++ post /\
     Forall (fun c => o_whitespace o c = true) post /\ (forall c t, r = t ++ [c] -> o_whitespace o c = false)).
Proof.
  split.
  - destruct (drop_while_spec (o_whitespace o) s) as (pre & E & H1 & H2).
    exists pre, (drop_while (o_whitespace o) s). split; [reflexivity|]. split; [exact E|]. split; [exact H1|].
    intros c t Ec. now rewrite Ec in H2.
  - destruct (drop_while_spec (o_whitespace o) (rev s)) as (post & E & H1 & H2).
    exists (rev (drop_while (o_whitespace o) (rev s))), (rev post). split; [reflexivity|].
    split; [rewrite <- rev_app_distr, <- E; symmetry; apply rev_involutive|]. split; [now apply Forall_rev|].
    intros c t Ec. apply (f_equal (@rev N)) in Ec. rewrite rev_involutive, rev_app_distr in Ec. cbn [rev app] in Ec.
    now rewrite Ec in H2.
Qed.

(** ** Colours *)
Theorem contrast_is r g b a l : call (str "brightness") [VColor r g b a] = Ok (VFloat l) ->
  call (str "contrast_color") [VColor r g b a] =
    if fltb (f_of_Z 186) l then Ok (VColor 0 0 0 a) else Ok (VColor 255 255 255 a).
Proof.
  intros H. change (call (str "brightness") [VColor r g b a]) with (Ok (A := val) (VFloat (weighted k299 k587 k114 r g b))) in H.
  injection H as <-. reflexivity.
Qed.
Lemma weights_near : near_q k2126 (2126 # 10000) /\ near_q k7152 (7152 # 10000) /\ near_q k0722 (722 # 10000) /\
  near_q k299 (299 # 1000) /\ near_q k587 (587 # 1000) /\ near_q k114 (114 # 1000).
Proof. repeat split; vm_compute; discriminate. Qed.
Theorem brightness_is r g b a : exists x y z,
  near_q x (299 # 1000) /\ near_q y (587 # 1000) /\ near_q z (114 # 1000) /\
  let f n := f_of_Z (Z.of_N n) in
  let w := VFloat (fadd (fadd (fmul (f r) x) (fmul (f g) y)) (fmul (f b) z)) in
  call (str "brightness") [VColor r g b a] = Ok w /\ call (str "hue") [VColor r g b a] = Ok w.
Proof.
  destruct weights_near as (_ & _ & _ & H1 & H2 & H3). exists k299, k587, k114.
  split; [exact H1|]. split; [exact H2|]. split; [exact H3|]. split; reflexivity.
Qed.
Theorem luma_is r g b a : exists x y z,
  near_q x (2126 # 10000) /\ near_q y (7152 # 10000) /\ near_q z (722 # 10000) /\
  let f n := f_of_Z (Z.of_N n) in
  call (str "luma") [VColor r g b a] = Ok (VFloat (fadd (fadd (fmul (f r) x) (fmul (f g) y)) (fmul (f b) z))).
Proof.
  destruct weights_near as (H1 & H2 & H3 & _). exists k2126, k7152, k0722.
  split; [exact H1|]. split; [exact H2|]. split; [exact H3|]. reflexivity.
Qed.
Theorem same_names r g b a v :
  call (str "saturation") [VColor r g b a] = call (str "contrast") [VColor r g b a] /\
  call (str "saturate") [VColor r g b a; v] = call (str "mix") [VColor r g b a; VColor r g b a; v] /\
  call (str "desaturate") [VColor r g b a; v] = call (str "mix") [VColor r g b a; VColor r g b a; v] /\
  call (str "fade") [VColor r g b a; v] = call (str "darken") [VColor r g b a; v].
Proof. split; [reflexivity|]. destruct v; repeat split. Qed.
Theorem opaque (h s l : val) :
  (forall x y z, num_of h x -> num_of s y -> num_of l z ->
    call (str "hsl") [h; s; l] = call (str "hsla") [h; s; l; VInt 1] /\
    call (str "hsv") [h; s; l] = call (str "hsva") [h; s; l; VInt 1]).
Proof. intros x y z [->|(i & -> & ->)] [->|(j & -> & ->)] [->|(k & -> & ->)]; split; reflexivity. Qed.
Theorem rainbow_is : call (str "rainbow_colors") [] =
  let colors := [ VColor 255 0 0 255; VColor 255 135 0 255; VColor 255 211 0 255; VColor 222 255 10 255;
    VColor 161 255 10 255; VColor 10 255 153 255; VColor 10 239 255 255; VColor 20 125 245 255;
    VColor 88 10 255 255; VColor 190 10 255 255 ]%N in
  if (total_size colors <=? amax)%N then Ok (VArray colors (total_size colors) amax) else Err EArrayTooLarge.
Proof.
  change (call (str "rainbow_colors") []) with (make_value_array (rainbow (Fn := Fn)) amax). apply make_array.
Qed.

(** Whole degrees: a finite check. *)
Definition color_eqb (v : val) (p : N -> N -> N -> bool) : bool :=
  match v with VColor r g b a => p r g b && (a =? 255)%N | _ => false end.
Definition near_b (k : Z) (n : N) : bool := (Z.abs (120 * Z.of_N n - 510 * k) <=? 60)%Z.
Definition wheel_b (h : Z) (r g b : N) : bool :=
  let k := (h mod 60)%Z in
  match (h / 60)%Z with
  | 0%Z => (r =? 255)%N && near_b k g && (b =? 0)%N
  | 1%Z => near_b (60 - k) r && (g =? 255)%N && (b =? 0)%N
  | 2%Z => (r =? 0)%N && (g =? 255)%N && near_b k b
  | 3%Z => (r =? 0)%N && near_b (60 - k) g && (b =? 255)%N
  | 4%Z => near_b k r && (g =? 0)%N && (b =? 255)%N
  | _ => (r =? 255)%N && (g =? 0)%N && near_b (60 - k) b
  end.
Lemma wheel_ok h r g b : wheel_b h r g b = true -> wheel h r g b.
Proof.
  unfold wheel_b, wheel, near_b, step_near.
  destruct (h / 60)%Z as [|[[q|[q|q|]|]|[q|[q|q|]|]|]|p]; rewrite !andb_true_iff, ?N.eqb_eq, ?Z.leb_le; tauto.
Qed.
Lemma degrees_check : all_below 360 (fun h =>
  color_eqb (hsla_to_rgba (f_of_Z (Z.of_N h)) f1 fhalf f1) (wheel_b (Z.of_N h)) &&
  color_eqb (hsva_to_rgba (f_of_Z (Z.of_N h)) f1 f1 f1) (wheel_b (Z.of_N h))) = true.
Proof. vm_compute. reflexivity. Qed.
End Calls.
