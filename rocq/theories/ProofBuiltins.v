(** Arguments of builtins (C44). *)
From Verif Require Import Base Float NumText Vecc Value Args SpecArith ProofArith ProofArith4 SpecBuiltins.
Ltac Zify.zify_post_hook ::= Z.div_mod_to_equations.

Lemma pow2_pos e : (0 < 2 ^ Z.max 0 e)%Z.
Proof. apply Z.pow_pos_nonneg; lia. Qed.

Lemma trunc_whole s p e : whole_part (S754_finite s p e) (f_trunc_Z (S754_finite s p e)).
Proof.
  cbn [whole_part f_trunc_Z].
  destruct (Z.leb_spec 0 e).
  - exists (Z.pos p * 2 ^ e)%Z. rewrite (Z.max_r 0 e), (Z.max_l 0 (- e)) by lia.
    assert (0 < 2 ^ e)%Z by (apply Z.pow_pos_nonneg; lia).
    repeat split; try nia. all: destruct s; nia.
  - exists (Z.pos p / 2 ^ (- e))%Z. rewrite (Z.max_l 0 e), (Z.max_r 0 (- e)) by lia.
    assert (0 < 2 ^ (- e))%Z by (apply Z.pow_pos_nonneg; lia).
    pose proof (Z.div_mod (Z.pos p) (2 ^ (- e)) ltac:(lia)).
    pose proof (Z.mod_pos_bound (Z.pos p) (2 ^ (- e)) ltac:(lia)).
    repeat split; try nia. all: destruct s; nia.
Qed.
Lemma whole_unique f q q' : whole_part f q -> whole_part f q' -> q = q'.
Proof.
  destruct f; cbn; try tauto; try congruence.
  intros (n & Hn & Hb & ->) (n' & Hn' & Hb' & ->).
  assert (n = n') as ->; [|reflexivity].
  pose proof (pow2_pos (- e)). nia.
Qed.
Lemma to_int_iff lo hi f z : (lo <= 0 <= hi)%Z -> (float_to_int lo hi f z <-> z = f_to_int lo hi f).
Proof.
  intros Hb. destruct f as [s|s| |s p e].
  - cbn. split; [intros (q & -> & ->)|intros ->; exists 0%Z]; lia.
  - reflexivity.
  - reflexivity.
  - cbn [float_to_int f_to_int]. split.
    + intros (q & Hq & ->). now rewrite (whole_unique _ _ _ Hq (trunc_whole s p e)).
    + intros ->. eexists; split; [apply trunc_whole|reflexivity].
Qed.

Lemma to_u8_value f : Z.of_N (f_to_u8 f) = f_to_int 0 255 f.
Proof.
  unfold f_to_u8. rewrite Z2N.id; [reflexivity|]. destruct f as [s|s| |s p e]; cbn; try lia.
  destruct s; lia.
Qed.
Lemma u8_clamped y x :
  (if is_nan y then x = 255%N
   else if fltb y (f_of_Z 0) then x = 0%N
   else if fltb (f_of_Z 255) y then x = 255%N
   else float_to_int 0 255 y (Z.of_N x))
  <-> x = f_to_u8 (fmax (fmin y (f_of_Z 255)) (f_of_Z 0)).
Proof.
  destruct (is_nan y) eqn:En.
  { destruct y; try discriminate. vm_compute f_to_u8. reflexivity. }
  unfold fmin. rewrite En. change (is_nan (f_of_Z 255)) with false. cbv iota.
  destruct (fltb y (f_of_Z 0)) eqn:E0.
  - assert (fltb (f_of_Z 255) y = false) as ->.
    { destruct y as [[]|[]| |[] p e]; try discriminate; reflexivity. }
    unfold fmax. rewrite En, E0. change (is_nan (f_of_Z 0)) with false. cbv iota.
    vm_compute f_to_u8. reflexivity.
  - destruct (fltb (f_of_Z 255) y) eqn:E1.
    + change (fmax (f_of_Z 255) (f_of_Z 0)) with (f_of_Z 255). vm_compute (f_to_u8 _). reflexivity.
    + unfold fmax. rewrite En, E0. change (is_nan (f_of_Z 0)) with false. cbv iota.
      rewrite to_int_iff by lia. rewrite <- to_u8_value. split; [apply N2Z.inj|congruence].
Qed.

Section Args.
Context {Fn : Type} (fi : fn_info Fn).
Notation val := (gvalue Fn).

Lemma ok_iff {A} (x y : A) : x = y <-> Ok y = Ok x.
Proof. split; congruence. Qed.
Lemma accepts_iff k (v : val) x : k <> PRest -> (accepts k v x <-> convert fi k v = Ok x).
Proof.
  intros Hk. destruct k; try congruence.
  all: destruct v; cbn [accepts convert pty] in *; unfold expected_err;
    try (split; [intros Hx; exfalso; exact Hx|discriminate]);
    try (split; [intros Hx; exfalso; discriminate Hx|discriminate]);
    try (split; [intros Hx; injection Hx; congruence|congruence]);
    try apply ok_iff.
  all: try match type of x with (N * N * N * N)%type => destruct x as [[[? ?] ?] ?];
            split; intros H; first [discriminate H | injection H; congruence] end.
  all: try (split; [intros [(? & ? & H)|(? & ? & H & ?)]; discriminate H|discriminate]).
  - rewrite to_int_iff by (unfold i64_min, i64_max; lia). apply ok_iff.
  - rewrite <- ok_iff. split.
    + intros [H1 H2]. symmetry. now apply wrap32_unique.
    + intros ->. split; [apply wrap32_range|apply wrap32_cong].
  - rewrite to_int_iff by lia. apply ok_iff.
  - rewrite <- ok_iff. unfold clamp255. lia.
  - cbv zeta. rewrite u8_clamped. apply ok_iff.
  - split; [intros [(? & ? & H)|(? & ? & H & ?)]; congruence|].
    intros H; injection H as <-. left. eauto.
  - split; [intros [(? & ? & H)|(? & ? & H & ->)]; congruence|].
    intros H; injection H as <-. right. eauto.
  - destruct x as [y z]. cbn. split; intros H; injection H; congruence.
  - destruct (seqb id name) eqn:E.
    + apply seqb_eq in E. subst. split; intros H; injection H; congruence.
    + split; [|discriminate]. intros H; injection H as -> ->. rewrite seqb_refl in E. discriminate.
Qed.
Lemma convert_cases k (v : val) : k <> PRest ->
  (exists x, convert fi k v = Ok x) \/ convert fi k v = Err (wrong_type fi k v).
Proof.
  intros Hk. destruct k; try congruence.
  all: destruct v; cbn [convert]; try (left; eexists; reflexivity); try (right; reflexivity).
  destruct (seqb id name); [left; eexists; reflexivity|right; reflexivity].
Qed.

Lemma take_iff k (args : list val) x rest : arg k args x rest <-> take fi k args = Ok (x, rest).
Proof.
  destruct k; try (unfold arg, take; split; [intros [-> ->]; reflexivity|intros H; injection H; auto]);
    unfold arg, take.
  all: destruct args as [|v args]; cbn [consume rbind].
  all: try (split; [intros (v & H & _); discriminate H|discriminate]).
  all: cbn [fst snd].
  all: match goal with |- context [convert fi ?k ?v] =>
         pose proof (fun x => accepts_iff k v x ltac:(discriminate)) as HA;
         destruct (convert_cases k v ltac:(discriminate)) as [(y & Hy)|Hy] end.
  all: cbn [fst snd] in *; rewrite Hy in *; cbn [rbind].
  all: split;
    [ intros (w & Hw & Ha); injection Hw as <- <-; apply HA in Ha; congruence
    | intros H; first [discriminate H | injection H as H1 H2; subst;
      eexists; split; [reflexivity|apply HA; reflexivity]] ].
Qed.
Lemma take_cases k (args : list val) :
  (exists x rest, arg k args x rest /\ take fi k args = Ok (x, rest)) \/
  (k <> PRest /\ args = [] /\ take fi k args = Err (too_few k)) \/
  (k <> PRest /\ exists v rest, args = v :: rest /\ (forall x, ~ accepts k v x) /\
     take fi k args = Err (wrong_type fi k v)).
Proof.
  destruct (take fi k args) as [[x rest]|e|] eqn:E.
  - left. exists x, rest. split; [now apply take_iff|reflexivity].
  - right. destruct k; try discriminate E.
    all: destruct args as [|v args]; unfold take in E; cbn [consume rbind fst snd] in E;
      [left; split; [discriminate|]; split; [reflexivity|injection E as <-; reflexivity]|right].
    all: match type of E with context [convert fi ?k ?v] =>
         pose proof (fun x => accepts_iff k v x ltac:(discriminate)) as HA;
         destruct (convert_cases k v ltac:(discriminate)) as [(y & Hy)|Hy] end.
    all: rewrite Hy in E, HA; cbn [rbind] in E; try discriminate E; injection E as <-.
    all: split; [discriminate|]; do 2 eexists; split; [reflexivity|]; split; [|reflexivity];
      intros x Hx; apply HA in Hx; discriminate Hx.
  - exfalso. destruct k; try discriminate E.
    all: destruct args as [|v args]; unfold take in E; cbn [consume rbind fst snd] in E; try discriminate E.
    all: match type of E with context [convert fi ?k ?v] =>
         destruct (convert_cases k v ltac:(discriminate)) as [(y & Hy)|Hy] end.
    all: rewrite Hy in E; discriminate E.
Qed.
Lemma take_opt_cons k (args : list val) : args <> [] ->
  take_opt fi k args = let! p := take fi k args in Ok (Some (fst p), snd p).
Proof. destruct args; [congruence|reflexivity]. Qed.

Theorem call_matches : forall ps (f : sig ps) args r, matches ps f args r -> call fi ps f args = r.
Proof.
  induction ps as [|[k|k] ps IH]; intros f args r.
  - intros [-> ->]. reflexivity.
  - intros (x & rest & Ha & Hm). apply take_iff in Ha. cbn [call]. rewrite Ha. cbn [rbind fst snd]. auto.
  - intros [[-> Hm]|(Hne & x & rest & Ha & Hm)]; cbn [call].
    + cbn [take_opt rbind fst snd]. auto.
    + rewrite take_opt_cons by auto. apply take_iff in Ha. rewrite Ha. cbn [rbind fst snd]. auto.
Qed.
Theorem call_misfit : forall ps (f : sig ps) args e, misfit fi ps args e -> call fi ps f args = Err e.
Proof.
  induction ps as [|[k|k] ps IH]; intros f args e.
  - intros (v & rest & -> & ->). reflexivity.
  - cbn [misfit call]. intros [(Hk & -> & ->)|[(Hk & v & rest & -> & Hn & ->)|(x & rest & Ha & Hm)]].
    + destruct k; try congruence; reflexivity.
    + destruct (take_cases k (v :: rest)) as [(x & r' & Ha & _)|[(_ & H & _)|(_ & w & r' & Hw & _ & ->)]].
      * exfalso. destruct k; try congruence; destruct Ha as (w & Hw & Ha); injection Hw as <- <-; exact (Hn _ Ha).
      * discriminate.
      * injection Hw as <- <-. reflexivity.
    + apply take_iff in Ha. rewrite Ha. cbn [rbind fst snd]. auto.
  - cbn [misfit call]. intros [(Hk & v & rest & -> & Hn & ->)|[(-> & Hm)|(Hne & x & rest & Ha & Hm)]].
    + rewrite take_opt_cons by discriminate.
      destruct (take_cases k (v :: rest)) as [(x & r' & Ha & _)|[(_ & H & _)|(_ & w & r' & Hw & _ & ->)]].
      * exfalso. destruct k; try congruence; destruct Ha as (w & Hw & Ha); injection Hw as <- <-; exact (Hn _ Ha).
      * discriminate.
      * injection Hw as <- <-. reflexivity.
    + cbn [take_opt rbind fst snd]. auto.
    + rewrite take_opt_cons by auto. apply take_iff in Ha. rewrite Ha. cbn [rbind fst snd]. auto.
Qed.
Theorem call_exhaustive : forall ps (f : sig ps) args,
  (exists r, matches ps f args r) \/ (exists e, misfit fi ps args e).
Proof.
  induction ps as [|[k|k] ps IH]; intros f args.
  - destruct args; [left|right]; cbn; eauto.
  - cbn [misfit matches].
    destruct (take_cases k args) as [(x & r' & Ha & _)|[(Hk & H & _)|(Hk & w & r' & Hw & Hn & _)]].
    + destruct (IH (f x) r') as [(r & Hr)|(e & He)]; [left|right]; eauto 8.
    + right. eauto 8.
    + right. eexists. right; left. split; [auto|]. eauto 8.
  - cbn [misfit matches]. destruct args as [|v args].
    + destruct (IH (f None) []) as [(r & Hr)|(e & He)]; [left|right]; eauto 8.
    + destruct (take_cases k (v :: args)) as [(x & r' & Ha & _)|[(Hk & H & _)|(Hk & w & r' & Hw & Hn & _)]].
      * destruct (IH (f (Some x)) r') as [(r & Hr)|(e & He)]; [left|right].
        -- exists r. right. split; [discriminate|eauto].
        -- exists e. right; right. split; [discriminate|eauto].
      * discriminate.
      * right. eexists. left. split; [auto|]. eauto 8.
Qed.
End Args.
