(** Lemmas for the refusals, random choices and hashes of PropTight.v. *)
From Verif Require Import Base RleVec Pool Vecc Float NumText Bytecode Chunk Value Ast Arith VmOps Args Builtins
  Compiler Vm Std Console SpecArith ProofArith4 SpecConsole ProofConsole5.
Ltac Zify.zify_post_hook ::= Z.div_mod_to_equations.

(** ** The bytes of numbers *)
Lemma le_length k : forall z, length (le_bytes k z) = k. Proof. induction k; intros; cbn [le_bytes length]; auto. Qed.
Lemma le_inj k : forall x y, le_bytes k x = le_bytes k y -> (x mod 2 ^ (8 * Z.of_nat k) = y mod 2 ^ (8 * Z.of_nat k))%Z.
Proof.
  induction k as [|k IH]; intros x y H.
  - change (8 * Z.of_nat 0)%Z with 0%Z. now rewrite !Z.mod_1_r.
  - cbn [le_bytes] in H. injection H as H1 H2. apply IH in H2.
    replace (8 * Z.of_nat (S k))%Z with (8 + 8 * Z.of_nat k)%Z by lia. rewrite Z.pow_add_r by lia. change (2 ^ 8)%Z with 256%Z.
    pose proof (Z.pow_pos_nonneg 2 (8 * Z.of_nat k) ltac:(lia) ltac:(lia)).
    rewrite !Z.rem_mul_r by lia. rewrite H2. f_equal.
    apply Z2N.inj; [apply Z.mod_pos_bound; lia|apply Z.mod_pos_bound; lia|exact H1].
Qed.
Lemma le_cat j k z : le_bytes (j + k) z = le_bytes j z ++ le_bytes k (z / 2 ^ (8 * Z.of_nat j)).
Proof.
  revert z. induction j as [|j IH]; intros z.
  - cbn [Nat.add le_bytes app]. change (8 * Z.of_nat 0)%Z with 0%Z. now rewrite Z.div_1_r.
  - cbn [Nat.add le_bytes app]. f_equal. rewrite IH. f_equal. rewrite Z.div_div by lia.
    replace (8 * Z.of_nat (S j))%Z with (8 + 8 * Z.of_nat j)%Z by lia. rewrite Z.pow_add_r by lia. reflexivity.
Qed.
Lemma le_same k x y : (x mod 2 ^ (8 * Z.of_nat k) = y mod 2 ^ (8 * Z.of_nat k))%Z -> le_bytes k x = le_bytes k y.
Proof.
  revert x y. induction k as [|k IH]; intros x y H; [reflexivity|].
  replace (8 * Z.of_nat (S k))%Z with (8 + 8 * Z.of_nat k)%Z in H by lia. rewrite Z.pow_add_r in H by lia. change (2 ^ 8)%Z with 256%Z in H.
  pose proof (Z.pow_pos_nonneg 2 (8 * Z.of_nat k) ltac:(lia) ltac:(lia)) as Hp.
  rewrite !Z.rem_mul_r in H by lia. cbn [le_bytes].
  pose proof (Z.mod_pos_bound x 256 ltac:(lia)). pose proof (Z.mod_pos_bound y 256 ltac:(lia)).
  assert (E : (x mod 256 = y mod 256)%Z) by (clear - H H0 H1; set (a := ((x / 256) mod _)%Z) in *; set (b := ((y / 256) mod _)%Z) in *; clearbody a b; lia).
  rewrite E. f_equal. apply IH. rewrite E in H. clear - H. set (a := ((x / 256) mod _)%Z) in *; set (b := ((y / 256) mod _)%Z) in *. clearbody a b. lia.
Qed.

Definition small32 (z : Z) : Prop := (- 2 ^ 31 <= z < 2 ^ 31)%Z.
Lemma mod_eq_small m x y : (0 < m)%Z -> (x mod m = y mod m)%Z -> (- m < x - y < m)%Z -> x = y.
Proof.
  intros Hm H Hd. pose proof (Z.div_mod x m ltac:(lia)). pose proof (Z.div_mod y m ltac:(lia)).
  rewrite H in H0. set (q := (x / m)%Z) in *. set (p := (y / m)%Z) in *. set (r := (y mod m)%Z) in *. clearbody p q r. assert (E : (x - y = m * (q - p))%Z) by (rewrite H0, H1; ring).
  assert (q - p = 0)%Z by nia. lia.
Qed.
Lemma le4_inj x y : small32 x -> small32 y -> le_bytes 4 x = le_bytes 4 y -> x = y.
Proof. intros Hx Hy H. apply le_inj in H. change (2 ^ (8 * Z.of_nat 4))%Z with 4294967296%Z in H. unfold small32 in *. change (2 ^ 31)%Z with 2147483648%Z in *. apply (mod_eq_small 4294967296); [lia|exact H|lia]. Qed.
Lemma le8_inj x y : fits64 x -> fits64 y -> le_bytes 8 x = le_bytes 8 y -> x = y.
Proof.
  intros Hx Hy H. apply le_inj in H. change (2 ^ (8 * Z.of_nat 8))%Z with 18446744073709551616%Z in H. unfold fits64 in *.
  change (2 ^ 63)%Z with 9223372036854775808%Z in *. apply (mod_eq_small 18446744073709551616); [lia|exact H|lia].
Qed.
Lemma le1_inj x y : (x < 256)%N -> (y < 256)%N -> le_bytes 1 (Z.of_N x) = le_bytes 1 (Z.of_N y) -> x = y.
Proof. intros Hx Hy H. injection H as H. rewrite !Z.mod_small in H by lia. lia. Qed.

Lemma wrap32_mod z : (z mod 2 ^ 32 = wrap32 z mod 2 ^ 32)%Z.
Proof. destruct (wrap32_cong z) as [k ->]. now rewrite Z.mod_add by discriminate. Qed.

Section Hash.
Context (o : oracle) (fhash : mfn -> res (list hitem)).
Notation call := (console_call o mfi fhash).
Definition with_hash (h : list hitem -> N) (w : world) : world :=
  mkWorld (w_out w) (w_in w) (w_file w) (w_clock w) (w_reads w) (w_rand w) (w_float w) (w_draws w) h.

Lemma hitem_dec (x y : hitem) : {x = y} + {x <> y}.
Proof. decide equality; try apply N.eq_dec; [decide equality; try apply Pos.eq_dec; try apply Z.eq_dec; apply Bool.bool_dec|]. apply list_eq_dec, N.eq_dec. Qed.
Lemma hash_apart (a b : value) la lb w : hash_items fhash a = Ok la -> hash_items fhash b = Ok lb -> la <> lb ->
  (forall f, a <> VFn f) -> (forall f, b <> VFn f) ->
  (match a with VSpecial _ _ | VArray _ _ _ | VLoopCtx _ => False | _ => True end) ->
  (match b with VSpecial _ _ | VArray _ _ _ | VLoopCtx _ => False | _ => True end) ->
  exists w', w_out w' = w_out w /\ snd (call (str "hash") [a] w') <> snd (call (str "hash") [b] w').
Proof.
  intros Ha Hb Hne Fa Fb Ka Kb. exists (with_hash (fun l => if list_eq_dec hitem_dec l la then 1%N else 0%N) w). split; [reflexivity|].
  change (call (str "hash") [a]) with (@b_hash mfn mfi fhash a). change (call (str "hash") [b]) with (@b_hash mfn mfi fhash b).
  assert (A : forall v l (w : world), hash_items fhash v = Ok l -> (forall f, v <> VFn f) ->
    (match v with VSpecial _ _ | VArray _ _ _ | VLoopCtx _ => False | _ => True end) ->
    snd (@b_hash mfn mfi fhash v w) = Ok (VInt (Z.of_N (w_hash w l mod 2 ^ 31)))).
  { clear. intros v l w H Fv Kv. unfold b_hash. cbn [snd]. destruct v; try contradiction; try (rewrite H; reflexivity). exfalso. eapply Fv; reflexivity. }
  rewrite (A a la) by assumption. rewrite (A b lb) by assumption. cbn [w_hash with_hash].
  destruct (list_eq_dec hitem_dec la la) as [_|H]; [|congruence]. destruct (list_eq_dec hitem_dec lb la) as [H|_]; [congruence|]. vm_compute. discriminate.
Qed.
Lemma hash_same (a b : value) l w : hash_items fhash a = Ok l -> hash_items fhash b = Ok l ->
  (forall f, a <> VFn f) -> (forall f, b <> VFn f) ->
  (match a with VSpecial _ _ | VArray _ _ _ | VLoopCtx _ => False | _ => True end) ->
  (match b with VSpecial _ _ | VArray _ _ _ | VLoopCtx _ => False | _ => True end) ->
  snd (call (str "hash") [a] w) = snd (call (str "hash") [b] w).
Proof.
  intros Ha Hb Fa Fb Ka Kb.
  change (call (str "hash") [a]) with (@b_hash mfn mfi fhash a). change (call (str "hash") [b]) with (@b_hash mfn mfi fhash b).
  unfold b_hash. cbn [snd]. destruct a; try contradiction; try (exfalso; eapply Fa; reflexivity);
  destruct b; try contradiction; try (exfalso; eapply Fb; reflexivity); rewrite ?Ha, ?Hb; reflexivity.
Qed.

Theorem hash_kinds (a b : value) w : value_wf a -> value_wf b -> a <> b ->
  match a, b with
  | VBool _, VBool _ | VInt _, VInt _ | VFloat _, VFloat _ | VRange _ _, VRange _ _
  | VColor _ _ _ _, VColor _ _ _ _ | VString _, VString _ => True
  | _, _ => False
  end ->
  exists w', w_out w' = w_out w /\ snd (call (str "hash") [a] w') <> snd (call (str "hash") [b] w').
Proof.
  intros Wa Wb Hne K.
  destruct a, b; try contradiction; (eapply hash_apart; [reflexivity|reflexivity| |discriminate|discriminate|exact I|exact I]).
  - destruct b0, b; try congruence; discriminate.
  - intros E. apply le8_inj in E; [congruence|inversion Wa; assumption|inversion Wb; assumption].
  - congruence.
  - intros E. inversion Wa; inversion Wb; subst. unfold hi32 in E.
    assert (L : forall (a b c d : list hitem), length a = length c -> a ++ b = c ++ d -> a = c /\ b = d).
    { clear. induction a as [|x a IH]; intros b [|y c] d Hl E; try discriminate; [auto|]. injection E as -> E. injection Hl as Hl.
      destruct (IH _ _ _ Hl E) as [-> ->]. auto. }
    apply L in E as [E1 E2]; [|now rewrite !le_length]. apply le4_inj in E1; [|assumption|assumption]. apply le4_inj in E2; [|assumption|assumption]. congruence.
  - intros E. inversion Wa; inversion Wb; subst. apply app_inv_head in E. unfold hu8 in E. cbn [le_bytes app] in E. injection E as E1 E2 E3 E4.
    rewrite !Z.mod_small in * by lia. apply Hne. f_equal; lia.
  - congruence.
Qed.
(** A number has the bytes of a range. *)
Theorem hash_collides i w : exists lo hi, value_wf (VRange (Fn := mfn) lo hi) /\
  snd (call (str "hash") [VInt i] w) = snd (call (str "hash") [VRange lo hi] w).
Proof.
  exists (wrap32 i), (wrap32 (i / 2 ^ 32)). split; [constructor; apply wrap32_range|].
  eapply hash_same; [reflexivity|cbn [hash_items]|discriminate|discriminate|exact I|exact I].
  unfold hi64, hi32. change (le_bytes 8 i) with (le_bytes (4 + 4) i). rewrite le_cat. f_equal. f_equal; apply le_same; change (2 ^ (8 * Z.of_nat 4))%Z with (2 ^ 32)%Z; symmetry; apply wrap32_mod.
Qed.
End Hash.

(** ** Random choices *)
Section Random.
Context (o : oracle) (fhash : mfn -> res (list hitem)).
Notation call := (console_call o mfi fhash).
Lemma randbool_gives w : exists b, snd (call (str "randbool") [] w) = Ok (VBool b).
Proof. eexists. reflexivity. Qed.
Lemma randbool_any b w : exists w', w_out w' = w_out w /\ snd (call (str "randbool") [] w') = Ok (VBool b).
Proof.
  exists (mkWorld (w_out w) (w_in w) (w_file w) (w_clock w) (w_reads w) (fun _ => if b then 1%N else 0%N) (w_float w) (w_draws w) (w_hash w)).
  split; [reflexivity|]. destruct b; reflexivity.
Qed.
Lemma rainbow_any m feq amax l size mx v w : std_call m o mfi feq amax (str "rainbow_colors") [] = Ok (VArray l size mx) -> In v l ->
  exists w', w_out w' = w_out w /\ snd (call (str "random_rainbow_color") [] w') = Ok v.
Proof.
  change (std_call m o mfi feq amax (str "rainbow_colors") []) with (@make_value_array mfn rainbow amax).
  intros H Hv. assert (l = rainbow) as ->.
  { revert H. rewrite ProofBuiltins2.make_array. destruct (_ <=? _)%N; congruence. }
  apply In_nth_error in Hv as [k Hk].
  exists (mkWorld (w_out w) (w_in w) (w_file w) (w_clock w) (w_reads w) (fun _ => N.of_nat k) (w_float w) (w_draws w) (w_hash w)).
  split; [reflexivity|]. change (call (str "random_rainbow_color") []) with (@b_random_rainbow_color mfn). unfold b_random_rainbow_color, draw_below. cbn [snd w_rand w_draws].
  assert (k < 10) by (change 10 with (length (@rainbow mfn)); apply nth_error_Some; congruence).
  replace (N.to_nat ((N.of_nat k mod 2 ^ 64) mod 10)) with k; [now rewrite Hk|]. rewrite !N.mod_small; try lia.
Qed.
End Random.

(** ** Equal closures *)
Definition same_cell (veq : value -> value -> res bool) (h : list upvalue) (u v : nat) : Prop :=
  (exists l, nth_error h u = Some (Open l) /\ nth_error h v = Some (Open l)) \/
  (exists x y, nth_error h u = Some (Closed x) /\ nth_error h v = Some (Closed y) /\ veq x y = Ok true).
Lemma cells_eq veq h : forall us vs, length us = length vs ->
  (up_list_eq veq h us vs = Ok true <-> Forall2 (same_cell veq h) us vs).
Proof.
  induction us as [|u us IH]; destruct vs as [|v vs]; intros Hl; try discriminate Hl.
  - split; intros; [constructor|reflexivity].
  - injection Hl as Hl. specialize (IH _ Hl). cbn [up_list_eq].
    destruct (nth_error h u) as [[l|x]|] eqn:Hu; destruct (nth_error h v) as [[r|y]|] eqn:Hv.
    + destruct (Nat.eqb_spec l r) as [->|Hn].
      * split; [intros H; constructor; [left; eauto|now apply IH]|intros H; inversion H; subst; now apply IH].
      * split; [discriminate|]. intros H. inversion H as [|? ? ? ? [(l0 & A & B)|(x & y & A & B & _)] _]; subst; rewrite Hu in A; rewrite Hv in B; congruence.
    + split; [discriminate|]. intros H. inversion H as [|? ? ? ? [(l0 & A & B)|(x & y0 & A & B & _)] _]; subst; rewrite Hu in A; rewrite Hv in B; congruence.
    + split; [discriminate|]. intros H. inversion H as [|? ? ? ? [(l0 & A & B)|(x & y0 & A & B & _)] _]; subst; congruence.
    + split; [discriminate|]. intros H. inversion H as [|? ? ? ? [(l0 & A & B)|(x0 & y0 & A & B & _)] _]; subst; congruence.
    + destruct (veq x y) as [[|]| |] eqn:He; cbn [rbind]; try (split; [discriminate|]; intros H; inversion H as [|? ? ? ? [(l0 & A & B)|(x0 & y0 & A & B & C)] _]; subst; rewrite Hu in A; rewrite Hv in B; congruence).
      split; [intros H; constructor; [right; eauto 6|now apply IH]|intros H; inversion H; subst; now apply IH].
    + split; [discriminate|]. intros H. inversion H as [|? ? ? ? [(l0 & A & B)|(x0 & y0 & A & B & _)] _]; subst; congruence.
    + split; [discriminate|]. intros H. inversion H as [|? ? ? ? [(l0 & A & B)|(x0 & y0 & A & B & _)] _]; subst; congruence.
    + split; [discriminate|]. intros H. inversion H as [|? ? ? ? [(l0 & A & B)|(x0 & y0 & A & B & _)] _]; subst; congruence.
    + split; [discriminate|]. intros H. inversion H as [|? ? ? ? [(l0 & A & B)|(x0 & y0 & A & B & _)] _]; subst; congruence.
Qed.
Lemma closures_eq d h a us b vs : fn_eq (S d) h (MClo a us) (MClo b vs) = Ok true <->
  function_eqb feqb false a b = true /\ Forall2 (same_cell (geqb (fn_eq d h)) h) us vs.
Proof.
  cbn [fn_eq]. destruct (function_eqb feqb false a b); cbn [negb]; [|split; [discriminate|intros [H _]; discriminate H]].
  destruct (Nat.eqb_spec (length us) (length vs)) as [Hl|Hl]; cbn [negb].
  - rewrite (cells_eq _ _ _ _ Hl). tauto.
  - split; [discriminate|]. intros [_ H]. exfalso. apply Hl. clear Hl. induction H; cbn [length]; congruence.
Qed.

(** What is fed to the hasher. *)
Lemma le_little k : forall z, little k z (le_bytes k z).
Proof.
  induction k as [|k IH]; intros z.
  - exists []. repeat split; auto. cbn [fold_right]. change (8 * Z.of_nat 0)%Z with 0%Z. now rewrite Z.mod_1_r.
  - destruct (IH (z / 256)%Z) as (bs & E & Hl & Hb & Hf). exists (Z.to_N (z mod 256) :: bs). cbn [le_bytes map length fold_right].
    split; [now rewrite E|]. split; [auto|]. split; [constructor; [|exact Hb]; pose proof (Z.mod_pos_bound z 256); lia|].
    rewrite Hf. replace (8 * Z.of_nat (S k))%Z with (8 + 8 * Z.of_nat k)%Z by lia. rewrite Z.pow_add_r by lia. change (2 ^ 8)%Z with 256%Z.
    rewrite Z.rem_mul_r by lia. rewrite Z2N.id by (apply Z.mod_pos_bound; lia). reflexivity.
Qed.
Lemma hash_bytes o fhash (v : value) w : plainly_hashed v ->
  exists items, fed v items /\ snd (console_call o mfi fhash (str "hash") [v] w) = Ok (VInt (Z.of_N (w_hash w items mod 2 ^ 31))).
Proof.
  intros H.
  assert (K : exists items, fed v items /\ hash_items fhash v = Ok items).
  { induction H as [|[]| | | | | |a b _ (l & Fa & Ha) _ (k & Fb & Hb)].
    1-8: eexists; (split; [|reflexivity]); constructor; try apply le_little; apply (le_little 8 4).
    exists (l ++ k). split; [now constructor|]. cbn [hash_items]. rewrite Ha. cbn [rbind]. rewrite Hb. reflexivity. }
  destruct K as (items & HF & HI). exists items. split; [exact HF|].
  change (snd (console_call o mfi fhash (str "hash") [v] w)) with (snd (b_hash mfi fhash v w)). unfold b_hash. cbn [snd].
  rewrite HI. inversion H; reflexivity.
Qed.
