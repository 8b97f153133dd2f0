(** @get, @set, @slice, @len, number text (C45, C46, C48, C49). *)
From Verif Require Import Base Float NumText Vecc Value Ast Arith VmOps Args Builtins SpecArith ProofArith ProofArith4
  SpecBuiltins.
Ltac Zify.zify_post_hook ::= Z.div_mod_to_equations.

Section Core.
Context {Fn : Type} (o : oracle) (fi : fn_info Fn) (feq : Fn -> Fn -> res bool) (amax : N).
Notation val := (gvalue Fn).
Notation std m := (std_call m o fi feq amax).

Lemma make_array (l : list val) :
  make_value_array l amax =
    if (total_size l <=? amax)%N then Ok (VArray l (total_size l) amax) else Err EArrayTooLarge.
Proof.
  unfold make_value_array, vecc_try_new_from. change (sum_sizes get_size l) with (total_size l).
  destruct (N.ltb_spec amax (total_size l)), (N.leb_spec (total_size l) amax); try lia; reflexivity.
Qed.
Lemma force_array_spec (l : list val) : force_array l = VArray l (total_size l) (total_size l).
Proof. reflexivity. Qed.

Lemma list_param (v : val) l : items_of v = Some l -> convert fi PList v = Ok l.
Proof. destruct v; cbn; congruence. Qed.

Lemma upd_split {A} (l : list A) i x y : nth_error l i = Some y ->
  upd i x l = firstn i l ++ x :: skipn (S i) l /\ l = firstn i l ++ y :: skipn (S i) l /\
  length (firstn i l) = i.
Proof.
  revert i. induction l as [|z l IH]; intros [|i]; cbn [nth_error upd firstn app length]; try discriminate.
  - intros [= ->]; auto.
  - intros H. destruct (IH _ H) as (E1 & E2 & E3). change (skipn (S (S i)) (z :: l)) with (skipn (S i) l).
    rewrite E1, E3. split; [reflexivity|]. split; [now f_equal|reflexivity].
Qed.

Lemma get_call m v l i : items_of v = Some l ->
  std m (str "get") [v; VInt i] =
    let! idx := fix_index m i (length l) in
    match nth_error l idx with Some x => Ok x | None => Err (EIndexError i) end.
Proof.
  intros H. change (std m (str "get") [v; VInt i]) with (call fi _ (b_get m) [v; VInt i]).
  cbn [call take consume rbind fst snd]. rewrite (list_param _ _ H). reflexivity.
Qed.
Lemma set_call m v l i x : items_of v = Some l ->
  std m (str "set") [v; VInt i; x] =
    let! idx := fix_index m i (length l) in
    match nth_error l idx with
    | Some _ => make_value_array (upd idx x l) amax
    | None => Err (EIndexError i)
    end.
Proof.
  intros H. change (std m (str "set") [v; VInt i; x]) with (call fi _ (b_set m amax) [v; VInt i; x]).
  cbn [call take consume rbind fst snd]. rewrite (list_param _ _ H). reflexivity.
Qed.

(** The position of an index, for a release build or a non-negative index. *)
Lemma index_position m i len :
  fits64 i -> (Z.of_nat len < 2 ^ 63)%Z -> (m = Release \/ 0 <= i)%Z ->
  ((- Z.of_nat len <= i < Z.of_nat len)%Z /\
   exists k, fix_index m i len = Ok k /\ (k < len)%nat /\
     (Z.of_nat k = i \/ Z.of_nat k = Z.of_nat len + i /\ i < 0)%Z) \/
  (~ (- Z.of_nat len <= i < Z.of_nat len)%Z /\ fix_index m i len = Err (EIndexError i)).
Proof.
  intros Hi Hl Hm. unfold fits64 in Hi. destruct (Z_le_gt_dec 0 i) as [H|H].
  - rewrite fix_index_nonneg by lia. destruct (Z.ltb_spec i (Z.of_nat len)).
    + left. split; [lia|]. exists (Z.to_nat i). repeat split; lia.
    + right. split; [lia|reflexivity].
  - assert (m = Release) as -> by (destruct Hm; [auto|lia]). rewrite fix_index_release_neg by lia.
    destruct (Z.leb_spec (- Z.of_nat len) i).
    + left. split; [lia|]. exists (Z.to_nat (Z.of_nat len + i)). repeat split; lia.
    + right. split; [lia|reflexivity].
Qed.

Theorem get_spec m v l i :
  items_of v = Some l -> fits64 i -> (Z.of_nat (length l) < 2 ^ 63)%Z -> (m = Release \/ 0 <= i)%Z ->
  (in_bounds l i /\ exists x, is_index l i x /\ std m (str "get") [v; VInt i] = Ok x) \/
  (~ in_bounds l i /\ std m (str "get") [v; VInt i] = Err (EIndexError i)).
Proof.
  intros H Hi Hl Hm. rewrite (get_call _ _ _ _ H).
  destruct (index_position m i (length l) Hi Hl Hm) as [(Hb & k & -> & Hk & He)|[Hb ->]].
  - left. split; [exact Hb|]. destruct (nth_error l k) eqn:E; [|apply nth_error_None in E; lia].
    exists g. cbn [rbind]. rewrite E. split; [|reflexivity].
    unfold is_index. destruct He as [He|[He Hn]].
    + left. split; [lia|]. now rewrite <- He, Nat2Z.id.
    + right. split; [lia|]. now rewrite <- He, Nat2Z.id.
  - right. split; [exact Hb|reflexivity].
Qed.

Theorem set_spec m v l i x :
  items_of v = Some l -> fits64 i -> (Z.of_nat (length l) < 2 ^ 63)%Z -> (m = Release \/ 0 <= i)%Z ->
  (in_bounds l i /\ exists l', replaced l i x l' /\
     std m (str "set") [v; VInt i; x] =
       if (total_size l' <=? amax)%N then Ok (VArray l' (total_size l') amax) else Err EArrayTooLarge) \/
  (~ in_bounds l i /\ std m (str "set") [v; VInt i; x] = Err (EIndexError i)).
Proof.
  intros H Hi Hl Hm. rewrite (set_call _ _ _ _ _ H).
  destruct (index_position m i (length l) Hi Hl Hm) as [(Hb & k & -> & Hk & He)|[Hb ->]].
  - left. split; [exact Hb|]. destruct (nth_error l k) eqn:E; [|apply nth_error_None in E; lia].
    destruct (upd_split l k x _ E) as (E1 & E2 & E3).
    exists (upd k x l). cbn [rbind]. rewrite E, make_array. split; [|reflexivity].
    exists (firstn k l), g, (skipn (S k) l). split; [exact E2|]. split; [exact E1|].
    rewrite E3. lia.
  - right. split; [exact Hb|reflexivity].
Qed.

Lemma replaced_length {A} (l : list A) i x l' : replaced l i x l' -> length l' = length l.
Proof. intros (pre & y & post & -> & -> & _). rewrite !app_length. reflexivity. Qed.
Lemma replaced_index {A} (l : list A) i x l' : replaced l i x l' -> in_bounds l i -> is_index l' i x.
Proof.
  intros Hr. pose proof (replaced_length _ _ _ _ Hr) as HL.
  destruct Hr as (pre & y & post & -> & -> & H). unfold in_bounds, is_index. rewrite HL.
  intros Hb. rewrite app_length in *. cbn [length] in *.
  destruct (Z_le_gt_dec 0 i); [left|right].
  - split; [lia|]. replace (Z.to_nat i) with (length pre) by lia.
    rewrite nth_error_app2, Nat.sub_diag by lia. reflexivity.
  - split; [lia|]. replace (Z.to_nat _) with (length pre) by lia.
    rewrite nth_error_app2, Nat.sub_diag by lia. reflexivity.
Qed.
Lemma is_index_unique {A} (l : list A) i x y : is_index l i x -> is_index l i y -> x = y.
Proof. intros [[? H]|[? H]] [[? H']|[? H']]; try lia; congruence. Qed.

(** Reading back what was set. *)
Theorem get_set m v l i x w :
  items_of v = Some l -> fits64 i -> (Z.of_nat (length l) < 2 ^ 63)%Z -> (m = Release \/ 0 <= i)%Z ->
  std m (str "set") [v; VInt i; x] = Ok w ->
  std m (str "get") [w; VInt i] = Ok x.
Proof.
  intros H Hi Hl Hm. destruct (set_spec m v l i x H Hi Hl Hm) as [(Hb & l' & Hr & ->)|[_ ->]]; [|discriminate].
  destruct (total_size l' <=? amax)%N; [|discriminate]. intros [= <-].
  pose proof (replaced_length _ _ _ _ Hr) as HL.
  destruct (get_spec m (VArray l' (total_size l') amax) l' i eq_refl Hi ltac:(rewrite HL; exact Hl) Hm)
    as [(_ & y & Hy & ->)|[Hn _]].
  - f_equal. eapply is_index_unique; [exact Hy|]. eapply replaced_index; eauto.
  - exfalso. apply Hn. unfold in_bounds in *. now rewrite HL.
Qed.

(** The checked build aborts on every negative index that is in range. *)
Theorem get_debug v l i :
  items_of v = Some l -> fits64 i -> (Z.of_nat (length l) < 2 ^ 63)%Z -> (i < 0)%Z -> in_bounds l i ->
  std Debug (str "get") [v; VInt i] = Panic /\ forall x, std Debug (str "set") [v; VInt i; x] = Panic.
Proof.
  intros H Hi Hl Hn Hb. unfold fits64, in_bounds in *.
  split; [rewrite (get_call _ _ _ _ H)|intros x; rewrite (set_call _ _ _ _ _ H)];
    rewrite fix_index_debug_neg by lia;
    (destruct (Z.leb_spec (- Z.of_nat (length l)) i); [reflexivity|lia]).
Qed.

(** ** @slice *)
Lemma slice_call m v l a b : items_of v = Some l ->
  std m (str "slice") [v; VInt a; VInt b] = b_slice m l a b.
Proof.
  intros H. change (std m (str "slice") [v; VInt a; VInt b]) with (call fi _ (b_slice m) [v; VInt a; VInt b]).
  cbn [call take consume rbind fst snd]. rewrite (list_param _ _ H). reflexivity.
Qed.
Lemma slice_bound_spec m len x blame :
  (- 2 ^ 63 < x < 2 ^ 63)%Z -> (0 <= len < 2 ^ 63)%Z ->
  slice_bound m len x blame = if (x <? - len)%Z then Err (EIndexError blame) else Ok (position len x).
Proof.
  intros Hx Hl. unfold slice_bound, position. destruct (Z.ltb_spec x 0).
  - rewrite ov64_fits by (unfold fits64; lia). cbn [rbind].
    destruct (Z.ltb_spec len (- x)), (Z.ltb_spec x (- len)); try lia; auto.
    apply ov64_fits. unfold fits64; lia.
  - destruct (Z.ltb_spec x (- len)); [lia|reflexivity].
Qed.

(** Everything @slice does, but for the most negative integer. *)
Theorem slice_spec m v l a b :
  let len := Z.of_nat (length l) in
  items_of v = Some l -> (- 2 ^ 63 < a < 2 ^ 63)%Z -> (- 2 ^ 63 < b < 2 ^ 63)%Z -> (len < 2 ^ 63)%Z ->
  let r := std m (str "slice") [v; VInt a; VInt b] in
  ((a < - len)%Z -> r = Err (EIndexError a)) /\
  ((- len <= a)%Z -> (b < - len)%Z -> exists z, r = Err (EIndexError z)) /\
  ((- len <= a)%Z -> (- len <= b)%Z -> (position len b < position len a)%Z ->
     r = Err (EBuiltin (str "start index is greater than end index"))) /\
  ((- len <= a)%Z -> (- len <= b)%Z -> (position len a <= position len b <= len)%Z ->
     exists l', part l (position len a) (position len b) l' /\
       r = Ok (VArray l' (total_size l') (total_size l'))) /\
  ((- len <= a)%Z -> (position len a <= position len b)%Z -> (len < position len b)%Z -> r = Panic).
Proof.
  intros len H Ha Hb Hl r.
  assert (Er : r = b_slice m l a b) by (unfold r; now apply slice_call).
  clearbody r. subst r. unfold b_slice. fold len.
  rewrite !(slice_bound_spec m len a) by (unfold len in *; lia).
  destruct (Z.ltb_spec a (- len)) as [Ha'|Ha'].
  { cbn [rbind]. repeat split; intros; try lia; try reflexivity. }
  cbn [rbind]. split; [lia|].
  rewrite !(slice_bound_spec m len b) by (unfold len in *; lia).
  destruct (Z.ltb_spec b (- len)) as [Hb'|Hb'].
  { cbn [rbind]. split; [eauto|]. repeat split; intros; try lia.
    unfold position in *. destruct (Z.ltb_spec b 0); lia. }
  cbn [rbind]. split; [lia|].
  assert (Pa : (0 <= position len a < 2 ^ 63)%Z).
  { unfold position. destruct (Z.ltb_spec a 0); unfold len in *; lia. }
  assert (Pb : (0 <= position len b < 2 ^ 63)%Z).
  { unfold position. destruct (Z.ltb_spec b 0); unfold len in *; lia. }
  set (p := position len a) in *. set (q := position len b) in *. clearbody p q.
  destruct (Z.ltb_spec q p) as [Hpq|Hpq].
  { repeat split; intros; try lia; try reflexivity. }
  split; [lia|]. rewrite !to_u64_nonneg by lia. cbv zeta.
  destruct (N.ltb_spec (Z.to_N q) (Z.to_N p)); [lia|]. cbn [orb].
  destruct (N.ltb_spec (N.of_nat (length l)) (Z.to_N q)) as [Hq|Hq].
  { split; [unfold len in *; lia|reflexivity]. }
  split; [|unfold len in *; lia]. intros _ _ _.
  exists (firstn (Z.to_nat (q - p)) (skipn (Z.to_nat p) l)).
  replace (N.to_nat (Z.to_N q - Z.to_N p)) with (Z.to_nat (q - p)) by lia.
  replace (N.to_nat (Z.to_N p)) with (Z.to_nat p) by lia.
  split; [|reflexivity].
  exists (firstn (Z.to_nat p) l), (skipn (Z.to_nat (q - p)) (skipn (Z.to_nat p) l)).
  rewrite firstn_skipn, firstn_skipn, !firstn_length, skipn_length. unfold len in *.
  split; [reflexivity|lia].
Qed.

(** ** @len *)
Lemma len_call m v : std m (str "len") [v] = b_len fi v.
Proof. reflexivity. Qed.
Lemma ascii_slen s : ascii s -> slen s = N.of_nat (length s).
Proof.
  induction 1 as [|c s Hc Hs IH]; [reflexivity|]. unfold slen in *. cbn [fold_right length]. rewrite IH.
  unfold utf8_len. destruct (N.ltb_spec c 128); lia.
Qed.
Theorem len_spec (v : val) l :
  elements v = Some l -> (exists d s mx, v = VArray d s mx) \/ (exists s, v = VString s /\ ascii s) ->
  forall m, std m (str "len") [v] = Ok (VInt (Z.of_nat (length l))).
Proof.
  intros He Hv m. rewrite len_call. destruct Hv as [(d & s & mx & ->)|(s & -> & Hs)]; injection He as <-.
  - reflexivity.
  - cbn. rewrite (ascii_slen s Hs), map_length. do 2 f_equal. lia.
Qed.
Theorem len_index (v : val) l :
  elements v = Some l -> (exists d s mx, v = VArray d s mx) \/ (exists s, v = VString s /\ ascii s) ->
  (Z.of_nat (length l) < 2 ^ 63)%Z ->
  exists n, std Release (str "len") [v] = Ok (VInt n) /\
    forall i, fits64 i -> ((exists x, v_index Release fi (VInt i) v = Ok x) <-> (- n <= i < n)%Z).
Proof.
  intros He Hv Hl. exists (Z.of_nat (length l)). split; [now apply len_spec|].
  intros i Hi. destruct (index_release fi i v l Hi He Hl) as [(Hb & x & _ & ->)|(Hb & ->)];
    unfold in_bounds in Hb; split; intros; try lia; eauto.
  destruct H; discriminate.
Qed.

(** ** Text of integers *)
Theorem int_str m z : fits64 z ->
  exists t, std m (str "str") [VInt z] = Ok (VString t) /\ std m (str "int") [VString t] = Ok (VInt z).
Proof.
  intros H. exists (int_text z). split; [reflexivity|].
  change (std m (str "int") [VString (int_text z)]) with (b_int fi (VString (int_text z))).
  unfold b_int, parse_i64. rewrite parse_int_text by (unfold fits64, i64_min, i64_max in *; lia). reflexivity.
Qed.
Theorem radix_str m name radix z :
  In (name, radix) [(str "bin", 2%Z); (str "oct", 8%Z); (str "hex", 16%Z)] -> (0 <= z < 2 ^ 63)%Z ->
  exists t ds, std m name [VInt z] = Ok (VString t) /\
    t = map digit_text ds /\ digits_of radix ds z /\
    std m (str "int_from_radix") [VString t; VInt radix] = Ok (VInt z).
Proof.
  intros Hin Hz. exists (radix_text (Z.to_N radix) (Z.to_N z)).
  assert (HR : (2 <= Z.to_N radix <= 36)%N /\ (2 <= radix <= 36)%Z).
  { destruct Hin as [H|[H|[H|[]]]]; injection H as <- <-; lia. }
  destruct (radix_text_digits (Z.to_N radix) (Z.to_N z) (proj1 HR)) as (ds & E & Hd).
  rewrite !Z2N.id in Hd by lia. exists ds. split; [|split; [exact E|split; [exact Hd|]]].
  - assert (Hc : std m name [VInt z] = Ok (VString (radix_text (Z.to_N radix) (to_u64 z)))).
    { destruct Hin as [H|[H|[H|[]]]]; injection H as <- <-; reflexivity. }
    rewrite Hc, to_u64_nonneg by lia. reflexivity.
  - clear Hin. set (t := radix_text _ _).
    change (std m (str "int_from_radix") [VString t; VInt radix])
      with (b_int_from_radix (Fn := Fn) t (wrap32 radix)).
    unfold b_int_from_radix. rewrite wrap32_id by lia.
    destruct (Z.ltb_spec radix 2); [lia|]. destruct (Z.ltb_spec 36 radix); [lia|]. cbn [orb].
    replace (to_u32 radix) with (Z.to_N radix) by (unfold to_u32; lia).
    unfold parse_i64, t. rewrite parse_radix_text by (unfold i64_min, i64_max; lia).
    rewrite Z2N.id by lia. reflexivity.
Qed.
Theorem radix_negative m :
  exists z t, fits64 z /\ std m (str "bin") [VInt z] = Ok (VString t) /\
    std m (str "int_from_radix") [VString t; VInt 2] = Err (EParseError t (str "int")).
Proof.
  exists (-1)%Z, (repeat 49%N 64). split; [unfold fits64; lia|]. split; vm_compute; reflexivity.
Qed.
End Core.
