From Verif Require Import Base RleVec Pool Vecc Bluff SpecContainers ContainerHist.

(** * RleVec *)
Section RleProof.
Context {T : Type} (teqb : T -> T -> bool) (teqb_ok : forall a b, teqb a b = true <-> a = b).

Definition expand (r : rle T) : list T := flat_map (fun p => repeat (snd p) (fst p)) r.

Lemma repeat_app_add (v : T) a b : repeat v (a + b) = repeat v a ++ repeat v b.
Proof. induction a as [|a IH]; cbn; congruence. Qed.

Lemma rle_push_n_cons x y r v n :
  rle_push_n teqb (x :: y :: r) v n = x :: rle_push_n teqb (y :: r) v n.
Proof. destruct x; reflexivity. Qed.

Lemma expand_push_n r v n : expand (rle_push_n teqb r v n) = expand r ++ repeat v n.
Proof.
  induction r as [|[c l] r IH].
  - cbn. rewrite app_nil_r; reflexivity.
  - destruct r as [|y r].
    + cbn [rle_push_n]. destruct (teqb l v) eqn:E.
      * apply teqb_ok in E; subst. cbn. rewrite repeat_app_add, !app_nil_r; reflexivity.
      * cbn. rewrite !app_nil_r; reflexivity.
    + rewrite rle_push_n_cons. cbn [expand flat_map fst snd] in *.
      unfold expand in IH. cbn [flat_map] in IH. rewrite IH, app_assoc; reflexivity.
Qed.

Lemma expand_run_from ops r :
  expand (fold_left (rle_step teqb) ops r) = fold_left append_plain ops (expand r).
Proof.
  revert r; induction ops as [|o ops IH]; intros r; cbn [fold_left]; auto.
  rewrite IH. f_equal. destruct o; cbn [rle_step append_plain]; unfold rle_push;
    rewrite expand_push_n; reflexivity.
Qed.

Lemma expand_run ops : expand (rle_run teqb ops) = append_plain_all ops.
Proof. unfold rle_run, append_plain_all. rewrite expand_run_from. reflexivity. Qed.

Lemma rle_len_expand r : rle_len r = length (expand r).
Proof using. clear teqb teqb_ok.
  induction r as [|[c v] r IH]; cbn; auto.
  rewrite app_length, repeat_length. unfold rle_len, expand in IH. rewrite <- IH. reflexivity.
Qed.

Lemma nth_error_repeat_lt (v : T) n i : i < n -> nth_error (repeat v n) i = Some v.
Proof using. clear teqb teqb_ok. revert i; induction n as [|n IH]; intros [|i] H; cbn; try lia; auto. apply IH; lia. Qed.

Lemma rle_get_expand r i : rle_get r i = nth_error (expand r) i.
Proof using. clear teqb teqb_ok.
  revert i; induction r as [|[c v] r IH]; intros i; cbn [rle_get expand flat_map fst snd].
  - destruct i; reflexivity.
  - destruct (Nat.ltb_spec i c) as [H|H].
    + rewrite nth_error_app1 by (rewrite repeat_length; lia).
      rewrite nth_error_repeat_lt; auto.
    + rewrite nth_error_app2 by (rewrite repeat_length; lia).
      rewrite repeat_length. apply IH.
Qed.

(** Stored runs are non-empty and neighbours differ. *)
Fixpoint rle_wf (r : rle T) : Prop :=
  match r with
  | [] => True
  | (c, v) :: r' => c <> 0 /\ match r' with [] => True | (_, w) :: _ => teqb v w = false end /\ rle_wf r'
  end.

Lemma rle_wf_push_n r v n : n <> 0 -> rle_wf r -> rle_wf (rle_push_n teqb r v n).
Proof.
  intros Hn; induction r as [|[c l] r IH]; intros H.
  - cbn; auto.
  - destruct r as [|[c2 l2] r].
    + cbn [rle_push_n]. destruct (teqb l v) eqn:E; cbn in *; intuition lia.
    + rewrite rle_push_n_cons. destruct H as (H1 & H2 & H3). specialize (IH H3).
      destruct (rle_push_n teqb ((c2, l2) :: r) v n) as [|[c3 l3] r3] eqn:E3.
      * cbn. auto.
      * cbn [rle_wf]. split; [exact H1|]. split; [|exact IH].
        destruct r as [|y r].
        -- cbn [rle_push_n] in E3. destruct (teqb l2 v); injection E3 as <- <- _; exact H2.
        -- rewrite rle_push_n_cons in E3. injection E3 as <- <- _; exact H2.
Qed.

Lemma rle_wf_run ops : forallb never_zero ops = true -> rle_wf (rle_run teqb ops).
Proof.
  unfold rle_run. assert (H0 : rle_wf rle_new) by exact I. revert H0. generalize (@rle_new T) as r.
  induction ops as [|o ops IH]; intros r Hr H; cbn [fold_left forallb] in *; auto.
  apply andb_true_iff in H as [H1 H2]. apply IH; auto.
  destruct o; cbn [rle_step never_zero] in *; apply rle_wf_push_n; auto.
  destruct n; cbn in H1; congruence.
Qed.

Lemma runs_repeat v n l : n <> 0 ->
  runs teqb (repeat v n ++ l) =
  1 + match l with [] => 0 | y :: _ => (if teqb v y then 0 else 1) + runs teqb l - 1 end.
Proof.
  intros Hn. assert (Hr : teqb v v = true) by (apply teqb_ok; reflexivity).
  induction n as [|n IH]; [congruence|]. destruct n as [|n].
  - cbn [repeat app]. destruct l as [|y l]; [reflexivity|].
    assert (H1 : 1 <= runs teqb (y :: l)).
    { clear. revert y; induction l as [|z l IH]; intros y; [cbn; lia|].
      specialize (IH z). change (1 <= (if teqb y z then 0 else 1) + runs teqb (z :: l)). lia. }
    change ((if teqb v y then 0 else 1) + runs teqb (y :: l)
            = 1 + ((if teqb v y then 0 else 1) + runs teqb (y :: l) - 1)). lia.
  - specialize (IH ltac:(lia)).
    change (repeat v (S (S n)) ++ l) with (v :: v :: (repeat v n ++ l)).
    change (repeat v (S n) ++ l) with (v :: (repeat v n ++ l)) in IH.
    cbn [runs] in IH |- *. rewrite Hr. cbn [Nat.add]. exact IH.
Qed.

Lemma expand_first r : rle_wf r -> first_opt (expand r) = rle_first r.
Proof. destruct r as [|[c v] r]; cbn; auto. intros (H & _). destruct c; [congruence|]; auto. Qed.

Lemma last_opt_app {A} (l1 l2 : list A) : l2 <> [] -> last_opt (l1 ++ l2) = last_opt l2.
Proof.
  intros H; induction l1 as [|x l1 IH]; auto. cbn [app last_opt].
  destruct (l1 ++ l2) eqn:E; [|exact IH]. apply app_eq_nil in E; tauto.
Qed.

Lemma last_opt_repeat (v : T) n : n <> 0 -> last_opt (repeat v n) = Some v.
Proof.
  induction n as [|n IH]; [congruence|]. intros _. destruct n; [reflexivity|].
  exact (IH ltac:(lia)).
Qed.

Lemma expand_last r : rle_wf r -> last_opt (expand r) = rle_last r.
Proof.
  induction r as [|[c v] r IH]; auto. intros (H1 & H2 & H3). destruct r as [|[c2 v2] r].
  - cbn. rewrite app_nil_r. apply last_opt_repeat; auto.
  - cbn [rle_last]. cbn [expand flat_map fst snd]. rewrite last_opt_app.
    + apply IH; auto.
    + destruct H3 as (H4 & _). destruct c2; cbn; congruence.
Qed.

Lemma expand_runs r : rle_wf r -> runs teqb (expand r) = rle_data_len r.
Proof.
  induction r as [|[c v] r IH]; auto. intros (H1 & H2 & H3).
  cbn [expand flat_map fst snd]. rewrite runs_repeat by auto.
  specialize (IH H3). unfold expand in IH. destruct r as [|[c2 v2] r]; [reflexivity|].
  cbn [flat_map fst snd] in *. destruct H3 as (H4 & _). destruct c2; [congruence|].
  cbn [repeat app] in *. rewrite H2. rewrite IH. unfold rle_data_len. cbn [length]. lia.
Qed.
End RleProof.

(** * Vecc *)
Section VeccProof.
Context {T : Type} (gsize : T -> N).

Lemma total_cons x l : total gsize (x :: l) = (gsize x + total gsize l)%N.
Proof. reflexivity. Qed.

Lemma total_nil : total gsize [] = 0%N.
Proof. reflexivity. Qed.

Lemma total_app l1 l2 : total gsize (l1 ++ l2) = (total gsize l1 + total gsize l2)%N.
Proof.
  induction l1 as [|x l1 IH]; [rewrite total_nil; reflexivity|].
  cbn [app]. rewrite !total_cons, IH. lia.
Qed.

Lemma total_rev l : total gsize (rev l) = total gsize l.
Proof.
  induction l as [|x l IH]; auto. cbn [rev]. rewrite total_app, IH, !total_cons, total_nil. lia.
Qed.

Lemma total_split i l x : nth_error l i = Some x ->
  total gsize l = (total gsize (firstn i l) + (gsize x + total gsize (skipn (S i) l)))%N.
Proof.
  revert i; induction l as [|y l IH]; intros [|i] H; cbn in H; try congruence.
  - injection H as ->. reflexivity.
  - cbn [firstn skipn]. specialize (IH _ H). rewrite !total_cons. cbn [skipn] in IH. lia.
Qed.

Lemma upd_firstn_skipn {A} i (x : A) l : i < length l -> upd i x l = firstn i l ++ x :: skipn (S i) l.
Proof.
  revert i; induction l as [|y l IH]; intros [|i] H; cbn in *; try lia; auto.
  f_equal. rewrite IH by lia. reflexivity.
Qed.

Lemma vecc_extend_fits v xs :
  vc_size v = total gsize (vc_data v) ->
  (total gsize (vc_data v) + total gsize xs <= vc_max v)%N ->
  vecc_extend gsize v xs =
    (mkVecc (vc_data v ++ xs) (total gsize (vc_data v ++ xs)) (vc_max v), Ok tt).
Proof.
  revert v; induction xs as [|x xs IH]; intros v Hs Hm.
  - cbn. rewrite app_nil_r, <- Hs. destruct v; reflexivity.
  - cbn [vecc_extend]. rewrite total_cons in Hm.
    assert (Hx : (vc_max v <? vc_size v + gsize x)%N = false) by lia.
    rewrite Hx. rewrite IH; cbn [vc_data vc_size vc_max].
    + rewrite <- app_assoc. reflexivity.
    + rewrite total_app, Hs, total_cons, total_nil. lia.
    + rewrite total_app, total_cons, total_nil. lia.
Qed.

Lemma usize_sub_ok m a b : (b <= a)%N -> usize_sub m a b = Ok (a - b)%N.
Proof. intros H; unfold usize_sub. destruct (N.leb_spec b a); auto; lia. Qed.

Lemma vecc_step_plain m max l o :
  (total gsize l <= max)%N -> plain_history gsize max l [o] = true ->
  let '(l', out) := vec_spec gsize max l o in
  (total gsize l' <= max)%N /\
  (out <> VAbort -> vecc_step gsize m (mkVecc l (total gsize l) max) o = (mkVecc l' (total gsize l') max, out)) /\
  (out = VAbort -> snd (vecc_step gsize m (mkVecc l (total gsize l) max) o) = VAbort).
Proof.
  intros Hle Hpl. destruct o as [x| |i x| |i|i x|xs|i|n]; cbn [vec_spec plain_history vecc_step] in *.
  - unfold vecc_push; cbn [vc_max vc_size vc_data].
    destruct (N.leb_spec (total gsize l + gsize x) max) as [H|H].
    + destruct (N.ltb_spec max (total gsize l + gsize x)); [lia|]. cbn [of_res_unit].
      rewrite total_app. rewrite total_cons, total_nil. replace (gsize x + 0)%N with (gsize x) by lia.
      split; [lia|]. split; auto; congruence.
    + destruct (N.ltb_spec max (total gsize l + gsize x)); [|lia]. split; [lia|]. split; auto; congruence.
  - unfold vecc_pop; cbn [vc_max vc_size vc_data]. destruct (rev l) as [|x r] eqn:E.
    + split; [auto|]. split; auto; congruence.
    + assert (Hl : l = rev r ++ [x]) by (rewrite <- (rev_involutive l), E; reflexivity).
      assert (Ht : total gsize l = (total gsize (rev r) + gsize x)%N).
      { rewrite Hl, total_app, total_cons, total_nil. lia. }
      rewrite usize_sub_ok by lia. cbn [of_res_opt]. split; [lia|]. split; [intros _|congruence].
      f_equal. f_equal. lia.
  - congruence.
  - cbn. split; [lia|]. split; auto; congruence.
  - unfold vecc_remove; cbn [vc_max vc_size vc_data]. destruct (nth_error l i) as [x|] eqn:E.
    + pose proof (total_split _ _ _ E) as Ht. rewrite usize_sub_ok by lia. cbn [of_res_item].
      unfold list_remove. rewrite total_app. split; [lia|]. split; [intros _|congruence].
      f_equal. f_equal. lia.
    + split; [auto|]. split; [congruence|auto].
  - unfold vecc_insert; cbn [vc_max vc_size vc_data].
    destruct (N.leb_spec (total gsize l + gsize x) max) as [H|H].
    + destruct (N.ltb_spec max (total gsize l + gsize x)); [lia|].
      destruct (Nat.leb_spec i (length l)).
      * cbn [of_res_unit]. unfold list_insert.
        assert (Ht : total gsize (firstn i l ++ x :: skipn i l) = (total gsize l + gsize x)%N).
        { rewrite total_app, total_cons.
          assert (total gsize l = total gsize (firstn i l) + total gsize (skipn i l))%N
            by (rewrite <- total_app, firstn_skipn; auto). lia. }
        rewrite Ht. split; [lia|]. split; auto; congruence.
      * cbn. split; [auto|]. split; [congruence|auto].
    + destruct (N.ltb_spec max (total gsize l + gsize x)); [|lia]. split; [lia|]. split; auto; congruence.
  - rewrite andb_true_r in Hpl. rewrite Hpl. rewrite vecc_extend_fits by (cbn [vc_size vc_data vc_max]; lia).
    cbn [vc_data vc_max of_res_unit]. split; [rewrite total_app; lia|]. split; auto; congruence.
  - unfold vecc_swap_remove; cbn [vc_max vc_size vc_data]. destruct (nth_error l i) as [x|] eqn:E.
    + destruct (rev l) as [|lst r] eqn:Er.
      { apply (f_equal (@rev T)) in Er. rewrite rev_involutive in Er. cbn in Er. subst l. destruct i; discriminate. }
      pose proof (total_split _ _ _ E) as Ht. rewrite usize_sub_ok by lia. cbn [of_res_item].
      unfold list_swap_remove. rewrite Er.
      assert (Hl : l = rev r ++ [lst]) by (rewrite <- (rev_involutive l), Er; reflexivity).
      assert (Hi : i < length l) by (apply nth_error_Some; congruence).
      assert (Hlen : length l = S (length r)) by (rewrite Hl, app_length, rev_length; cbn; lia).
      destruct (Nat.eqb_spec i (length r)) as [->|Hne].
      * assert (x = lst).
        { rewrite Hl in E. rewrite nth_error_app2 in E by (rewrite rev_length; lia).
          rewrite rev_length, Nat.sub_diag in E. cbn in E. congruence. }
        subst x. assert (total gsize l = (total gsize (rev r) + gsize lst)%N)
          by (rewrite Hl, total_app, total_cons, total_nil; lia).
        split; [lia|]. split; [intros _|congruence]. f_equal. f_equal. lia.
      * rewrite upd_firstn_skipn by (rewrite rev_length; lia).
        assert (Hx : nth_error (rev r) i = Some x).
        { rewrite Hl in E. rewrite nth_error_app1 in E by (rewrite rev_length; lia). exact E. }
        pose proof (total_split _ _ _ Hx) as Ht2.
        assert (total gsize l = (total gsize (rev r) + gsize lst)%N)
          by (rewrite Hl, total_app, total_cons, total_nil; lia).
        assert (Ht3 : total gsize (firstn i (rev r) ++ lst :: skipn (S i) (rev r))
                      = (total gsize l - gsize x)%N).
        { rewrite total_app, total_cons. lia. }
        rewrite Ht3. split; [lia|]. split; auto; congruence.
    + destruct (rev l); (split; [auto|]; split; [congruence|]; auto).
  - unfold vecc_truncate; cbn [vc_max vc_size vc_data].
    destruct (Nat.leb_spec n (length l)).
    + destruct (Nat.ltb_spec (length l) n); [lia|].
      assert (Ht : total gsize l = (total gsize (firstn n l) + total gsize (skipn n l))%N)
        by (rewrite <- total_app, firstn_skipn; auto).
      change (sum_sizes gsize (skipn n l)) with (total gsize (skipn n l)).
      rewrite usize_sub_ok by lia. cbn [of_res_unit]. split; [lia|]. split; [intros _|congruence].
      f_equal. f_equal. lia.
    + destruct (Nat.ltb_spec (length l) n); [|lia]. cbn. split; [auto|]. split; [congruence|auto].
Qed.

Lemma plain_history_cons max l o ops :
  plain_history gsize max l (o :: ops) = true ->
  plain_history gsize max l [o] = true /\
  plain_history gsize max (fst (vec_spec gsize max l o)) ops = true.
Proof.
  destruct o; cbn [plain_history]; try (intros H; split; [reflexivity|exact H]); try congruence.
  rewrite !andb_true_iff. intros [H1 H2]; auto.
Qed.

Lemma vecc_run_plain m max l ops :
  (total gsize l <= max)%N -> plain_history gsize max l ops = true ->
  let '(l', outs) := vec_spec_run gsize max l ops in
  snd (vecc_run gsize m (mkVecc l (total gsize l) max) ops) = outs /\
  (~ In VAbort outs ->
   fst (vecc_run gsize m (mkVecc l (total gsize l) max) ops) = mkVecc l' (total gsize l') max) /\
  (total gsize l' <= max)%N.
Proof.
  revert l; induction ops as [|o ops IH]; intros l Hle Hpl.
  - cbn. auto.
  - apply plain_history_cons in Hpl as [Hp1 Hp2].
    pose proof (vecc_step_plain m max l o Hle Hp1) as Hstep.
    cbn [vec_spec_run vecc_run]. destruct (vec_spec gsize max l o) as [l1 out] eqn:Es.
    destruct Hstep as (H1 & H2 & H3). cbn [fst] in Hp2. specialize (IH l1 H1 Hp2).
    destruct (vec_spec_run gsize max l1 ops) as [l2 outs] eqn:E2. destruct IH as (I1 & I2 & I3).
    destruct out as [|x| |];
      try (rewrite H2 by congruence;
           destruct (vecc_run gsize m (mkVecc l1 (total gsize l1) max) ops) as [v2 outs2] eqn:E3;
           cbn [fst snd] in *; split; [congruence|]; split; [|exact I3];
           intros Hin; apply I2; intros H; apply Hin; right; exact H).
    specialize (H3 eq_refl). destruct (vecc_step gsize m _ o) as [v1 out1]. cbn [snd] in H3. subst out1.
    cbn [fst snd]. split; auto. split; auto. intros Hin; exfalso; apply Hin; left; reflexivity.
Qed.

(** Constructors establish the invariant. *)
Lemma vecc_try_new_from_spec data max :
  vecc_try_new_from gsize data max =
    if (total gsize data <=? max)%N then Ok (mkVecc data (total gsize data) max) else Err EArrayTooLarge.
Proof.
  unfold vecc_try_new_from. change (sum_sizes gsize data) with (total gsize data). cbn zeta.
  destruct (N.ltb_spec max (total gsize data)), (N.leb_spec (total gsize data) max); auto; lia.
Qed.
End VeccProof.

(** * Bluff *)
Section BluffProof.
Context {T : Type}.

Definition bluff_abs (b : bluff T) (s : list T) : Prop :=
  b_idx b <= length (b_data b) /\ rev (firstn (b_idx b) (b_data b)) = s.

Lemma firstn_S_nth {A} n (l : list A) x : nth_error l n = Some x -> firstn (S n) l = firstn n l ++ [x].
Proof.
  revert n; induction l as [|y l IH]; intros [|n] H; cbn in H; try congruence.
  - injection H as ->; reflexivity.
  - change (y :: firstn (S n) l = y :: (firstn n l ++ [x])). rewrite (IH _ H). reflexivity.
Qed.

Lemma firstn_upd {A} i n (x : A) l : n <= i -> firstn n (upd i x l) = firstn n l.
Proof.
  revert i n; induction l as [|y l IH]; intros [|i] [|n] H; cbn [upd firstn]; auto; try lia.
  f_equal. apply IH; lia.
Qed.

Lemma bluff_push_abs b s x : bluff_abs b s ->
  exists b', bluff_push b x = Ok b' /\ bluff_abs b' (x :: s).
Proof.
  intros [Hle Hs]. unfold bluff_push.
  destruct (Nat.eqb_spec (b_idx b) (length (b_data b))) as [He|Hne].
  - eexists; split; [reflexivity|]. split; cbn [b_idx b_data].
    + rewrite app_length; cbn; lia.
    + rewrite firstn_app. replace (S (b_idx b) - length (b_data b)) with 1 by lia.
      rewrite firstn_all2 by lia. rewrite rev_app_distr.
      rewrite <- Hs, He, firstn_all. reflexivity.
  - destruct (Nat.ltb_spec (b_idx b) (length (b_data b))); [|lia].
    eexists; split; [reflexivity|]. split; cbn [b_idx b_data].
    + rewrite upd_length; lia.
    + rewrite (firstn_S_nth _ _ x) by (apply nth_error_upd_eq; lia).
      rewrite rev_app_distr. cbn. rewrite firstn_upd by lia. rewrite Hs. reflexivity.
Qed.

Lemma bluff_step_abs b s o : bluff_abs b s ->
  bluff_abs (fst (bluff_step b o)) (fst (stack_spec s o)) /\
  snd (bluff_step b o) = snd (stack_spec s o).
Proof.
  intros H. pose proof H as [Hle Hs]. destruct o as [x| | |x| | |]; cbn [bluff_step stack_spec].
  - destruct (bluff_push_abs b s x H) as (b' & E & Hb'). rewrite E. cbn; auto.
  - unfold bluff_pop. destruct (b_idx b) as [|i] eqn:Ei.
    + cbn in Hs. subst s. cbn. auto.
    + destruct (nth_error (b_data b) i) as [x|] eqn:En.
      2:{ apply nth_error_None in En. lia. }
      rewrite (firstn_S_nth _ _ _ En), rev_app_distr in Hs. cbn in Hs. subst s. cbn.
      split; auto. split; cbn; [lia|auto].
  - split; auto. unfold bluff_peek. destruct (b_idx b) as [|i] eqn:Ei.
    + cbn in Hs. subst s. reflexivity.
    + destruct (nth_error (b_data b) i) as [x|] eqn:En.
      2:{ apply nth_error_None in En. lia. }
      rewrite (firstn_S_nth _ _ _ En), rev_app_distr in Hs. cbn in Hs. subst s. reflexivity.
  - unfold bluff_init. destruct (bluff_push_abs (mkBluff (b_data b) 0) [] x) as (b' & E & Hb').
    { split; cbn; [lia|auto]. }
    rewrite E. cbn; auto.
  - cbn. split; auto. split; cbn; [lia|auto].
  - cbn. split; auto. unfold bluff_len. f_equal. rewrite <- Hs, rev_length, firstn_length. lia.
  - cbn. split.
    + split; cbn; [lia|auto].
    + destruct (Nat.leb_spec (b_idx b) (length (b_data b))); [|lia]. f_equal.
      rewrite <- Hs, rev_involutive. reflexivity.
Qed.

Lemma bluff_run_abs b s ops : bluff_abs b s -> bluff_run b ops = stack_spec_run s ops.
Proof.
  revert b s; induction ops as [|o ops IH]; intros b s H; auto.
  cbn [bluff_run stack_spec_run]. pose proof (bluff_step_abs b s o H) as [H1 H2].
  destruct (bluff_step b o) as [b' out], (stack_spec s o) as [s' out']. cbn [fst snd] in *.
  subst out'. f_equal. apply IH; auto.
Qed.
End BluffProof.

(** * Pool *)
Section PoolProof.
Context {V : Type} (veqb : V -> V -> bool) (veqb_ok : forall a b, veqb a b = true <-> a = b).

(** The map from values to ids agrees with the positions of the entries. *)
Definition pool_inv (p : pool V) : Prop :=
  NoDup (p_entries p) /\
  forall v, alookup veqb v (p_dups p) = option_map pool_id_from (index_of veqb v (p_entries p)).

Lemma veqb_refl v : veqb v v = true.
Proof. apply veqb_ok; reflexivity. Qed.

Lemma index_of_app_l v l1 l2 i : index_of veqb v l1 = Some i -> index_of veqb v (l1 ++ l2) = Some i.
Proof.
  revert i; induction l1 as [|x l1 IH]; intros i; cbn; [congruence|].
  destruct (veqb v x); auto. destruct (index_of veqb v l1) as [j|]; cbn; [|congruence].
  intros [= <-]. rewrite (IH j); auto.
Qed.

Lemma index_of_app_r v l1 l2 : index_of veqb v l1 = None ->
  index_of veqb v (l1 ++ l2) = option_map (Nat.add (length l1)) (index_of veqb v l2).
Proof.
  induction l1 as [|x l1 IH]; cbn; intros H.
  - destruct (index_of veqb v l2); auto.
  - destruct (veqb v x); [congruence|]. destruct (index_of veqb v l1); cbn in H; [congruence|].
    rewrite IH; auto. destruct (index_of veqb v l2); auto.
Qed.

Lemma index_of_None v l : index_of veqb v l = None <-> ~ In v l.
Proof.
  induction l as [|x l IH]; cbn; [tauto|]. destruct (veqb v x) eqn:E.
  - apply veqb_ok in E; subst. split; [congruence|]. intros H; exfalso; auto.
  - destruct (index_of veqb v l); cbn; split; try congruence.
    + intros H. destruct IH as [_ IH]. discriminate IH. tauto.
    + intros _ [<-|H]; [rewrite veqb_refl in E; congruence|]. apply IH; auto.
Qed.

Lemma index_of_nth v l i : index_of veqb v l = Some i -> nth_error l i = Some v.
Proof.
  revert i; induction l as [|x l IH]; intros i; cbn; [congruence|]. destruct (veqb v x) eqn:E.
  - apply veqb_ok in E; subst. intros [= <-]; auto.
  - destruct (index_of veqb v l) as [j|]; cbn; [|congruence]. intros [= <-]. cbn. apply IH; auto.
Qed.

Lemma index_of_lt v l i : index_of veqb v l = Some i -> i < length l.
Proof. intros H. apply nth_error_Some. rewrite (index_of_nth _ _ _ H). congruence. Qed.

Lemma index_of_unique v l i : NoDup l -> nth_error l i = Some v -> index_of veqb v l = Some i.
Proof.
  intros Hnd Hi. destruct (index_of veqb v l) as [j|] eqn:E.
  - f_equal. pose proof (index_of_nth _ _ _ E) as Hj. eapply NoDup_nth_error; eauto.
    + eapply index_of_lt; eauto.
    + congruence.
  - apply index_of_None in E. exfalso. apply E. eapply nth_error_In; eauto.
Qed.

Lemma pool_new_inv : pool_inv pool_new.
Proof. split; [constructor|]. reflexivity. Qed.

Lemma NoDup_snoc {A} (l : list A) x : NoDup l -> ~ In x l -> NoDup (l ++ [x]).
Proof.
  induction l as [|y l IH]; intros H1 H2; cbn; [repeat constructor; auto|].
  inversion H1; subst. constructor.
  - rewrite in_app_iff. cbn in *. intuition.
  - apply IH; auto. cbn in H2. tauto.
Qed.

Lemma pool_add_inv p v : pool_inv p -> pool_inv (fst (pool_add veqb p v)).
Proof.
  intros [Hnd Hd]. unfold pool_add. rewrite Hd.
  destruct (index_of veqb v (p_entries p)) as [i|] eqn:E; cbn [option_map fst]; [split; auto|].
  unfold pool_add_force; cbn [fst]. split; cbn [p_entries p_dups].
  - apply NoDup_snoc; auto. apply index_of_None; auto.
  - intros w. unfold ainsert. cbn [alookup]. destruct (veqb w v) eqn:Ew.
    + apply veqb_ok in Ew; subst w. rewrite index_of_app_r by auto. cbn [index_of].
      rewrite veqb_refl. cbn [option_map]. rewrite Nat.add_0_r. reflexivity.
    + rewrite Hd. destruct (index_of veqb w (p_entries p)) as [j|] eqn:Ej.
      * rewrite (index_of_app_l _ _ _ _ Ej). reflexivity.
      * rewrite index_of_app_r by auto. cbn [index_of]. rewrite Ew. reflexivity.
Qed.

Lemma existsb_index v l : existsb (veqb v) l = match index_of veqb v l with Some _ => true | None => false end.
Proof.
  induction l as [|x l IH]; cbn; auto. destruct (veqb v x); auto. cbn. rewrite IH.
  destruct (index_of veqb v l); reflexivity.
Qed.

Definition dedup_from (acc vs : list V) : list V :=
  fold_left (fun acc v => if existsb (veqb v) acc then acc else acc ++ [v]) vs acc.

Lemma dedup_from_cons acc v vs :
  dedup_from acc (v :: vs) = dedup_from (if existsb (veqb v) acc then acc else acc ++ [v]) vs.
Proof. reflexivity. Qed.

Lemma dedup_from_ext acc vs : exists ext, dedup_from acc vs = acc ++ ext.
Proof.
  revert acc; induction vs as [|v vs IH]; intros acc.
  - exists []. rewrite app_nil_r; reflexivity.
  - rewrite dedup_from_cons. destruct (existsb (veqb v) acc); [apply IH|].
    destruct (IH (acc ++ [v])) as [ext E]. exists (v :: ext).
    rewrite E, <- app_assoc. reflexivity.
Qed.

Lemma pool_adds_spec p vs : pool_inv p ->
  let '(p', ids) := pool_adds veqb p vs in
  pool_inv p' /\ p_entries p' = dedup_from (p_entries p) vs /\
  map Some ids = map (fun v => option_map pool_id_from (index_of veqb v (p_entries p'))) vs.
Proof.
  revert p; induction vs as [|v vs IH]; intros p Hp; cbn [pool_adds].
  - auto.
  - pose proof (pool_add_inv p v Hp) as Hp1.
    destruct (pool_add veqb p v) as [p1 id] eqn:Ea. cbn [fst] in Hp1. specialize (IH p1 Hp1).
    destruct (pool_adds veqb p1 vs) as [p2 ids] eqn:Eb. destruct IH as (I1 & I2 & I3).
    unfold pool_add in Ea. destruct Hp as [Hnd Hd]. rewrite Hd in Ea.
    assert (He : p_entries p1 = if existsb (veqb v) (p_entries p) then p_entries p else p_entries p ++ [v]).
    { rewrite existsb_index. destruct (index_of veqb v (p_entries p)); cbn [option_map] in Ea.
      - injection Ea as <- _; auto.
      - unfold pool_add_force in Ea. injection Ea as <- _; auto. }
    split; auto. split.
    + rewrite I2, He. reflexivity.
    + cbn [map]. rewrite I3. f_equal.
      destruct (dedup_from_ext (p_entries p1) vs) as [ext Ext]. rewrite I2, Ext.
      destruct (index_of veqb v (p_entries p)) as [i|] eqn:Ei; cbn [option_map] in Ea.
      * injection Ea as <- <-. rewrite (index_of_app_l _ _ _ _ Ei). reflexivity.
      * unfold pool_add_force in Ea. injection Ea as <- <-. cbn [p_entries].
        rewrite <- app_assoc. rewrite index_of_app_r by auto. cbn [app index_of].
        rewrite veqb_refl. cbn [option_map]. rewrite Nat.add_0_r. reflexivity.
Qed.

Lemma pool_id_from_small n : (N.of_nat n < 65536)%N -> pool_id_from n = N.of_nat n.
Proof. intros H. unfold pool_id_from, wrap16u. apply N.mod_small; auto. Qed.

(** The id returned for the i-th added value. *)
Lemma pool_adds_nth p vs i v id : pool_inv p ->
  nth_error vs i = Some v -> nth_error (snd (pool_adds veqb p vs)) i = Some id ->
  exists k, index_of veqb v (p_entries (fst (pool_adds veqb p vs))) = Some k /\ id = pool_id_from k.
Proof.
  intros Hp Hv Hid. pose proof (pool_adds_spec p vs Hp) as H.
  destruct (pool_adds veqb p vs) as [p' ids]. cbn [fst snd] in *. destruct H as (_ & _ & H).
  assert (H1 : nth_error (map Some ids) i = Some (Some id)) by (rewrite nth_error_map, Hid; auto).
  rewrite H, nth_error_map, Hv in H1. cbn in H1.
  destruct (index_of veqb v (p_entries p')) as [k|]; cbn in H1; [|congruence].
  exists k; split; congruence.
Qed.
End PoolProof.
