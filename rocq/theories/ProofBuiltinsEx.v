(** Combined statements and counterexamples about the builtins. *)
From Verif Require Import Base Float NumText Vecc Value Ast Arith VmOps Args Builtins SpecArith ProofArith
  ProofArith2 ProofArith3 SpecBuiltins ProofBuiltins ProofBuiltins2 ProofBuiltins3 ProofBuiltins4.
Ltac Zify.zify_post_hook ::= Z.div_mod_to_equations.

Section Ex.
Context {Fn : Type} (m : mode) (o : oracle) (fi : fn_info Fn) (feq : Fn -> Fn -> res bool) (amax : N).
Notation val := (gvalue Fn).
Notation std := (std_call m o fi feq amax).

(** ** C08 *)
Lemma total_app (a b : list val) : total_size (a ++ b) = (total_size a + total_size b)%N.
Proof.
  induction a as [|x a IH]; [reflexivity|].
  change (total_size ((x :: a) ++ b)) with (get_size x + total_size (a ++ b))%N.
  change (total_size (x :: a)) with (get_size x + total_size a)%N. rewrite IH. lia.
Qed.
Lemma part_total (l l' : list val) a b : part l a b l' -> (total_size l' <= total_size l)%N.
Proof. intros (pre & post & -> & _). rewrite !total_app. lia. Qed.
Definition sized (r : res val) : Prop :=
  match r with
  | Ok (VArray l s mx) => s = total_size l /\ (s <= amax)%N
  | Err e => True
  | _ => False
  end.
Lemma make_sized (l : list val) : sized (make_value_array l amax).
Proof. rewrite make_array. destruct (N.leb_spec (total_size l) amax); cbn; auto. Qed.
End Ex.

Theorem list_builtins_size (Fn : Type) m o (fi : fn_info Fn) feq amax name args l s mx :
  In name [str "set"; str "split"; str "rainbow_colors"] ->
  std_call m o fi feq amax name args = Ok (VArray l s mx) ->
  s = total_size l /\ (s <= amax)%N.
Proof.
  intros Hin H.
  assert (K : forall v : gvalue Fn, (exists d, make_value_array d amax = Ok v) ->
              v = VArray l s mx -> s = total_size l /\ (s <= amax)%N).
  { intros v [d Hd] ->. pose proof (make_sized amax d) as S. rewrite Hd in S. exact S. }
  eapply K; [|reflexivity]. clear K.
  destruct Hin as [<-|[<-|[<-|[]]]].
  - change (call fi _ (b_set m amax) args = Ok (VArray l s mx)) in H.
    destruct (call_exhaustive fi _ (b_set (Fn := Fn) m amax) args) as [(r & Hr)|(e & He)];
      [|rewrite (call_misfit fi _ _ _ _ He) in H; discriminate].
    rewrite (call_matches fi _ _ _ _ Hr) in H. subst r.
    cbn [matches] in Hr. destruct Hr as (x & ? & _ & y & ? & _ & z & ? & _ & _ & Hr).
    unfold b_set in Hr. destruct (fix_index m y (length x)) as [k| |]; cbn [rbind] in Hr; try discriminate.
    destruct (nth_error x k); [eauto|discriminate].
  - change (call fi _ (b_split amax) args = Ok (VArray l s mx)) in H.
    destruct (call_exhaustive fi _ (b_split (Fn := Fn) amax) args) as [(r & Hr)|(e & He)];
      [|rewrite (call_misfit fi _ _ _ _ He) in H; discriminate].
    rewrite (call_matches fi _ _ _ _ Hr) in H. subst r.
    cbn [matches] in Hr. destruct Hr as (x & ? & _ & [(_ & _ & Hr)|(_ & y & ? & _ & _ & Hr)]); unfold b_split in Hr; eauto.
  - change (call fi _ (b_rainbow_colors amax) args = Ok (VArray l s mx)) in H.
    destruct (call_exhaustive fi _ (b_rainbow_colors (Fn := Fn) amax) args) as [(r & Hr)|(e & He)];
      [|rewrite (call_misfit fi _ _ _ _ He) in H; discriminate].
    rewrite (call_matches fi _ _ _ _ Hr) in H. subst r.
    cbn [matches] in Hr. destruct Hr as [_ Hr]. unfold b_rainbow_colors in Hr. eauto.
Qed.
Theorem list_builtins_too_large (Fn : Type) m o (fi : fn_info Fn) feq :
  exists name args l s mx amax, std_call m o fi feq amax name args = Ok (VArray l s mx) /\
    s = total_size l /\ (amax < s)%N.
Proof.
  exists (str "chars"), [VString (str "abc")]. do 3 eexists. exists 2%N.
  split; [reflexivity|]. split; [reflexivity|vm_compute; reflexivity].
Qed.

(** ** C07 *)
Theorem join_unlimited (Fn : Type) m o (fi : fn_info Fn) feq amax smax : (0 < smax)%N ->
  exists s r, (slen s <= smax)%N /\
    std_call m o fi feq amax (str "join") [VPair (VString s) (VString s)] = Ok (VString r) /\
    (smax < slen r)%N.
Proof.
  intros H. set (s := copies (str "a") (N.to_nat smax)).
  assert (E : slen s = smax).
  { unfold s. rewrite slen_copies. change (slen (str "a")) with 1%N. lia. }
  exists s, (s ++ [] ++ s). split; [lia|]. split; [reflexivity|]. cbn [app]. rewrite slen_app. lia.
Qed.

(** ** C45 *)
Theorem get_set_debug (Fn : Type) o (fi : fn_info Fn) feq amax v l i :
  items_of v = Some l -> fits64 i -> (Z.of_nat (length l) < 2 ^ 63)%Z -> (i < 0)%Z -> in_bounds l i ->
  std_call Debug o fi feq amax (str "get") [v; VInt i] = Panic /\
  forall x, std_call Debug o fi feq amax (str "set") [v; VInt i; x] = Panic.
Proof. apply get_debug. Qed.

(** ** C46 *)
Theorem slice_panics (Fn : Type) m o (fi : fn_info Fn) feq amax :
  exists v l a b, items_of v = Some l /\ (0 <= a <= b)%Z /\ (b < 2 ^ 63)%Z /\
    std_call m o fi feq amax (str "slice") [v; VInt a; VInt b] = Panic.
Proof.
  exists (VArray [VNone] 1%N 10%N), [VNone], 0%Z, 2%Z. split; [reflexivity|]. split; [lia|]. split; [lia|].
  reflexivity.
Qed.

(** ** C48 *)
Theorem len_not_indices (Fn : Type) o (fi : fn_info Fn) feq amax :
  exists s n, std_call Release o fi feq amax (str "len") [VString s] = Ok (VInt n) /\
    exists i, (0 <= i < n)%Z /\ v_index Release fi (VInt i) (VString s) = Err (EIndexError i).
Proof. exists [233%N], 2%Z. split; [reflexivity|]. exists 1%Z. split; [lia|reflexivity]. Qed.
Theorem len_missing (Fn : Type) m o (fi : fn_info Fn) feq amax (v : gvalue Fn) :
  (exists a b, v = VPair a b) \/ is_color v ->
  exists e l, std_call m o fi feq amax (str "len") [v] = Err e /\ elements v = Some l /\ l <> [].
Proof.
  intros [(a & b & ->)|(r & g & b & a & ->)]; do 2 eexists; (split; [reflexivity|]);
    (split; [reflexivity|discriminate]).
Qed.

(** ** C60 *)
Theorem builtins_safe (Fn : Type) m o (fi : fn_info Fn) feq amax name args :
  std_call m o fi feq amax name args = Panic ->
  In name [str "get"; str "set"; str "slice"; str "assert_eq"; str "assert_ne"; str "abs"].
Proof.
  unfold std_call. destruct (alookup seqb name (std_list m o fi feq amax)) as [f|] eqn:E; [|discriminate].
  apply alookup_in in E. intros Hp.
  pose proof (std_calm m o fi feq amax) as HC. rewrite Forall_forall in HC.
  destruct (HC _ E) as [H|H]; [exact H|]. exfalso. exact (H args Hp).
Qed.
Theorem abs_spec (Fn : Type) m o (fi : fn_info Fn) feq amax z : fits64 z ->
  ((z <> - 2 ^ 63)%Z -> std_call m o fi feq amax (str "abs") [VInt z] = Ok (VInt (Z.abs z))) /\
  (z = (- 2 ^ 63)%Z -> std_call Debug o fi feq amax (str "abs") [VInt z] = Panic /\
                  std_call Release o fi feq amax (str "abs") [VInt z] = Ok (VInt z)).
Proof.
  intros Hz. unfold fits64 in Hz. split.
  - intros Hn. transitivity (let! z := ov64 m (Z.abs z) in @Ok (gvalue Fn) (VInt z)); [reflexivity|].
    rewrite ov64_fits by (unfold fits64; lia). reflexivity.
  - intros ->. split; reflexivity.
Qed.
(** A release build: only @slice, and the comparison of closures, can abort. *)
Theorem builtins_release (Fn : Type) o (fi : fn_info Fn) feq amax name args :
  Forall value_wf args -> (forall v, In v args -> forall l, items_of v = Some l -> (Z.of_nat (length l) < 2 ^ 63)%Z) ->
  std_call Release o fi feq amax name args = Panic ->
  In name [str "slice"; str "assert_eq"; str "assert_ne"].
Proof.
  intros Hwf Hlen Hp. pose proof (builtins_safe _ _ _ _ _ _ _ _ Hp) as Hin.
  assert (Hfit : forall v x, In v args -> accepts PInt v x -> fits64 x).
  { intros v x Hv Hx. rewrite Forall_forall in Hwf. specialize (Hwf v Hv).
    destruct v; cbn in Hx; try contradiction.
    - subst. now inversion Hwf.
    - apply to_int_iff in Hx; [|lia]. subst. unfold fits64, f_to_int.
      destruct f as [[]|[]| |[] p e]; lia. }
  assert (Hlist : forall v x, In v args -> accepts PList v x -> (Z.of_nat (length x) < 2 ^ 63)%Z).
  { intros v x Hv [(s & mx & ->)|(a & b & -> & ->)]; eapply Hlen; eauto; reflexivity. }
  assert (Hidx : forall i len, fits64 i -> (Z.of_nat len < 2 ^ 63)%Z -> fix_index Release i len <> Panic).
  { intros i len Hi Hl. destruct (index_position Release i len Hi Hl (or_introl eq_refl)) as [(_ & k & -> & _)|(_ & ->)];
      discriminate. }
  destruct Hin as [<-|[<-|[<-|[<-|[<-|[<-|[]]]]]]]; try (cbn; tauto); exfalso.
  - change (call fi _ (b_get (Fn := Fn) Release) args = Panic) in Hp.
    destruct (call_exhaustive fi _ (b_get (Fn := Fn) Release) args) as [(r & Hr)|(e & He)];
      [|rewrite (call_misfit fi _ _ _ _ He) in Hp; discriminate].
    rewrite (call_matches fi _ _ _ _ Hr) in Hp. subst r.
    destruct Hr as (x & r1 & (v & Ev & Hx) & y & r2 & (w & Ew & Hy) & _ & Hr).
    subst args. subst r1. unfold b_get in Hr.
    pose proof (Hidx y (length x) (Hfit w y ltac:(cbn; auto) Hy) (Hlist v x ltac:(cbn; auto) Hx)) as HI.
    destruct (fix_index Release y (length x)) as [k| |]; cbn [rbind] in Hr; try congruence.
    destruct (nth_error x k); discriminate.
  - change (call fi _ (b_set (Fn := Fn) Release amax) args = Panic) in Hp.
    destruct (call_exhaustive fi _ (b_set (Fn := Fn) Release amax) args) as [(r & Hr)|(e & He)];
      [|rewrite (call_misfit fi _ _ _ _ He) in Hp; discriminate].
    rewrite (call_matches fi _ _ _ _ Hr) in Hp. subst r.
    destruct Hr as (x & r1 & (v & Ev & Hx) & y & r2 & (w & Ew & Hy) & z & r3 & _ & _ & Hr).
    subst args. subst r1. unfold b_set in Hr.
    pose proof (Hidx y (length x) (Hfit w y ltac:(cbn; auto) Hy) (Hlist v x ltac:(cbn; auto) Hx)) as HI.
    destruct (fix_index Release y (length x)) as [k| |]; cbn [rbind] in Hr; try congruence.
    destruct (nth_error x k); [|discriminate]. symmetry in Hr. revert Hr. apply make_array_calm.
  - change (call fi _ (b_abs (Fn := Fn) Release fi) args = Panic) in Hp.
    destruct (call_exhaustive fi _ (b_abs (Fn := Fn) Release fi) args) as [(r & Hr)|(e & He)];
      [|rewrite (call_misfit fi _ _ _ _ He) in Hp; discriminate].
    rewrite (call_matches fi _ _ _ _ Hr) in Hp. subst r.
    destruct Hr as (x & r1 & _ & _ & Hr). unfold b_abs in Hr.
    destruct x as [| |z| | | | | | | | |]; try discriminate. destruct (ov64_release (Z.abs z)) as (w & Ew & _).
    rewrite Ew in Hr. discriminate.
Qed.
