(** Dates, random numbers and hashes (C72-C74). *)
From Verif Require Import Base RleVec Pool Vecc Float NumText Value Ast Arith VmOps Args Builtins Compiler Vm Std Console
  SpecArith SpecBuiltins SpecReady SpecVm SpecEval SpecText SpecConsole ProofArith4 ProofBuiltins4 ProofText ProofVm
  ProofBuiltins3 ProofConsole3 ProofConsole4.
Ltac Zify.zify_post_hook ::= Z.div_mod_to_equations.

(** ** Dates *)
Lemma year_days y : (365 <= sum (month_days y) <= 366)%N.
Proof. unfold month_days, sum. cbn [fold_right]. destruct (leap y); lia. Qed.
Lemma calendar_start y m d : calendar 0 y m d -> y = 1970%N /\ m = 1%N /\ d = 1%N.
Proof.
  intros (k & -> & Hm & Hd & E). destruct k as [|k].
  2:{ exfalso. cbn [List.seq map] in E. unfold sum at 1 in E. cbn [fold_right] in E.
      pose proof (year_days (1970 + N.of_nat 0)). lia. }
  split; [reflexivity|]. destruct (N.eq_dec m 1) as [->|Hm1].
  - split; [reflexivity|]. change (N.to_nat 1 - 1) with 0 in E. cbn in E. lia.
  - exfalso. destruct (N.to_nat m - 1) as [|j] eqn:Ej; [lia|].
    cbn [List.seq map firstn month_days] in E. unfold sum in E. cbn [fold_right] in E. lia.
Qed.
Definition new_world : world :=
  mkWorld [] [] (fun _ => inr (str "no such file")) (fun _ => Some (0%N, 0%N)) 0 (fun _ => 0%N) (fun _ => fzero) 0
          (fun l => match l with [HBits (S754_zero true)] => 1%N | _ => match nth_error l 16 with Some (HByte 2) => 1%N | _ => 0%N end end).
Lemma date_wrong o fhash :
  exists t, snd (console_call o mfi fhash (str "date") [] new_world) = Ok (VString t) /\
    w_clock new_world (w_reads new_world) = Some (0%N, 0%N) /\
    forall y m d ty tm td rest, calendar 0 y m d ->
      decimal (Z.of_N y) ty -> decimal (Z.of_N m) tm -> decimal (Z.of_N d) td ->
      t <> ty ++ str "-" ++ tm ++ str "-" ++ td ++ rest.
Proof.
  exists (str "1970-0-0 0:0:0"). split; [vm_compute; reflexivity|]. split; [reflexivity|].
  intros y m d ty tm td rest Hc Hy Hm Hd. apply calendar_start in Hc as (-> & -> & ->).
  rewrite (decimal_unique _ _ _ Hy (decimal_int 1970)), (decimal_unique _ _ _ Hm (decimal_int 1)).
  vm_compute. intros [=].
Qed.

Lemma fltb_facts a b : fltb a b = true -> fleb b a = false /\ fleb a a = true.
Proof.
  unfold fltb, fleb, SFltb, SFleb.
  destruct a as [s|s| |s m e], b as [s'|s'| |s' m' e']; cbn; try discriminate; try (destruct s, s'; cbn; auto; discriminate);
    try (destruct s; cbn; auto; discriminate); try (destruct s'; cbn; auto; discriminate).
  all: destruct s; try destruct s'; cbn; try discriminate; rewrite ?Z.compare_refl; 
       change (Pos.compare_cont Eq) with Pos.compare; rewrite ?Pos.compare_refl; cbn; auto.
  all: rewrite (Z.compare_antisym e e'), (Pos.compare_antisym m m'); destruct (Z.compare e e'); cbn; try discriminate; auto;
    destruct (Pos.compare m m'); cbn; try discriminate; auto.
Qed.

(** ** Random numbers *)
Section Random.
Context (o : oracle) (fhash : mfn -> res (list hitem)).
Notation call := (console_call o mfi fhash).
Definition with_draws (n : N) (f : f64) (w : world) : world :=
  mkWorld (w_out w) (w_in w) (w_file w) (w_clock w) (w_reads w) (fun _ => n) (fun _ => f) (w_draws w) (w_hash w).

Lemma randint_gives a b w :
  match snd (call (str "randint") [VInt a; VInt b] w) with
  | Ok v => exists n, v = VInt n /\ (a <= n < b)%Z
  | Err e => (b <= a)%Z /\ e = EBuiltin (str "start must be less than end")
  | Panic => False
  end.
Proof.
  change (call (str "randint") [VInt a; VInt b] w) with (@b_randint mfn a b w).
  unfold b_randint, draw_below. destruct (Z.leb_spec b a); cbn [snd]; [split; [assumption|reflexivity]|].
  eexists. split; [reflexivity|]. assert (0 < Z.to_N (b - a))%N by lia.
  pose proof (N.mod_upper_bound (w_rand w (w_draws w)) (Z.to_N (b - a)) ltac:(lia)). lia.
Qed.
Lemma randint_any a b n w : (a <= n < b)%Z ->
  snd (call (str "randint") [VInt a; VInt b] (with_draws (Z.to_N (n - a)) fzero w)) = Ok (VInt n).
Proof.
  intros H. change (snd (@b_randint mfn a b (with_draws (Z.to_N (n - a)) fzero w)) = Ok (VInt n)).
  unfold b_randint, draw_below. destruct (Z.leb_spec b a); [lia|]. cbn [snd with_draws w_rand].
  do 2 f_equal. rewrite N.mod_small by lia. lia.
Qed.
Lemma randfloat_gives a b w : fltb a b = true -> f_finite (fsub b a) = true ->
  exists x, snd (call (str "randfloat") [VFloat a; VFloat b] w) = Ok (VFloat x) /\ fleb a x = true /\ fltb x b = true.
Proof.
  intros H1 H2. destruct (fltb_facts a b H1) as [H3 H4]. change (call (str "randfloat") [VFloat a; VFloat b] w) with (@b_randfloat mfn a b w).
  unfold b_randfloat, draw_float. rewrite H3, H1, H2. cbn [andb snd].
  destruct (fleb a _ && fltb _ b) eqn:E; eexists; (split; [reflexivity|]); [now apply andb_true_iff in E|auto].
Qed.
Lemma random_gives w :
  exists x, snd (call (str "random") [] w) = Ok (VFloat x) /\ fleb fzero x = true /\ fltb x f1 = true.
Proof.
  change (call (str "random") [] w) with (@b_random mfn w). unfold b_random, draw_float. cbn [snd].
  destruct (fleb fzero _ && fltb _ f1) eqn:E; eexists; (split; [reflexivity|]); [now apply andb_true_iff in E|].
  split; reflexivity.
Qed.
Lemma randbool_gives w : exists b, snd (call (str "randbool") [] w) = Ok (VBool b).
Proof. eexists. reflexivity. Qed.
Lemma randchoice_gives l size mx w :
  match snd (call (str "randchoice") [VArray l size mx] w) with
  | Ok v => In v l
  | Err e => l = [] /\ e = EBuiltin (str "list must not be empty")
  | Panic => False
  end.
Proof.
  change (call (str "randchoice") [VArray l size mx] w) with (@b_randchoice mfn l w).
  unfold b_randchoice, draw_below. destruct l as [|x l]; [split; reflexivity|]. cbn [snd].
  set (n := N.to_nat _). destruct (nth_error (x :: l) n) eqn:E; [now apply nth_error_In in E|].
  apply nth_error_None in E. subst n.
  pose proof (N.mod_upper_bound (w_rand w (w_draws w)) (N.of_nat (length (x :: l))) ltac:(cbn; lia)). lia.
Qed.
Lemma randchoice_any l size mx i v w : nth_error l i = Some v ->
  snd (call (str "randchoice") [VArray l size mx] (with_draws (N.of_nat i) fzero w)) = Ok v.
Proof.
  intros H. assert (Hi : i < length l) by (apply nth_error_Some; congruence).
  change (snd (@b_randchoice mfn l (with_draws (N.of_nat i) fzero w)) = Ok v).
  unfold b_randchoice, draw_below. destruct l as [|x l]; [cbn in Hi; lia|]. cbn [snd with_draws w_rand].
  rewrite N.mod_small by lia. now rewrite Nat2N.id, H.
Qed.
Lemma random_color_gives w : exists r g b,
  snd (call (str "random_color") [] w) = Ok (VColor r g b 255) /\ (r < 256)%N /\ (g < 256)%N /\ (b < 256)%N.
Proof.
  do 3 eexists. split; [reflexivity|]. unfold byte_at. repeat split; apply N.mod_upper_bound; lia.
Qed.
Lemma shiftr_byte r g b : (r < 256)%N -> (g < 256)%N -> (b < 256)%N ->
  byte_at 0 ((r + 256 * g + 65536 * b) mod 2 ^ 32) = r /\
  byte_at 8 ((r + 256 * g + 65536 * b) mod 2 ^ 32) = g /\
  byte_at 16 ((r + 256 * g + 65536 * b) mod 2 ^ 32) = b.
Proof.
  intros. rewrite N.mod_small by (change (2 ^ 32)%N with 4294967296%N; lia).
  unfold byte_at. rewrite !N.shiftr_div_pow2. change (2 ^ 0)%N with 1%N. change (2 ^ 8)%N with 256%N.
  change (2 ^ 16)%N with 65536%N. repeat split; lia.
Qed.
Lemma random_color_any r g b w : (r < 256)%N -> (g < 256)%N -> (b < 256)%N ->
  snd (call (str "random_color") [] (with_draws (r + 256 * g + 65536 * b) fzero w)) = Ok (VColor r g b 255).
Proof.
  intros Hr Hg Hb. destruct (shiftr_byte r g b Hr Hg Hb) as (E1 & E2 & E3).
  change (snd (@b_random_color mfn (with_draws (r + 256 * g + 65536 * b) fzero w)) = Ok (VColor r g b 255)).
  unfold b_random_color, draw_below. cbn [snd with_draws w_rand]. now rewrite E1, E2, E3.
Qed.
Fixpoint all_below (n : nat) (p : N -> bool) : bool :=
  match n with O => true | S k => p (N.of_nat k) && all_below k p end.
Lemma all_below_ok n p : all_below n p = true -> forall i, (i < N.of_nat n)%N -> p i = true.
Proof.
  induction n as [|n IH]; intros H i Hi; [lia|]. cbn [all_below] in H. apply andb_true_iff in H as [H1 H2].
  destruct (N.eq_dec i (N.of_nat n)) as [->|]; [assumption|]. apply IH; [assumption|lia].
Qed.
Lemma pastel_range n : (n < 256)%N -> (127 <= pastel n <= 255)%N.
Proof.
  intros H. assert (K : all_below 256 (fun n => (127 <=? pastel n) && (pastel n <=? 255))%N = true) by (vm_compute; reflexivity).
  pose proof (all_below_ok _ _ K n H) as E. cbv beta in E. apply andb_true_iff in E as [E1 E2].
  apply N.leb_le in E1, E2. lia.
Qed.
Lemma random_pastel_gives w : exists r g b,
  snd (call (str "random_pastel_color") [] w) = Ok (VColor r g b 255) /\
  (127 <= r <= 255)%N /\ (127 <= g <= 255)%N /\ (127 <= b <= 255)%N.
Proof.
  change (call (str "random_pastel_color") [] w) with (@b_random_pastel_color mfn w).
  unfold b_random_pastel_color, draw_below. cbn [snd].
  do 3 eexists. split; [reflexivity|].
  repeat split; apply pastel_range; unfold byte_at; apply N.mod_upper_bound; lia.
Qed.
Lemma rainbow_gives m feq amax w l size mx :
  std_call m o mfi feq amax (str "rainbow_colors") [] = Ok (VArray l size mx) ->
  exists v, snd (call (str "random_rainbow_color") [] w) = Ok v /\ In v l.
Proof.
  change (std_call m o mfi feq amax (str "rainbow_colors") []) with (@make_value_array mfn rainbow amax).
  intros H. assert (l = rainbow) as ->.
  { revert H. rewrite ProofBuiltins2.make_array. destruct (_ <=? _)%N; congruence. }
  change (call (str "random_rainbow_color") [] w) with (@b_random_rainbow_color mfn w).
  unfold b_random_rainbow_color, draw_below. cbn [snd]. set (n := N.to_nat _).
  destruct (nth_error rainbow n) as [v|] eqn:E; [exists v; split; [reflexivity|now apply nth_error_In in E]|].
  apply nth_error_None in E. subst n. exfalso.
  pose proof (N.mod_upper_bound (w_rand w (w_draws w) mod 2 ^ 64) 10 ltac:(lia)). cbn [rainbow length] in E. lia.
Qed.

(** ** Hashes *)
Lemma hash_range v w r : snd (call (str "hash") [v] w) = Ok r -> exists n, r = VInt n /\ (0 <= n < 2 ^ 31)%Z.
Proof.
  change (call (str "hash") [v] w) with (@b_hash mfn mfi fhash v w).
  intros H. assert (K : exists items, r = VInt (Z.of_N (w_hash w items mod 2 ^ 31))).
  { revert H. unfold b_hash. cbn [snd]. destruct v; try discriminate;
      match goal with |- context[hash_items ?a ?b] => destruct (hash_items a b) as [items| |]; cbn [rbind]; try discriminate end;
      intros [= <-]; now exists items. }
  destruct K as (items & ->). eexists. split; [reflexivity|].
  pose proof (N.mod_upper_bound (w_hash w items) (2 ^ 31) ltac:(discriminate)).
  change (2 ^ 31)%N with 2147483648%N in *. change (2 ^ 31)%Z with 2147483648%Z. lia.
Qed.
Lemma hash_refuses v w :
  match v with
  | VSpecial _ _ | VArray _ _ _ | VLoopCtx _ | VFn _ => snd (call (str "hash") [v] w) = Err (ECannotHash (ntype mfi v))
  | _ => True
  end.
Proof. destruct v; exact Logic.I || reflexivity. Qed.
Lemma feqb_same a b : feqb a b = true -> feqb a fzero = false -> a = b.
Proof.
  unfold feqb, SFeqb. destruct a as [s|s| |s m e], b as [s'|s'| |s' m' e']; cbn; try discriminate;
    try (destruct s; discriminate); try (destruct s'; discriminate); try (destruct s, s'; discriminate || reflexivity).
  intros H _. destruct s, s'; try discriminate; destruct (Z.compare_spec e e'); try discriminate; subst;
    destruct (Pos.compare_cont _ m m') eqn:E; try discriminate; apply Pos.compare_eq in E; now subst.
Qed.
Lemma plain_same feq (a : value) : forall b, plainly_hashed a -> geqb feq a b = Ok true -> a = b.
Proof.
  induction a using gvalue_rect'; intros w P HE; inversion P; subst; destruct w; cbn [geqb] in HE; try discriminate.
  - reflexivity.
  - injection HE as HE. apply eqb_prop in HE. now subst.
  - injection HE as HE. apply Z.eqb_eq in HE. now subst.
  - injection HE as HE. f_equal. now apply feqb_same.
  - injection HE as HE. apply andb_true_iff in HE as [H1 H2]. apply Z.eqb_eq in H1, H2. now subst.
  - injection HE as HE. rewrite !andb_true_iff in HE. destruct HE as [[[H1 H2] H3] H4]. apply N.eqb_eq in H1, H2, H3, H4. now subst.
  - injection HE as HE. apply seqb_eq in HE. now subst.
  - destruct (geqb feq a1 w1) as [[|]| |] eqn:E; cbn [rbind] in HE; try discriminate. f_equal; auto.
Qed.
Lemma hash_equal feq a b w : plainly_hashed a -> v_equal feq a b = Ok (VBool true) ->
  call (str "hash") [a] w = call (str "hash") [b] w.
Proof.
  intros P H. f_equal. f_equal. apply (plain_same feq); [assumption|].
  revert H. unfold v_equal. destruct (geqb feq a b) as [x| |]; cbn [rbind]; try discriminate. now intros [= ->].
Qed.
Lemma hash_given a w : plainly_hashed a -> exists n, snd (call (str "hash") [a] w) = Ok (VInt n).
Proof.
  intros P. assert (K : exists items, hash_items fhash a = Ok items).
  { induction P; cbn [hash_items]; try (eexists; reflexivity).
    destruct IHP1 as (x & ->), IHP2 as (y & ->). eexists. reflexivity. }
  destruct K as (items & K). change (call (str "hash") [a] w) with (@b_hash mfn mfi fhash a w). unfold b_hash. cbn [snd].
  destruct P; rewrite K; eexists; reflexivity.
Qed.
End Random.
