(** The text of the program of ProofWrap.v (C01). *)
From Verif Require Import Base RleVec Pool Vecc Float NumText Bytecode Chunk Value Ast Arith VmOps Parse
  Compiler Vm SpecArith SpecParse SpecExpr SpecProg SpecReady SpecRel SpecVm SpecEval ProofText ProofRound ProofProg13 ProofArithEx ExProg ProofWrap.

(** "i;i+1;...;i+k" *)
Fixpoint number_lines (i k : nat) : rstring :=
  match k with
  | O => int_text (Z.of_nat i)
  | S k => int_text (Z.of_nat i) ++ str ";" ++ number_lines (S i) k
  end.
Fixpoint number_phrases (i k : nat) : list line :=
  match k with O => [] | S k => SValue (PLit (LInt (Z.of_nat i))) :: number_phrases (S i) k end.

Lemma nat_numeral i : numeral 10 (int_text (Z.of_nat i)) (Z.of_nat i).
Proof.
  apply decimal_numeral. pose proof (integer_shown (Z.of_nat i)) as H. unfold SpecText.integer_text in H.
  destruct (Z.ltb_spec (Z.of_nat i) 0); [lia|exact H].
Qed.
Lemma nat_starts i rest : exists c r, int_text (Z.of_nat i) ++ rest = c :: r /\ digit_c c.
Proof.
  destruct (nat_numeral i) as (ds & H & F & -> & _). destruct F as [|d ds Hd F]; [congruence|].
  cbn [map app]. eexists _, _. split; [reflexivity|].
  assert (Hn : Z.to_nat d < 10) by lia. unfold digit_c, digit_text.
  revert Hn. generalize (Z.to_nat d) as k. intros k Hk.
  do 10 (destruct k as [|k]; [cbn; lia|]). lia.
Qed.

Section Text.
Context (pf : rstring -> option f64).
Lemma number_line i : (Z.of_nat i < 2 ^ 63)%Z ->
  spelled_line pf (SValue (PLit (LInt (Z.of_nat i)))) (int_text (Z.of_nat i)).
Proof.
  intros H. constructor. apply sp_literal.
  - apply lt_integer; [apply it_decimal, nat_numeral|unfold i64_range; lia].
  - destruct (nat_starts i []) as (c & r & E & Hc). rewrite app_nil_r in E. rewrite E.
    cbn [SpecProg.starts]. intros ->. exfalso. revert Hc. unfold digit_c. lia.
Qed.
Lemma numbers_spelled k : forall i, (Z.of_nat (i + k) < 2 ^ 63)%Z ->
  spelled_lines pf (number_phrases i (S k)) (number_lines i k).
Proof.
  induction k as [|k IH]; intros i H; cbn [number_phrases number_lines].
  - rewrite <- (app_nil_r (int_text _)). apply so_last; [apply number_line; lia|constructor].
  - apply so_more; [discriminate|apply number_line; lia|left; reflexivity| |].
    + destruct k as [|k]; cbn [number_lines].
      * destruct (nat_starts (S i) []) as (c & r & E & Hc). rewrite app_nil_r in E. rewrite E. right. left. exact Hc.
      * destruct (nat_starts (S i) (str ";" ++ number_lines (S (S i)) k)) as (c & r & E & Hc). rewrite E. right. left. exact Hc.
    + apply (IH (S i)). lia.
Qed.
End Text.

Lemma numbers_tree k : forall i nb, body_tree false (number_phrases i (S k)) nb ->
  exists l, nb = numbers i l /\ length l = S k.
Proof.
  induction k as [|k IH]; intros i nb H; cbn [number_phrases] in H; inversion H; subst; clear H.
  - match goal with H : tree_of _ _ |- _ => inversion H; subst end.
    eexists [_]. split; reflexivity.
  - match goal with H : no_value _ |- _ => idtac end.
    match goal with H : line_tree _ _ |- _ => inversion H; subst end.
    match goal with H : tree_of _ _ |- _ => inversion H; subst end. contradiction.
  - match goal with H : line_tree _ _ |- _ => inversion H; subst end.
    match goal with H : tree_of _ _ |- _ => inversion H; subst end.
    match goal with H : body_tree _ _ _ |- _ => destruct (IH (S i) _ H) as (l & -> & Hl) end.
    destruct n as [x sp]. cbn [fst] in *. subst. exists (sp :: l). split; [reflexivity|]. cbn. lia.
Qed.

Lemma counting_parses o fuel id n : (Z.of_nat n < 2 ^ 63)%Z -> S (length (number_lines 0 n)) < fuel ->
  exists l i, parse_code o fuel (number_lines 0 n) id = PMatch (numbers 0 l) i /\ length l = S n.
Proof.
  intros H Hf.
  destruct (program_reads o id (number_phrases 0 (S n)) (number_lines 0 n) fuel) as (nb & i & E & T); [|exact Hf|].
  - apply (sb_lines _ [] _ _ (ga_nil)). apply numbers_spelled. exact H.
  - destruct (numbers_tree _ _ _ T) as (l & -> & Hl). exists l, i. auto.
Qed.

Lemma counting_wraps D m (d : D) n : (Z.of_nat n < 2 ^ 63)%Z -> exists ast i sc s',
  parse_code no_oracle (2 + length (number_lines 0 n)) (number_lines 0 n) 0 = PMatch ast i /\
  placed_program ast /\ ordinary_names ast /\ compile m ast = COk sc /\
  (forall builtins fuel (st : sst (D := D)),
     eval m no_oracle small (fun d => d) (fun d => d) builtins fuel ast st = Got (VInt (Z.of_nat n)) st) /\
  run m plain_host (2 * S n) (vm_new d sc small) = RDone (VInt (Z.of_nat n mod 65536)) s'.
Proof.
  intros H. destruct (counting_parses no_oracle (2 + length (number_lines 0 n)) 0 n H (le_n _)) as (l & i & E & Hl).
  destruct (counting_compiles m l n Hl) as (sc & C & _).
  destruct (counting_runs D m d l n sc Hl C) as (s' & R).
  exists (numbers 0 l), i, sc, s'.
  split; [exact E|]. split; [apply numbers_placed|]. split; [apply numbers_ordinary|]. split; [exact C|].
  split; [|exact R]. intros b fuel st. apply counting_means. exact Hl.
Qed.
Lemma counting_refutes : exists text fuel ast i sc (s : vm (list Z)) k v st' w s',
  parse_code no_oracle fuel text 0 = PMatch ast i /\ placed_program ast /\ ordinary_names ast /\
  compile Release ast = COk sc /\ s = vm_new [] sc small /\
  eval Release no_oracle small (fun d => d) (fun d => d) (fun _ => None) 5 ast (mkSst [] [] ([] : list Z)) = Got v st' /\
  run Release plain_host k s = RDone w s' /\ ~ same_value v w.
Proof.
  set (n := Z.to_nat 65536). assert (Hn : Z.of_nat n = 65536%Z) by (unfold n; apply Z2Nat.id; discriminate).
  clearbody n.
  destruct (counting_wraps (list Z) Release [] n) as (ast & i & sc & s' & A & B & C & E & F & G);
    [rewrite Hn; reflexivity|].
  rewrite Hn in F, G.
  exists (number_lines 0 n), (2 + length (number_lines 0 n)), ast, i, sc, (vm_new [] sc small), (2 * S n), (VInt 65536),
    (mkSst [] [] []), (VInt 0), s'.
  split; [exact A|]. split; [exact B|]. split; [exact C|]. split; [exact E|]. split; [reflexivity|].
  split; [apply F|]. split; [exact G|]. intros H. inversion H.
Qed.
