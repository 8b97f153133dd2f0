(** What single functions of Console.v do (C70-C74). *)
From Verif Require Import Base RleVec Pool Vecc Float NumText Value Ast Arith VmOps Args Builtins Compiler Vm Std Console
  SpecArith SpecBuiltins SpecReady SpecVm SpecEval SpecConsole ProofArith4 ProofBuiltins4 ProofText ProofVm
  ProofBuiltins3 ProofConsole3 SpecText.
Ltac Zify.zify_post_hook ::= Z.div_mod_to_equations.

Section Calls.
Context (o : oracle) (fhash : mfn -> res (list hitem)).
Notation call := (console_call o mfi fhash).

(** ** Printing *)
Lemma spaced_shown args ts : Forall value_wf args -> Forall2 (written (o_f64_text o)) args ts ->
  spaced o mfi args = with_spaces ts.
Proof.
  intros W H. induction H as [|v t args ts Hv _ IH]; [reflexivity|]. inversion W; subst.
  cbn [spaced flat_map with_spaces]. unfold spaced in IH. rewrite IH by assumption.
  rewrite (written_unique o v _ _ Hv (written_display o v ltac:(assumption))). now rewrite <- app_assoc.
Qed.
Lemma say_only t w : same_but_output w (say t w) /\ w_out (say t w) = w_out w ++ t.
Proof. repeat split. Qed.
Lemma print_writes args ts w : Forall value_wf args -> Forall2 (written (o_f64_text o)) args ts ->
  exists w', call (str "print") args w = (w', Ok VNone) /\ same_but_output w w' /\
             w_out w' = w_out w ++ with_spaces ts.
Proof.
  intros W H. rewrite <- (spaced_shown _ _ W H). eexists. split; [reflexivity|apply say_only].
Qed.
Lemma println_writes args ts w : Forall value_wf args -> Forall2 (written (o_f64_text o)) args ts ->
  exists w', call (str "println") args w = (w', Ok VNone) /\ same_but_output w w' /\
             w_out w' = w_out w ++ with_spaces ts ++ [10%N].
Proof.
  intros W H. rewrite <- (spaced_shown _ _ W H). eexists. split; [reflexivity|apply say_only].
Qed.
Lemma debug_writes args ts w : Forall value_wf args -> Forall2 (written (o_f64_text o)) args ts ->
  exists w', call (str "debug") args w = (w', Ok VNone) /\ same_but_output w w' /\
             w_out w' = w_out w ++ [27%N] ++ str "[38;5;208mDEBUG: " ++ with_spaces ts ++ [27%N] ++ str "[0m" ++ [10%N].
Proof.
  intros W H. rewrite <- (spaced_shown _ _ W H). eexists. split; [reflexivity|apply say_only].
Qed.
Lemma others_quiet name args w :
  ~ In name [str "print"; str "println"; str "debug"; str "input"] -> w_out (fst (call name args w)) = w_out w.
Proof.
  intros H. unfold console_call. destruct (alookup seqb name _) as [f|] eqn:E; [|reflexivity].
  apply alookup_in in E. revert H E. unfold console_list, io_list, time_list, random_list, wreg. cbn [app].
  intros H E.
  repeat (destruct E as [E|E]; [apply pair_equal_spec in E as [<- <-]; try (exfalso; apply H; cbn; tauto)|]); [..|destruct E];
    clear H; cbn [wcall].
  all: repeat match goal with
       | |- context[take ?a ?b ?c] => destruct (take a b c) as [[? ?]| |]; cbn [fst snd]; [|reflexivity|reflexivity]
       | |- context[stop ?a ?c] => destruct (stop a c); [|reflexivity|reflexivity]
       end.
  all: try reflexivity.
  - unfold b_randint, draw_below. destruct (_ <=? _)%Z; reflexivity.
  - unfold b_randfloat, draw_float. destruct (fleb _ _); [reflexivity|]. destruct (_ && _); reflexivity.
  - unfold b_randchoice, draw_below. destruct p; reflexivity.
Qed.

(** ** Reading *)
Lemma trim_trimmed p s : trimmed p s (trim_both p s).
Proof.
  destruct (trim_both_spec p s) as (pre & post & E & H1 & H2 & H3 & H4). exists pre, post. repeat split; auto.
  - intros c r Ec. rewrite Ec in H3. exact H3.
  - intros c r Ec. rewrite Ec, rev_app_distr in H4. exact H4.
Qed.
Lemma input_reads prompt w :
  let (w', r) := call (str "input") [VString prompt] w in
  w_out w' = w_out w ++ prompt /\
  match w_in w with
  | [] => w_in w' = [] /\ r = Ok (VString [])
  | Some l :: rest => w_in w' = rest /\ exists t, r = Ok (VString t) /\ trimmed (o_whitespace o) l t
  | None :: rest => w_in w' = rest /\ r = Err (EBuiltin (str "could not read input"))
  end.
Proof.
  change (call (str "input") [VString prompt] w) with (@b_input mfn o prompt w).
  unfold b_input. cbv zeta. cbn [w_in say]. destruct (w_in w) as [|[l|] rest] eqn:E; cbn; rewrite ?E;
    (split; [reflexivity|]); (split; [reflexivity|]); try reflexivity.
  exists (trim_both (o_whitespace o) l). split; [reflexivity|apply trim_trimmed].
Qed.
Lemma readfile_reads path w :
  call (str "readfile") [VString path] w =
  (w, match w_file w path with
      | inl text => Ok (VString text)
      | inr e => Err (EBuiltin (str "could not read file: " ++ e))
      end).
Proof. reflexivity. Qed.

(** ** Time *)
Lemma day_time secs : clock_time (secs mod 86400) (secs / 60 / 60 mod 24) (secs / 60 mod 60) (secs mod 60).
Proof. unfold clock_time. lia. Qed.
Lemma decimal_int n : decimal (Z.of_N n) (int_text (Z.of_N n)).
Proof.
  pose proof (integer_shown (Z.of_N n)) as H. unfold integer_text in H.
  destruct (Z.ltb_spec (Z.of_N n) 0); [lia|exact H].
Qed.
Lemma date_time secs nanos w : w_clock w (w_reads w) = Some (secs, nanos) ->
  exists day th tm ts h m s,
    snd (call (str "date") [] w) = Ok (VString (day ++ str " " ++ th ++ str ":" ++ tm ++ str ":" ++ ts)) /\
    clock_time (secs mod 86400) h m s /\ decimal (Z.of_N h) th /\ decimal (Z.of_N m) tm /\ decimal (Z.of_N s) ts.
Proof.
  intros H. change (call (str "date") [] w) with (@b_date mfn w). unfold b_date, read_clock. rewrite H. cbn [snd].
  unfold date_text. cbv zeta.
  exists (int_text (Z.of_N (1970 + secs / 60 / 60 / 24 / 365)) ++ str "-" ++
          int_text (Z.of_N ((secs / 60 / 60 / 24) mod 365 / 30)) ++ str "-" ++
          int_text (Z.of_N ((secs / 60 / 60 / 24) mod 365 mod 30))),
    (int_text (Z.of_N (secs / 60 / 60 mod 24))), (int_text (Z.of_N (secs / 60 mod 60))), (int_text (Z.of_N (secs mod 60))),
    (secs / 60 / 60 mod 24)%N, (secs / 60 mod 60)%N, (secs mod 60)%N.
  split; [rewrite <- !app_assoc; reflexivity|]. split; [apply day_time|].
  split; [apply decimal_int|]. split; apply decimal_int.
Qed.
End Calls.
