From Verif Require Import Base RleVec Pool Vecc Float NumText Bytecode Chunk Value Ast Arith VmOps Args Builtins
  Compiler Vm Parse SpecArith SpecParse ProofArithEx ProofParse ProofParse2 ProofParse3.

Lemma literal_runs m z sp : exists sc, compile m [(NLiteral (LInt z), sp)] = COk sc /\
  forall D (hst : host D) d opts, 1 <= o_stack_size opts ->
  exists s', run m hst 2 (vm_new d sc opts) = RDone (VInt z) s'.
Proof.
  eexists; split; [vm_compute; reflexivity|].
  intros D hst d opts Ho. destruct opts as [a [|b] c e f]; cbn in Ho; [lia|].
  destruct m; eexists; cbv -[Z.add]; reflexivity.
Qed.

Lemma int_program m o fuel text v id : numeral 10 text v -> (v <= i64_max)%Z -> 2 <= fuel ->
  exists ast i sc, parse_code o fuel text id = PMatch ast i /\ compile m ast = COk sc /\
  forall D (hst : host D) d opts, 1 <= o_stack_size opts ->
  exists s', run m hst 2 (vm_new d sc opts) = RDone (VInt v) s'.
Proof.
  intros Hn Hv Hf. destruct fuel as [|[|k]]; try lia.
  pose proof (parse_int_program o id k text v Hn) as E.
  assert (F : fits i64_min i64_max v = Some v).
  { destruct (numeral_digits _ _ Hn) as (_ & _ & H). unfold fits, i64_min in *.
    replace ((- 2 ^ 63 <=? v) && (v <=? i64_max))%Z with true; [auto|]. symmetry. apply andb_true_iff; split; apply Z.leb_le; lia. }
  rewrite F in E. cbn [or0] in E.
  destruct (literal_runs m v (mkSpan 0 (length text) id)) as (sc & E1 & E2).
  eexists _, _, sc. split; [exact E|]. split; auto.
Qed.

Lemma int_literal o fuel text v : numeral 10 text v -> 1 <= fuel ->
  ((v <= i64_max)%Z -> parse_literal o fuel text = PMatch (LInt v) (length text, [])) /\
  ((v <= 2 ^ 63)%Z -> parse_literal o fuel (str "-" ++ text) = PMatch (LInt (- v)) (S (length text), [])).
Proof.
  intros Hn Hf. destruct fuel as [|k]; try lia.
  destruct (numeral_digits _ _ Hn) as (_ & _ & H).
  split; intros Hv.
  - pose proof (parse_literal_int o k text v false Hn) as E. cbn [app] in E. rewrite E.
    unfold fits. unfold i64_min in *.
    replace ((- 2 ^ 63 <=? v) && (v <=? i64_max))%Z with true by (symmetry; apply andb_true_iff; split; apply Z.leb_le; lia).
    reflexivity.
  - pose proof (parse_literal_int o k text v true Hn) as E. cbn [app] in E. change (str "-" ++ text) with (45%N :: text).
    rewrite E. unfold fits, i64_min, i64_max.
    replace ((- 2 ^ 63 <=? - v) && (- v <=? 2 ^ 63 - 1))%Z with true by (symmetry; apply andb_true_iff; split; apply Z.leb_le; lia).
    reflexivity.
Qed.

Lemma numeral_of (ds : list Z) : ds <> [] -> Forall (fun d => 0 <= d < 10)%Z ds ->
  numeral 10 (map digit_text ds) (digits_value 10 ds).
Proof. intros H1 H2. exists ds; auto. Qed.

(** 9223372036854775808 reads as 0, and so does -9223372036854775808. *)
Definition too_big : rstring := str "9223372036854775808".
Lemma too_big_numeral : numeral 10 too_big (2 ^ 63).
Proof.
  exists [9;2;2;3;3;7;2;0;3;6;8;5;4;7;7;5;8;0;8]%Z.
  split; [discriminate|]. split; [repeat constructor; discriminate|]. split; reflexivity.
Qed.

Definition value_of_text (m : mode) (text : rstring) : option value :=
  match parse_code no_oracle 20 text 0 with
  | PMatch ast _ => match compile m ast with
                    | COk sc => match run m (mkHost (fun d => d) (fun d => d) (fun _ => 0%N) 0 no_oracle) 20
                                        (vm_new tt sc (mkOptions 10 10 10 10 10)) with
                                | RDone v _ => Some v
                                | _ => None
                                end
                    | _ => None
                    end
  | _ => None
  end.

Lemma int_overflow m : value_of_text m too_big = Some (VInt 0).
Proof. destruct m; vm_compute; reflexivity. Qed.
Lemma int_min_lost m : value_of_text m (str "-" ++ too_big) = Some (VInt 0).
Proof. destruct m; vm_compute; reflexivity. Qed.

Definition seven : rstring := str "#1234567".
Lemma seven_digits o k : parse_literal o (S k) seven = PMatch (LColor 18 52 86 255) (8, []).
Proof. reflexivity. Qed.

Lemma hex_is a : In a (str "0123456789abcdefABCDEF") -> exists v, hex_digit a v.
Proof.
  intros H. apply is_hex_digit. cbn [In str] in H.
  repeat (destruct H as [<-|H]; [reflexivity|]). contradiction.
Qed.

Lemma seven_refuted : exists ds,
  length ds = 7 /\ Forall (fun c => exists v, hex_digit c v) ds /\
  forall o fuel, parse_literal o (S fuel) (str "#" ++ ds) = PMatch (LColor 18 52 86 255) (8, []).
Proof.
  exists (str "1234567"). split; [reflexivity|]. split; [|exact seven_digits].
  repeat (constructor; [apply hex_is; cbn; auto 20|]); constructor.
Qed.

Lemma deep_parses : let text := str "f(g(h((x))))" in
  (exists ast i, parse_code no_oracle 14 text 0 = PMatch ast i) /\ parse_code no_oracle 2 text 0 = PFuel /\
  parse_code no_oracle 14 (str "f(g(h((x)))") 0 = PFail.
Proof. split; [eexists; eexists|split]; vm_compute; reflexivity. Qed.
