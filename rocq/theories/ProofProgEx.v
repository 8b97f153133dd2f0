(** Witnesses for the properties of the notation. *)
From Verif Require Import Base Float Ast Parse SpecArith SpecParse SpecExpr SpecProg.

Ltac a_nm := split; [split; [vm_compute; intuition discriminate|split; [repeat constructor; vm_compute; intuition discriminate|cbn; intuition discriminate]]|discriminate].
Definition nl : rstring := [10%N].
Lemma gap_0 : gap []. Proof. constructor. Qed.
Lemma gap_sp : gap (str " "). Proof. apply ga_blank; [cbn; tauto|constructor]. Qed.
Lemma some_sp : some (str " "). Proof. split; [apply gap_sp|discriminate]. Qed.
Lemma spaced_sp : spaced (str " "). Proof. exists 32%N, []. repeat split; [cbn; tauto|constructor]. Qed.
Lemma sep_nl : separator nl.
Proof. right. split; [split; [apply (ga_line nl []); constructor|discriminate]|]. cbn. discriminate. Qed.
Lemma name_f : a_name (str "f"). Proof. a_nm. Qed.
Lemma name_a : a_name (str "a"). Proof. a_nm. Qed.
Lemma name_x : a_name (str "x"). Proof. a_nm. Qed.
Definition int (z : Z) : phrase := PLit (LInt z).
Definition var (x : rstring) : phrase := PName x.

Section Ex.
Context (pf : rstring -> option f64).
Lemma int_ok k z ds : ds <> [] -> Forall (fun v => 0 <= v < 10)%Z ds -> digits_value 10 ds = z -> (0 <= z < 100)%Z ->
  ~ starts (fun c => c = 45%N) (map digit_text ds) -> spelled pf k (int z) (map digit_text ds).
Proof.
  intros Hn Hd Hv Hz Hs. apply sp_literal; [|contradiction]. apply lt_integer.
  - apply it_decimal. exists ds. auto.
  - unfold i64_range. change (2 ^ 63)%Z with 9223372036854775808%Z. lia.
Qed.
Lemma one_ok k : spelled pf k (int 1) (str "1").
Proof. apply (int_ok k 1 [1%Z]); [discriminate|repeat constructor; lia|reflexivity|lia|cbn; discriminate]. Qed.
Lemma two_ok k : spelled pf k (int 2) (str "2").
Proof. apply (int_ok k 2 [2%Z]); [discriminate|repeat constructor; lia|reflexivity|lia|cbn; discriminate]. Qed.
Lemma ten_ok k : spelled pf k (int 10) (str "10").
Proof. apply (int_ok k 10 [1; 0]%Z); [discriminate|repeat constructor; lia|reflexivity|lia|cbn; discriminate]. Qed.
Lemma x_ok k : spelled pf k (var (str "x")) (str "x"). Proof. apply sp_name, name_x. Qed.

(** fn f(a) { return a * 2 } *)
Definition double : line := SFunction (str "f") [str "a"] [SReturn (Some (PBinary OMul (var (str "a")) (int 2)))].
Lemma double_ok : spelled_line pf double (str "fn f(a) { return a * 2 }").
Proof.
  refine (sl_function pf (str "f") [str "a"] _ (str "a") (str " return a * 2 ") (str " ") [] (str " ") name_f _ _ some_sp gap_0 gap_sp).
  - exact (nt_last (str "a") [] [] name_a gap_0 gap_0).
  - refine (sb_lines pf (str " ") _ (str "return a * 2 ") gap_sp _).
    refine (so_last pf _ (str "return a * 2") (str " ") _ gap_sp).
    refine (sl_return pf _ (str "a * 2") (str " ") _ _ _); [|repeat constructor|discriminate].
    refine (sp_binary pf 0 OMul (str "*") 6 _ _ (str "a") (str "2") (str " ") (str " ") eq_refl (Nat.le_0_l _) _ (two_ok _) some_sp spaced_sp).
    apply sp_name, name_a.
Qed.
(** while x < 10 { x += f(x) } *)
Definition loop : phrase := PWhile (PBinary OLt (var (str "x")) (int 10)) [SValue (PAssign (str "x") (Some OAdd) (PCall (var (str "f")) [var (str "x")]))].
Lemma loop_ok k : spelled pf k loop (str "while x < 10 { x += f(x) }").
Proof.
  refine (sp_while pf k _ _ (str "x < 10") (str " x += f(x) ") (str " ") (str " ") _ _ some_sp gap_sp).
  - exact (sp_binary pf 0 OLt (str "<") 2 _ _ (str "x") (str "10") (str " ") (str " ") eq_refl (Nat.le_0_l _) (x_ok _) (ten_ok _) some_sp spaced_sp).
  - refine (sb_lines pf (str " ") _ (str "x += f(x) ") gap_sp _). refine (so_last pf _ (str "x += f(x)") (str " ") _ gap_sp).
    apply sl_value. refine (sp_assign pf (str "x") (Some OAdd) (str "+") _ (str "f(x)") (str " ") (str " ") name_x eq_refl _ gap_sp gap_sp).
    refine (sp_call pf 0 _ _ (str "f") (str "x") _ _); [apply sp_name, name_f|].
    exact (sa_last pf _ (str "x") [] [] (x_ok 0) gap_0 gap_0).
Qed.
Definition sample : list line := [double; SLet (str "x") None (int 1); SValue loop; SValue (var (str "x"))].
Definition sample_text : rstring :=
  str "fn f(a) { return a * 2 }" ++ nl ++ str "let x = 1" ++ nl ++ str "while x < 10 { x += f(x) }" ++ nl ++ str "x".
Ltac starts_ := left; unfold letter; cbn; lia.
Lemma sample_ok : spelled_body pf sample sample_text.
Proof.
  refine (sb_lines pf [] sample sample_text gap_0 _).
  refine (so_more pf _ _ _ _ _ nl _ double_ok sep_nl _ _); [discriminate|starts_|].
  refine (so_more pf _ _ _ _ _ nl _ _ sep_nl _ _); [discriminate| |starts_|].
  { exact (sl_let pf (str "x") None [] _ (str "1") (str " ") (str " ") (str " ") name_x eq_refl (one_ok 0) some_sp gap_sp gap_sp). }
  refine (so_more pf _ _ _ _ _ nl _ (sl_value pf _ _ (loop_ok 0)) sep_nl _ _); [discriminate|starts_|].
  exact (so_last pf _ (str "x") [] (sl_value pf _ _ (x_ok 0)) gap_0).
Qed.
End Ex.
