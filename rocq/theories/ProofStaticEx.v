(** Programs for the examples in PropStatic.v. *)
From Verif Require Import Base RleVec Pool Vecc Float NumText Bytecode Chunk Value Ast Arith VmOps
  Compiler Vm SpecParse SpecStatic ExProg.

Definition ext_ (x : String.string) (v : nodeS) : nodeS := e (NExternal (name x) v).
Arguments ext_ x%string_scope v.
(** external a = 1; fn f(x) { if x { return [x, 2] } x } external b = f(a) *)
Definition checked : list nodeS :=
  [ ext_ "a" (int 1);
    fn_ "f" [name "x"]
      [ e (NConditional (id "x") [return_ (e (NArray [id "x"; int 2]))] None); id "x" ];
    ext_ "b" (call (id "f") [id "a"]) ].
Lemma checked_compiles : exists sc, compile Release checked = COk sc.
Proof. eexists. vm_compute. reflexivity. Qed.
Lemma checked_placed : placed checked Value (NArray [id "x"; int 2]) /\ placed checked Nested (NReturn (Some (e (NArray [id "x"; int 2])))).
Proof.
  assert (H : placed checked Nested (NReturn (Some (e (NArray [id "x"; int 2]))))).
  { eapply placed_part; [eapply placed_part; [apply placed_top with (sp := sp0); right; left; reflexivity|left; reflexivity]|].
    right; left; reflexivity. }
  split; [|exact H]. eapply placed_part; [exact H|left; reflexivity].
Qed.
Definition many : list nodeS := repeat (int 1) 256.
Definition most : list nodeS := repeat (int 1) 255.
