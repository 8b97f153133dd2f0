(** Programs use no builtins but those they mention (C104). *)
From Verif Require Import Base RleVec Pool Vecc Float NumText Bytecode Chunk Value Ast Arith VmOps Compiler Vm CodeSize SpecContainers
  SpecParse SpecReady SpecPos SpecVm ProofContainers ProofCompiler ProofPos1 ProofPos3 ProofPos6 ProofPos7 ProofVm5 SpecOnly ProofOnly.
From Verif Require ProofCode.

Lemma prepared_with {D} (d : D) sc o bs : (forall l n b, In l bs -> In (n, b) l -> honest_builtin b) -> prepared sc (vm_new_with d sc o bs).
Proof.
  unfold vm_new_with. assert (H0 : prepared sc (vm_new d sc o)) by constructor. revert H0. generalize (vm_new d sc o).
  induction bs as [|l bs IH]; intros s H0 H; cbn [fold_left]; [exact H0|]. apply IH; [|intros l' n b I; apply H; now right].
  apply pr_builtins; [exact H0|]. apply Forall_forall. intros [n b] I. exact (H l n b (or_introl eq_refl) I).
Qed.
Lemma room_self {D} (s : vm D) : room (v_gsyms s) (v_builtins s) s = s. Proof. now destruct s. Qed.
Lemma added {D} l : forall s : vm D, exists g b, add_builtins_list l s = room g b s.
Proof.
  induction l as [|[n x] l IH]; intros s; cbn [add_builtins_list]; [exists (v_gsyms s), (v_builtins s); symmetry; apply room_self|].
  destruct (pool_add seqb (v_gsyms s) n) as [p id]. exact (IH (set_builtins (ainsert id x (v_builtins s)) (set_gsyms p s))).
Qed.
Lemma new_dressed {D} (d : D) sc o bs : exists g b, vm_new_with d sc o bs = room g b (vm_new d sc o).
Proof.
  unfold vm_new_with. generalize (vm_new d sc o). induction bs as [|l bs IH]; intros s; cbn [fold_left].
  - exists (v_gsyms s), (v_builtins s). symmetry. apply room_self.
  - destruct (added l s) as (g & b & ->). destruct (IH (room g b s)) as (g' & b' & ->). now exists g', b'.
Qed.
Lemma redressed {D} (d : D) sc o bs bs' : vm_new_with d sc o bs' = room (v_gsyms (vm_new_with d sc o bs')) (v_builtins (vm_new_with d sc o bs')) (vm_new_with d sc o bs).
Proof. destruct (new_dressed d sc o bs) as (g & b & ->). destruct (new_dressed d sc o bs') as (g' & b' & ->). reflexivity. Qed.

Section Only.
Context {D : Type} (m : mode) (hst : host D) (ast : list nodeS) (sc : script) (d : D) (o : options) (bs bs' : list (list (rstring * builtin D))).
Context (Hc : compile m ast = COk sc) (Hw : weights ast <= N.to_nat 65535) (Hp : complete_program ast).
Context (Fit : names_fit sc bs) (Fit' : names_fit sc bs') (Hon : forall l n b, In l bs -> In (n, b) l -> honest_builtin b).
Context (Same : forall x, mentions ast x -> registered x (concat bs') = registered x (concat bs)).
Notation s0 := (vm_new_with d sc o bs).
Notation s0' := (vm_new_with d sc o bs').
Lemma tables l : names_fit sc l -> pool_inv seqb (sc_globals sc) -> forall id x, named (p_entries (sc_globals sc)) id x ->
  pool_get (v_gsyms (vm_new_with d sc o l)) id = Some x /\ alookup N.eqb id (v_builtins (vm_new_with d sc o l)) = registered x (concat l).
Proof using.
  intros F PI id x (i & Hi & ->).
  destruct (binv_all l (vm_new d sc o) []) as (B & k & Hk); [constructor; cbn; auto|exact F|]. cbn [app] in B.
  change (fold_left (fun s l => add_builtins_list l s) l (vm_new d sc o)) with (vm_new_with d sc o l) in *.
  assert (L : i < length (p_entries (sc_globals sc))) by (apply nth_error_Some; congruence). unfold names_fit in F.
  rewrite pool_id_from_small by (clear - F L; lia). split.
  - unfold pool_get. rewrite Nat2N.id, Hk. cbn [vm_new v_gsyms]. rewrite nth_error_app1 by exact L. exact Hi.
  - apply (bi_look _ _ B). rewrite Hk. apply index_of_app_l. apply index_of_unique; [exact seqb_eq|apply PI|exact Hi].
Qed.
Lemma asked s i next : reach m hst (set_count 0 0 s0) s -> decode (ck_ops (cur_chunk s)) (ip s) = Ok (i, next) ->
  fine (v_gsyms s0) (v_gsyms s0') (v_builtins s0) (v_builtins s0') i.
Proof using Hc Hw Hp Fit Fit' Hon Same.
  intros R Hd. pose proof (prepared_with d sc o bs Hon) as P0.
  destruct (reach_pinv m hst ast sc Hc Hw Hp _ s (pr_start sc _ P0) R) as (Pv & Rd & _).
  destruct (compile_pieces ast m sc Hc Hw Hp) as (_ & _ & PI).
  destruct (now_at ast sc s Pv Rd) as (sh & x & j & nx & _ & _ & Hj & Hd' & _ & _ & Hm & _). rewrite Hd in Hd'. injection Hd' as <- <-.
  destruct Hm as [q sp Hq HP|q n sp Ho Ha|q sp Hq HP|q n sp Ho Ha|l it b0 sp Ha|id y sp Ha Hn|id y sp v asp Ha Hn|id y csp l sp Ha Hn
                 |id y csp l v b0 sp Ha Hn|off g sp HP Hf|off us g sp HP Hf Hu]; cbn [p_kind pinstr] in Hj.
  - subst i. destruct q; try discriminate Hq; exact Logic.I.
  - subst i. destruct Ho; exact Logic.I.
  - destruct Hj as [v ->]. destruct q; exact Logic.I.
  - destruct Hj as [v ->]. destruct q; exact Logic.I.
  - subst i. exact Logic.I.
  - subst i. cbn [fine]. destruct (tables bs Fit PI _ _ Hn) as [-> _]. now destruct (tables bs' Fit' PI _ _ Hn) as [-> _].
  - subst i. cbn [fine]. destruct (tables bs Fit PI _ _ Hn) as [-> _]. now destruct (tables bs' Fit' PI _ _ Hn) as [-> _].
  - subst i. cbn [fine]. destruct (tables bs Fit PI _ _ Hn) as [-> ->]. destruct (tables bs' Fit' PI _ _ Hn) as [-> ->]. split; [reflexivity|].
    apply Same. exists csp, sp. left. now exists l.
  - subst i. cbn [fine]. destruct (tables bs Fit PI _ _ Hn) as [-> ->]. destruct (tables bs' Fit' PI _ _ Hn) as [-> ->]. split; [reflexivity|].
    apply Same. exists csp, sp. right. now exists l, v, b0.
  - subst i. exact Logic.I.
  - subst i. exact Logic.I.
Qed.
Theorem only_mentioned k : same_run (run m hst k s0) (run m hst k s0').
Proof using Hc Hw Hp Fit Fit' Hon Same.
  unfold run. rewrite (redressed d sc o bs bs').
  set (g' := v_gsyms s0'). set (b' := v_builtins s0'). change (set_count 0 0 (room g' b' s0)) with (room g' b' (set_count 0 0 s0)).
  pose proof (loop_sim m hst (v_gsyms s0) g' (v_builtins s0) b' k (set_count 0 0 s0) (set_count 0 0 s0) (reach_refl _ _ _) (conj eq_refl eq_refl) asked) as L.
  destruct (loop m hst k (set_count 0 0 s0)) as [v t|e sp t| |t]; rewrite L; cbn [same_run]; auto.
Qed.
End Only.
