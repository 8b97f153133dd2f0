(** Witnesses for printed listings. *)
From Verif Require Import Base RleVec Pool Vecc Float NumText Bytecode Chunk Value Ast Arith VmOps Parse
  Compiler Vm CodeSize SpecReady ProofCode ProofReadyEx ProofArithEx Lines SpecLines ProofLines Disasm SpecDisasm ProofDisasmEx Listing SpecListing ProofListing ExProg.

Definition one_quoted (s : rstring) : rstring := 34%N :: filter (fun c => negb (c =? 10)%N) s ++ [34%N].
Definition one_file (k : nat) : option rstring := match k with 0 => Some (str "a.ql") | _ => None end.
Lemma ex_quoted s : one_line (one_quoted s).
Proof.
  unfold one_quoted, one_line. intros [H|H]; [discriminate|]. apply in_app_iff in H as [H|[H|[]]]; [|discriminate].
  apply filter_In in H as [_ H]. discriminate.
Qed.
Lemma ex_file k s : one_file k = Some s -> one_line s.
Proof. destruct k; intros H; [|discriminate]. injection H as <-. apply ol_flat. reflexivity. Qed.

(** A check for the listings of the examples. *)
Definition tidy_hint_b (h : hint) : bool :=
  match h with
  | HJump _ | HNone => true
  | HValue (VSpecial _ _) | HValue (VArray _ _ _) | HValue (VPair _ _) => false
  | HValue (VFn f) => forallb flat (fn_name (mfn_function f))
  | HValue _ => true
  | HClosure f => forallb flat (fn_name f)
  | HBuiltin s | HSymbol s | HOp s => forallb flat s
  end.
Definition tidy_b (l : listing) : bool :=
  forallb flat (li_name l) && forallb (fun c => negb (c =? 44)%N) (li_name l) &&
  forallb (fun r => (ln_opcode r <? 62)%N && match ln_hint r with Some h => tidy_hint_b h | None => true end) (li_lines l).
Lemma tidy_checked l : tidy_b l = true -> tidy l.
Proof.
  unfold tidy_b. intros H. apply andb_true_iff in H as [H H3]. apply andb_true_iff in H as [H1 H2].
  split; [now apply ol_flat|]. split.
  { intros K. rewrite forallb_forall in H2. apply H2 in K. discriminate. }
  intros r Hr. rewrite forallb_forall in H3. apply H3 in Hr. apply andb_true_iff in Hr as [Ho Hh]. split; [now apply N.ltb_lt|].
  intros h E. rewrite E in Hh. destruct h as [| |v| | | |]; cbn [tidy_hint tidy_hint_b] in *; auto using ol_flat; try exact (ol_flat _ Hh).
  destruct v; try discriminate Hh; try (constructor; exact I). apply tv_fn, ol_flat, Hh.
Qed.

(** [tour]: three functions, 89 rows. *)
Lemma tour_tidy : Forall tidy tour_listing.
Proof.
  apply Forall_forall. intros l Hl. apply tidy_checked. revert l Hl. apply forallb_forall. vm_compute. reflexivity.
Qed.
Definition sound_b (h : option hint) : bool :=
  match h with
  | Some (HValue (VColor _ _ _ _)) | Some (HValue (VArray _ _ _)) | Some (HValue (VPair _ _)) | Some (HValue (VLoopCtx _))
  | Some (HValue (VFn (MClo _ _))) => false
  | _ => true
  end.
Lemma tour_sound l r v : In l tour_listing -> In r (li_lines l) -> ln_hint r = Some (HValue v) -> sound_value v.
Proof.
  assert (K : forallb (fun l => forallb (fun r => sound_b (ln_hint r)) (li_lines l)) tour_listing = true) by (vm_compute; reflexivity).
  intros Hl Hr E. rewrite forallb_forall in K. specialize (K _ Hl). cbv beta in K. rewrite forallb_forall in K. specialize (K _ Hr). cbv beta in K.
  rewrite E in K. destruct v as [| | | | | | | | | | |[]]; try discriminate K; try (constructor; exact I); apply sv_fn.
Qed.
(** What is printed for [loop_text]'s second function. *)
Notation small_listing := (match disassemble (get_lineno simple_table [loop_text]) 5 (script_of loop_ast) with Some (Ok l) => skipn 1 l | _ => [] end).
Lemma small_printed : output_text no_oracle one_quoted (get_lineno simple_table [loop_text]) one_file small_listing =
  str
"Disassembly of <func @__lambda__, file ""a.ql"", line 3>
3          0    LoadLocal       1    (a)
           3    UnaryNegate          (-)
           4    LoadLocal       2    (b)
       >>  7    BinaryAdd            (+)
           8    Return               

".
Proof. vm_compute. reflexivity. Qed.

(** [1] and [1.0] where the float is written without a point. *)
Definition bare_oracle : oracle := mkOracle (fun _ => str "1") (fun _ => None) (fun _ _ => fzero) (fun _ _ => fzero) (fun _ => []) (fun _ => []) (fun _ => false).
Lemma bare_float : o_f64_text bare_oracle (f_of_Z 1) = str "1".
Proof. reflexivity. Qed.
