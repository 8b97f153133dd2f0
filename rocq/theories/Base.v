(** Common ground of the model: outcomes, build modes, machine integers,
    strings, spans and the error type. *)
From Coq Require Ascii String.
From Coq Require Export List Arith ZArith NArith Lia Bool.
Export Coq.Strings.String.StringSyntax.
From Coq Require Export ZifyBool ZifyNat ZifyN.
Export ListNotations.

(** The two build profiles.  [Release] is the profile of Cargo.toml (no overflow
    checks, no debug assertions); [Debug] is a checked build (arithmetic
    overflow and failed [debug_assert!] abort). *)
Inductive mode := Debug | Release.

(** A Rust [String]: its Unicode scalar values.  [str] turns a Coq literal
    into one. *)
Definition rstring := list N.

Definition str (s : String.string) : rstring :=
  map Ascii.N_of_ascii (String.list_ascii_of_string s).
Arguments str s%string_scope.

(** Bytes of one scalar value in UTF-8 (char::len_utf8 of the standard library). *)
Definition utf8_len (c : N) : N :=
  (if c <? 128 then 1 else if c <? 2048 then 2 else if c <? 65536 then 3 else 4)%N.

(** [String::len]: length in bytes. *)
Definition slen (s : rstring) : N := fold_right (fun c n => (utf8_len c + n)%N) 0%N s.

Definition seqb (a b : rstring) : bool := if list_eq_dec N.eq_dec a b then true else false.

Lemma seqb_eq a b : seqb a b = true <-> a = b.
Proof. unfold seqb; destruct (list_eq_dec N.eq_dec a b); split; congruence. Qed.

Lemma seqb_refl a : seqb a a = true.
Proof. apply seqb_eq; reflexivity. Qed.

Lemma seqb_neq a b : seqb a b = false <-> a <> b.
Proof. unfold seqb; destruct (list_eq_dec N.eq_dec a b); split; congruence. Qed.

(** common/src/span.rs:7-15  [Span(start, end, source id)]; [Span::default()]. *)
Record span := mkSpan { sp_start : nat; sp_end : nat; sp_src : nat }.
Definition default_span := mkSpan 0 0 0.

Definition span_eqb (a b : span) : bool :=
  (sp_start a =? sp_start b) && (sp_end a =? sp_end b) && (sp_src a =? sp_src b).

Lemma span_eqb_eq a b : span_eqb a b = true <-> a = b.
Proof.
  unfold span_eqb; destruct a as [a1 a2 a3], b as [b1 b2 b3]; cbn [sp_start sp_end sp_src].
  rewrite !andb_true_iff, !Nat.eqb_eq; split; [intros [[-> ->] ->] | intros [= -> -> ->]]; auto.
Qed.

(** common/src/error.rs:28-62, 213-263 (TypeError), 265-310 (NameError),
    312-336 (OverflowError), 355-368 (IncludeError), 396-413 (SyntaxError),
    447-454 (BuiltinError; help text is not modelled).  The wrapped enums are
    flattened into one type. *)
Inductive error :=
| ENameUndefined (name : rstring)
| ENameAlreadyDefined (name : rstring)
| EUndefinedBuiltin (name : rstring)
| EExternalNotGlobal (name : rstring)
| EExternalRedefined (name : rstring)
| EExternalNotDefined (name : rstring)
| ETooManyItems | ETooManyParams | ETooManyArgs | ETooMuchToUnpack
| EStackOverflow | EStackUnderflow | EInstructionOverflow | EJumpTooLarge
| EStringTooLarge | EArrayTooLarge
| EExpected (expected got : rstring)
| ECannotConvert (from to : rstring)
| ECannotCompare (a b : rstring)
| EParseError (text ty : rstring)
| EMismatchedArity (name : rstring) (expected got : N)
| ENotCallable (ty : rstring)
| EUnsupportedBinary (op lhs rhs : rstring)
| EUnpackable (ty : rstring)
| EInsufficientValues (have want : N)
| EUnsupportedUnary (op rhs : rstring)
| ENotIterable (ty : rstring)
| EFailedToIterate
| ECannotHash (ty : rstring)
| EBuiltin (msg : rstring)
| EIncludeNotTopLevel
| EUnresolvedInclude (name : rstring)
| ECouldNotResolve (name : rstring)
| ECircularInclude (name : rstring)
| EUnexpectedToken (pos : nat)
| EStatementAsExpression
| EReturnOutsideFunction
| EIndexError (i : Z)
| EZeroDivision
| ERuntimeLimit (limit : N)
| EMemoryLimit
| EHalt.

(** Outcome of a fallible operation: a value, an error returned to the caller,
    or a panic (the process aborts; Cargo.toml sets panic = "abort"). *)
Inductive res (A : Type) :=
| Ok (a : A)
| Err (e : error)
| Panic.
Arguments Ok {A} a.
Arguments Err {A} e.
Arguments Panic {A}.

Definition rbind {A B} (r : res A) (k : A -> res B) : res B :=
  match r with Ok a => k a | Err e => Err e | Panic => Panic end.

Definition rmap {A B} (f : A -> B) (r : res A) : res B := rbind r (fun a => Ok (f a)).

Notation "'let!' x ':=' e 'in' k" := (rbind e (fun x => k))
  (at level 200, x pattern, e at level 100, k at level 200, right associativity).

(** Machine integers.  [i64]/[i32] are [Z], unsigned ones are [N]. *)
Definition i64_min : Z := (- 2 ^ 63)%Z.
Definition i64_max : Z := (2 ^ 63 - 1)%Z.
Definition in_i64 (z : Z) : bool := ((i64_min <=? z) && (z <=? i64_max))%Z.
Definition wrap64 (z : Z) : Z := ((z + 2 ^ 63) mod 2 ^ 64 - 2 ^ 63)%Z.

Definition in_i32 (z : Z) : bool := ((- 2 ^ 31 <=? z) && (z <=? 2 ^ 31 - 1))%Z.
Definition wrap32 (z : Z) : Z := ((z + 2 ^ 31) mod 2 ^ 32 - 2 ^ 31)%Z.

(** [as u16], [as u8], [as u32], [as usize] casts. *)
Definition wrap16u (n : N) : N := (n mod 65536)%N.
Definition wrap8u (n : N) : N := (n mod 256)%N.
Definition to_u32 (z : Z) : N := Z.to_N (z mod 2 ^ 32).
Definition to_u64 (z : Z) : N := Z.to_N (z mod 2 ^ 64).
Definition usize_wrap (n : N) : N := (n mod 2 ^ 64)%N.

(** Result of an i64 operation whose mathematical value is [z]. *)
Definition ov64 (m : mode) (z : Z) : res Z :=
  if in_i64 z then Ok z else match m with Debug => Panic | Release => Ok (wrap64 z) end.

Lemma wrap64_id z : in_i64 z = true -> wrap64 z = z.
Proof.
  unfold in_i64, wrap64, i64_min, i64_max; rewrite andb_true_iff, !Z.leb_le; intros [H1 H2].
  rewrite Z.mod_small; lia.
Qed.

Lemma wrap64_range z : in_i64 (wrap64 z) = true.
Proof.
  unfold in_i64, wrap64, i64_min, i64_max; rewrite andb_true_iff, !Z.leb_le.
  pose proof (Z.mod_pos_bound (z + 2 ^ 63) (2 ^ 64) ltac:(lia)); lia.
Qed.

Lemma wrap64_cong z : exists k, wrap64 z = (z + k * 2 ^ 64)%Z.
Proof.
  unfold wrap64. exists (- ((z + 2 ^ 63) / 2 ^ 64))%Z.
  pose proof (Z.div_mod (z + 2 ^ 63) (2 ^ 64) ltac:(lia)); lia.
Qed.

(** Lists updated in place. *)
Fixpoint upd {A} (i : nat) (x : A) (l : list A) : list A :=
  match l, i with
  | [], _ => []
  | _ :: t, O => x :: t
  | y :: t, S i' => y :: upd i' x t
  end.

Lemma upd_length {A} i (x : A) l : length (upd i x l) = length l.
Proof. revert i; induction l as [|y l IH]; destruct i; cbn; auto. Qed.

Lemma nth_error_upd_eq {A} i (x : A) l : i < length l -> nth_error (upd i x l) i = Some x.
Proof.
  revert i; induction l as [|y l IH]; destruct i; cbn; intros H; try lia; auto.
  apply IH; lia.
Qed.

Lemma nth_error_upd_neq {A} i j (x : A) l : i <> j -> nth_error (upd i x l) j = nth_error l j.
Proof.
  revert i j; induction l as [|y l IH]; destruct i, j; cbn; intros H; auto; try lia.
Qed.

Lemma upd_same {A} i (x : A) l : nth_error l i = Some x -> upd i x l = l.
Proof.
  revert i; induction l as [|y l IH]; destruct i; cbn; intros H; try congruence.
  f_equal; auto.
Qed.

Lemma upd_app_l {A} i (x : A) l1 l2 : i < length l1 -> upd i x (l1 ++ l2) = upd i x l1 ++ l2.
Proof.
  revert i; induction l1 as [|y l1 IH]; destruct i; cbn; intros H; try lia; auto.
  f_equal; apply IH; lia.
Qed.

Lemma upd_app_r {A} i (x : A) l1 l2 :
  upd (length l1 + i) x (l1 ++ l2) = l1 ++ upd i x l2.
Proof. induction l1 as [|y l1 IH]; cbn; auto. f_equal; apply IH. Qed.

Lemma upd_oob {A} i (x : A) l : length l <= i -> upd i x l = l.
Proof.
  revert i; induction l as [|y l IH]; destruct i; cbn; intros H; auto; try lia.
  f_equal; apply IH; lia.
Qed.

(** Association lists (hash maps and sets of the source). *)
Fixpoint alookup {K V} (eqb : K -> K -> bool) (k : K) (m : list (K * V)) : option V :=
  match m with
  | [] => None
  | (k', v) :: m' => if eqb k k' then Some v else alookup eqb k m'
  end.

(** [HashMap::insert]: newest binding first, shadowing older ones. *)
Definition ainsert {K V} (k : K) (v : V) (m : list (K * V)) : list (K * V) := (k, v) :: m.
