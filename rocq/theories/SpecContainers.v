(** Specifications of the containers: what a plain vector, a plain stack and a
    plain numbering would do.  Nothing here mentions the modelled code. *)
From Verif Require Import Base.

(** ** Vector built by appending (C34) *)
Inductive append_op (T : Type) :=
| APush (v : T)                 (* append one *)
| APushN (v : T) (n : nat).     (* append n copies *)
Arguments APush {T} v. Arguments APushN {T} v n.

Definition append_plain {T} (l : list T) (o : append_op T) : list T :=
  match o with APush v => l ++ [v] | APushN v n => l ++ repeat v n end.

Definition append_plain_all {T} (ops : list (append_op T)) : list T :=
  fold_left append_plain ops [].

(** Number of maximal runs of equal neighbours. *)
Fixpoint runs {T} (teqb : T -> T -> bool) (l : list T) : nat :=
  match l with
  | [] => 0
  | x :: t => match t with
              | [] => 1
              | y :: _ => (if teqb x y then 0 else 1) + runs teqb t
              end
  end.

Fixpoint last_opt {T} (l : list T) : option T :=
  match l with [] => None | [x] => Some x | _ :: t => last_opt t end.

Definition first_opt {T} (l : list T) : option T :=
  match l with [] => None | x :: _ => Some x end.

Definition never_zero {T} (o : append_op T) : bool :=
  match o with APush _ => true | APushN _ n => negb (n =? 0) end.

(** ** Size-limited vector (C36) *)
Inductive vec_op (T : Type) :=
| VPush (x : T) | VPop | VSet (i : nat) (x : T) | VClear | VRemove (i : nat)
| VInsert (i : nat) (x : T) | VExtend (xs : list T) | VSwapRemove (i : nat) | VTruncate (n : nat).
Arguments VPush {T} x. Arguments VPop {T}. Arguments VSet {T} i x. Arguments VClear {T}.
Arguments VRemove {T} i. Arguments VInsert {T} i x. Arguments VExtend {T} xs.
Arguments VSwapRemove {T} i. Arguments VTruncate {T} n.

(** What the caller gets back. *)
Inductive vec_out (T : Type) :=
| VDone | VItem (x : option T) | VTooLarge | VAbort.
Arguments VDone {T}. Arguments VItem {T} x. Arguments VTooLarge {T}. Arguments VAbort {T}.

Section VecSpec.
Context {T : Type} (size : T -> N) (max : N).

Definition total (l : list T) : N := fold_right (fun x n => (size x + n)%N) 0%N l.

(** A plain vector whose contents may not exceed [max] in total. *)
Definition vec_spec (l : list T) (o : vec_op T) : list T * vec_out T :=
  match o with
  | VPush x => if (total l + size x <=? max)%N then (l ++ [x], VDone) else (l, VTooLarge)
  | VPop => match rev l with [] => (l, VItem None) | x :: r => (rev r, VItem (Some x)) end
  | VSet i x =>
      match nth_error l i with
      | None => (l, VAbort)
      | Some old => if (total l - size old + size x <=? max)%N
                    then (firstn i l ++ x :: skipn (S i) l, VDone) else (l, VTooLarge)
      end
  | VClear => ([], VDone)
  | VRemove i => match nth_error l i with
                 | None => (l, VAbort)
                 | Some x => (firstn i l ++ skipn (S i) l, VItem (Some x))
                 end
  | VInsert i x =>
      if (total l + size x <=? max)%N
      then if i <=? length l then (firstn i l ++ x :: skipn i l, VDone) else (l, VAbort)
      else (l, VTooLarge)
  | VExtend xs => if (total l + total xs <=? max)%N then (l ++ xs, VDone) else (l, VTooLarge)
  | VSwapRemove i =>
      match nth_error l i, rev l with
      | Some x, last :: r =>
          (if i =? length r then rev r else firstn i (rev r) ++ last :: skipn (S i) (rev r),
           VItem (Some x))
      | _, _ => (l, VAbort)
      end
  | VTruncate n => if n <=? length l then (firstn n l, VDone) else (l, VAbort)
  end.

(** A history stops at an abort. *)
Fixpoint vec_spec_run (l : list T) (ops : list (vec_op T)) : list T * list (vec_out T) :=
  match ops with
  | [] => (l, [])
  | o :: rest =>
      match vec_spec l o with
      | (l', VAbort) => (l', [VAbort])
      | (l', out) => let '(l'', outs) := vec_spec_run l' rest in (l'', out :: outs)
      end
  end.

(** Histories without [set] in which every [extend] fits. *)
Fixpoint plain_history (l : list T) (ops : list (vec_op T)) : bool :=
  match ops with
  | [] => true
  | o :: rest =>
      match o with
      | VSet _ _ => false
      | VExtend xs => (total l + total xs <=? max)%N && plain_history (fst (vec_spec l o)) rest
      | _ => plain_history (fst (vec_spec l o)) rest
      end
  end.
End VecSpec.

(** ** Stack (C37) *)
Inductive stack_op (T : Type) := SPush (x : T) | SPop | SPeek | SInit (x : T) | SClear | SLen | SDrain.
Arguments SPush {T} x. Arguments SPop {T}. Arguments SPeek {T}. Arguments SInit {T} x.
Arguments SClear {T}. Arguments SLen {T}. Arguments SDrain {T}.

Inductive stack_out (T : Type) := SUnit | SItem (x : option T) | SNat (n : nat) | SList (l : list T) | SAbort.
Arguments SUnit {T}. Arguments SItem {T} x. Arguments SNat {T} n. Arguments SList {T} l. Arguments SAbort {T}.

(** Top of the stack first. *)
Definition stack_spec {T} (s : list T) (o : stack_op T) : list T * stack_out T :=
  match o with
  | SPush x => (x :: s, SUnit)
  | SPop => match s with [] => ([], SItem None) | x :: s' => (s', SItem (Some x)) end
  | SPeek => (s, SItem (first_opt s))
  | SInit x => ([x], SUnit)
  | SClear => ([], SUnit)
  | SLen => (s, SNat (length s))
  | SDrain => ([], SList (rev s))
  end.

Fixpoint stack_spec_run {T} (s : list T) (ops : list (stack_op T)) : list (stack_out T) :=
  match ops with
  | [] => []
  | o :: rest => let '(s', out) := stack_spec s o in out :: stack_spec_run s' rest
  end.

(** ** Numbering of values in order of first appearance (C35, C16) *)
Fixpoint index_of {V} (veqb : V -> V -> bool) (v : V) (l : list V) : option nat :=
  match l with
  | [] => None
  | x :: t => if veqb v x then Some 0 else option_map S (index_of veqb v t)
  end.

(** Distinct values in order of first appearance. *)
Definition dedup {V} (veqb : V -> V -> bool) (vs : list V) : list V :=
  fold_left (fun acc v => if existsb (veqb v) acc then acc else acc ++ [v]) vs [].
