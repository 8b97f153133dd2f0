(** Histories: each container of the model driven by a list of operations of
    SpecContainers.v (glue between the two; no behaviour of its own). *)
From Verif Require Import Base RleVec Pool Vecc Bluff SpecContainers.

Section RleHist.
Context {T : Type} (teqb : T -> T -> bool).
Definition rle_step (r : rle T) (o : append_op T) : rle T :=
  match o with APush v => rle_push teqb r v | APushN v n => rle_push_n teqb r v n end.

Definition rle_run (ops : list (append_op T)) : rle T := fold_left rle_step ops rle_new.

End RleHist.

Section VeccHist.
Context {T : Type} (gsize : T -> N).
Definition of_res_unit (r : res unit) : vec_out T :=
  match r with Ok _ => VDone | Err _ => VTooLarge | Panic => VAbort end.
Definition of_res_item (r : res T) : vec_out T :=
  match r with Ok x => VItem (Some x) | Err _ => VTooLarge | Panic => VAbort end.
Definition of_res_opt (r : res (option T)) : vec_out T :=
  match r with Ok x => VItem x | Err _ => VTooLarge | Panic => VAbort end.

Definition vecc_step (m : mode) (v : vecc T) (o : vec_op T) : vecc T * vec_out T :=
  match o with
  | VPush x => let '(v', r) := vecc_push gsize v x in (v', of_res_unit r)
  | VPop => let '(v', r) := vecc_pop gsize m v in (v', of_res_opt r)
  | VSet i x => let '(v', r) := vecc_set gsize v i x in (v', of_res_unit r)
  | VClear => (vecc_clear v, VDone)
  | VRemove i => let '(v', r) := vecc_remove gsize m v i in (v', of_res_item r)
  | VInsert i x => let '(v', r) := vecc_insert gsize v i x in (v', of_res_unit r)
  | VExtend xs => let '(v', r) := vecc_extend gsize v xs in (v', of_res_unit r)
  | VSwapRemove i => let '(v', r) := vecc_swap_remove gsize m v i in (v', of_res_item r)
  | VTruncate n => let '(v', r) := vecc_truncate gsize m v n in (v', of_res_unit r)
  end.

Fixpoint vecc_run (m : mode) (v : vecc T) (ops : list (vec_op T)) : vecc T * list (vec_out T) :=
  match ops with
  | [] => (v, [])
  | o :: rest =>
      match vecc_step m v o with
      | (v', VAbort) => (v', [VAbort])
      | (v', out) => let '(v'', outs) := vecc_run m v' rest in (v'', out :: outs)
      end
  end.

End VeccHist.

Section BluffHist.
Context {T : Type}.
Definition of_res_bluff (b : bluff T) (r : res (bluff T)) : bluff T * stack_out T :=
  match r with Ok b' => (b', SUnit) | _ => (b, SAbort) end.

Definition bluff_step (b : bluff T) (o : stack_op T) : bluff T * stack_out T :=
  match o with
  | SPush x => of_res_bluff b (bluff_push b x)
  | SPop => let '(b', r) := bluff_pop b in (b', match r with Ok x => SItem x | _ => SAbort end)
  | SPeek => (b, match bluff_peek b with Ok x => SItem x | _ => SAbort end)
  | SInit x => of_res_bluff b (bluff_init b x)
  | SClear => (bluff_clear b, SUnit)
  | SLen => (b, SNat (bluff_len b))
  | SDrain => let '(b', r) := bluff_drain b in (b', match r with Ok l => SList l | _ => SAbort end)
  end.

Fixpoint bluff_run (b : bluff T) (ops : list (stack_op T)) : list (stack_out T) :=
  match ops with
  | [] => []
  | o :: rest => let '(b', out) := bluff_step b o in out :: bluff_run b' rest
  end.

End BluffHist.

Section PoolHist.
Context {V : Type} (veqb : V -> V -> bool).
(** Adding a list of values; the ids handed out. *)
Fixpoint pool_adds (p : pool V) (vs : list V) : pool V * list N :=
  match vs with
  | [] => (p, [])
  | v :: rest => let '(p1, id) := pool_add veqb p v in
                 let '(p2, ids) := pool_adds p1 rest in (p2, id :: ids)
  end.

End PoolHist.
